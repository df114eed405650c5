(** * SpecProvider: the words in which the properties of providers are stated. *)

From Coq Require Import String Ascii List NArith Bool Arith.
From Verif Require Import Str Ast Manager SpecManager Hooks SpecHooks Provider.
Import ListNotations.
Local Open Scope list_scope.

(** A component below the provider whose handle is [ctx] is rendered with the sheet [s] and gets
    the class [id]: with the hook [use_style], or with the [css!] of a [styled_component]. *)
Inductive component_class (e : env) (ctx : nat) (s : sheet) (a a' : app) (id : str) : Prop :=
| class_hook src x :
    user_source a src = true -> s_sheet src = s ->
    use_style e (Some ctx) src a = Some (a', x) -> get_id (a_world a') x = Some id ->
    component_class e ctx s a a' id
| class_css loc a0 src rest :
    component_css e (Some ctx) loc s a = Some (a0, src) ->
    into_classes e src a0 = Some (a', id :: rest) ->
    component_class e ctx s a a' id.

(** The manager number [mi] makes classes with the prefix [p]. *)
Definition manager_prefix (w : world) (mi : nat) (p : str) : Prop :=
  exists m, nth_error (w_mgrs w) mi = Some m /\ m_prefix m = p.
(** It keeps style data (static mode). *)
Definition keeps_data (w : world) (mi : nat) : Prop :=
  exists m d, nth_error (w_mgrs w) mi = Some m /\ m_data m = Some d.
