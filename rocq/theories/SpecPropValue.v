(** * SpecPropValue: the words in which the properties of CSS given as properties are stated. *)

From Coq Require Import String Ascii List NArith Bool Arith.
From Verif Require Import Str Ast Manager Hooks SpecProgress Create SpecCreate Component SpecComponent PropValue.
Import ListNotations.
Local Open Scope list_scope.

(** The ids of styles loaded, and the program unregisters a style by hand. *)
Definition eloaded (l : list elem) : list str :=
  flat_map (fun o => match o with EDo o => cloaded [o] | _ => [] end) l.
Definition eunregisters (o : elem) : bool :=
  match o with EDo o => cunregisters o | _ => false end.

(** The [Global] number [i] is rendered again or unmounted. *)
Definition atouches (i : nat) (o : aop) : bool :=
  match o with ARender j _ _ | AUnmount j => Nat.eqb i j | _ => false end.
Definition ptouches (i : nat) (o : pop) : bool :=
  match o with PApp o => atouches i o | _ => false end.
Definition ctouches (i : nat) (o : cop) : bool :=
  match o with
  | CDo o => ptouches i o
  | CRender _ body => existsb (fun b => match b with BDo o => ptouches i o | _ => false end) body
  end.
Definition etouches (i : nat) (o : elem) : bool :=
  match o with
  | EDo o => ctouches i o
  | EGlobal _ (Some j) _ _ => Nat.eqb i j
  | _ => false
  end.

(** The number of the [Global] that is rendered. *)
Definition which (at_ : option nat) (p : prog) : nat :=
  match at_ with Some i => i | None => List.length (a_globals (p_app p)) end.

(** What Rust's ownership asks for: a [Global] that is rendered again is mounted, and the managers
    that are used are there. *)
Definition may_render (p : prog) (at_ : option nat) (c : css) : Prop :=
  not_dropped (p_app p) (css_manager c)
  /\ match at_ with
     | Some i => exists g, nth_error (a_globals (p_app p)) i = Some (Some g)
     | None => True
     end.
