(** * SpecHooks: the words in which the properties of components and hooks are stated. *)

From Coq Require Import String Ascii List NArith Bool Arith.
From Verif Require Import Str Ast Manager SpecManager Hooks.
Import ListNotations.
Local Open Scope list_scope.

(** A manager some handle is on. *)
Definition mlive (w : world) (mi : nat) : Prop := exists h, handle_of (w_mhandles w) h = Some mi.

(** What the [Global] number [i], if mounted, carries: its manager and its CSS. *)
Definition carried (a : app) (i : nat) : option (nat * sheet) :=
  match nth_error (a_globals a) i with
  | Some (Some g) =>
      match handle_of (w_mhandles (a_world a)) (g_manager g) with
      | Some mi => Some (mi, s_sheet (g_source g))
      | None => None
      end
  | _ => None
  end.

(** The manager of a component: the one of the provider around it, whose handle is [ctx], when
    it is rendered in the program [a]; without a provider the default manager, which exists
    after that, in [a1]. *)
Definition context_is (a a1 : app) (ctx : option nat) (mi : nat) : Prop :=
  match ctx with
  | Some h => handle_of (w_mhandles (a_world a)) h = Some mi
  | None => exists d, a_default a1 = Some d /\ handle_of (w_mhandles (a_world a1)) d = Some mi
  end.

(** The manager of a source: the attached one, else the default one. *)
Definition source_manager_is (a a1 : app) (src : source) (mi : nat) : Prop :=
  context_is a a1 (s_manager src) mi.

(** Programs that load no style data. *)
Definition loads_nothing (l : list aop) : Prop := forall h d, ~ In (AOp (OLoad h d)) l.
(** Programs in which all global styles are those of [Global] components. *)
Definition globals_only (o : aop) : bool :=
  match o with
  | AOp (OCreate _ k) => negb (k_global k)
  | AOp (OLoad _ _) => false
  | _ => true
  end.
(** User code unregisters a style. *)
Definition unregisters (o : aop) : bool := match o with AOp (OUnregister _) => true | _ => false end.

(** What a server does: it renders each component once, makes no global styles of its own, loads
    nothing and unregisters nothing. *)
Definition serves (o : aop) : Prop :=
  match o with ARender _ _ _ => False | _ => globals_only o = true /\ unregisters o = false end.

(** Rendered again with what it was rendered with: an equal source, in the manager [mi]. *)
Definition same_props (a : app) (i : nat) (ctx : option nat) (src : source) (mi : nat) : Prop :=
  context_is a a ctx mi
  /\ exists g, nth_error (a_globals a) i = Some (Some g) /\ source_eqb (a_world a) (g_source g) src = true.
(** A program in which no [Global] that carries [s] in the manager [mi] is unmounted or given
    other properties, and user code unregisters nothing. *)
Fixpoint spares (y : yew) (e : env) (a : app) (l : list aop) (mi : nat) (s : sheet) : Prop :=
  match l with
  | [] => True
  | o :: l' =>
      match o with
      | AUnmount i => carried a i <> Some (mi, s)
      | ARender i ctx src => carried a i = Some (mi, s) -> same_props a i ctx src mi
      | _ => unregisters o = false
      end
      /\ match astep y e a o with Some a1 => spares y e a1 l' mi s | None => True end
  end.

(** A program as a server runs it, which renders each component once: no [Global] is rendered
    again, user code unregisters nothing and makes no global styles of its own; and the CSS of
    [Global]s that were unmounted, [gone], is not mounted again in the manager [mi]. *)
Fixpoint orderly (y : yew) (e : env) (a : app) (l : list aop) (mi : nat) (gone : list sheet) : Prop :=
  match l with
  | [] => True
  | o :: l' =>
      match o with ARender _ _ _ => False | _ => globals_only o = true /\ unregisters o = false end
      /\ match astep y e a o with
         | None => True
         | Some a1 =>
             match o with
             | AMount _ _ =>
                 (forall s, carried a1 (List.length (a_globals a)) = Some (mi, s) -> ~ In s gone)
                 /\ orderly y e a1 l' mi gone
             | AUnmount i =>
                 orderly y e a1 l' mi
                   match carried a i with
                   | Some (mj, s) => if Nat.eqb mj mi then s :: gone else gone
                   | None => gone
                   end
             | _ => orderly y e a1 l' mi gone
             end
         end
  end.

(** The ids drawn in the program are told apart, and from those of the page. *)
Definition ids_apart (e : env) (page : dom) (n : nat) : Prop :=
  draws_apart (e_draw e) n /\ (forall id, In id (page_ids page) -> not_drawn (e_draw e) n id).

(** The number of style elements of the document with a text. *)
Definition copies (t : str) (d : dom) : nat :=
  List.length (flat_map (fun n => if n_in_document n then
    flat_map (fun c => match c with
                       | EStyle _ t' => if str_eqb t' t then [t] else []
                       | EOther => []
                       end) (n_children n)
    else []) d).

(** The media at the end of a history. *)
Fixpoint media_now (m : media) (l : list mop) : media :=
  match l with
  | [] => m
  | MMedia m' :: l' => media_now m' l'
  | _ :: l' => media_now m l'
  end.
(** Renderings of a history, and changes of the media. *)
Definition renders_with (q : str) (o : mop) : Prop := match o with MRender q' => q' = q | _ => True end.
Definition no_render (o : mop) : Prop := match o with MRender _ => False | _ => True end.
Definition no_media (o : mop) : Prop := match o with MMedia _ => False | _ => True end.
