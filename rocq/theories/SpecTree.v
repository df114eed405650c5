(** * SpecTree: the words in which the properties of applications are stated. *)

From Coq Require Import String Ascii List NArith Bool Arith.
From Verif Require Import Str Ast Render Manager SpecManager SpecProgress Hooks SpecHooks Create SpecCreate
  Component SpecComponent Provider Tree.
Import ListNotations.
Local Open Scope list_scope.

(** The application of a server: no state yet, every provider has one of the [n] managers, every
    component is below a provider and only uses [css!]. *)
Fixpoint well_formed (n : nat) (below : bool) (v : view) : Prop :=
  match v with
  | VEnd => True
  | VComp b ch nx =>
      below = true /\ plain_body [] b /\ well_formed n below ch /\ well_formed n below nx
  | VProv k d ch nx => k < n /\ d = None /\ well_formed n true ch /\ well_formed n below nx
  end.

(** The browser shows what the server has sent, as far as it is: every component has the classes
    it has on the server. *)
Fixpoint agrees (s c : live) : Prop :=
  match s, c with
  | LEnd, LEnd => True
  | LComp b cls ch nx, LComp b' cls' ch' nx' => b' = b /\ cls' = cls /\ agrees ch ch' /\ agrees nx nx'
  | LComp b _ _ nx, LCompWait b' _ nx' => b' = b /\ agrees nx nx'
  | LProvDone k _ ch nx, LProv k' _ ch' nx' => k' = k /\ agrees ch ch' /\ agrees nx nx'
  | LProvDone k _ _ nx, LProvWait k' _ _ nx' => k' = k /\ agrees nx nx'
  | _, _ => False
  end.

(** Nothing waits. *)
Fixpoint all_shown (l : live) : bool :=
  match l with
  | LEnd => true
  | LComp _ _ ch nx | LProv _ _ ch nx | LProvDone _ _ ch nx => all_shown ch && all_shown nx
  | LCompWait _ _ _ | LProvWait _ _ _ _ => false
  end.
(** The classes of all components, in document order. *)
Fixpoint classes_of (l : live) : list (list (list str)) :=
  match l with
  | LEnd => []
  | LComp _ cls ch nx => cls :: classes_of ch ++ classes_of nx
  | LProv _ _ ch nx | LProvDone _ _ ch nx => classes_of ch ++ classes_of nx
  | LCompWait _ _ nx | LProvWait _ _ _ nx => classes_of nx
  end.

(** The managers of the application, handles the program owns, are [mi k]. *)
Definition managers_are (p : prog) (ms : list nat) (mi : nat -> nat) : Prop :=
  NoDup ms /\
  forall k h, nth_error ms k = Some h ->
    owns (a_world (p_app p)) h (mi k) /\ ~ In h (manager_handles (p_app p)).

(** On the server: they collect what they make, and have made nothing yet. *)
Definition new_collector (w : world) (mi : nat) : Prop :=
  (exists m, nth_error (w_mgrs w) mi = Some m /\ m_data m <> None)
  /\ forall cid c, nth_error (w_contents w) cid = Some c -> c_mgr c <> mi.
(** In the browser: nothing is registered yet. *)
Definition empty_manager (w : world) (mi : nat) : Prop :=
  exists m, nth_error (w_mgrs w) mi = Some m /\ m_reg m = [].
Definition same_prefix (w : world) (mi : nat) (w' : world) (mi' : nat) : Prop :=
  exists m m', nth_error (w_mgrs w) mi = Some m /\ nth_error (w_mgrs w') mi' = Some m'
    /\ m_prefix m' = m_prefix m.

(** The CSS the components of an application ask classes for. *)
Fixpoint css_of (v : view) : list (option str * sheet) :=
  match v with
  | VEnd => []
  | VComp b ch nx => asks [] b ++ css_of ch ++ css_of nx
  | VProv _ _ ch nx => css_of ch ++ css_of nx
  end.

(** [Q] holds of every component rendered: the number of the manager of its provider, its
    function and its classes.  [cur] is that of the provider above. *)
Fixpoint everywhere (Q : nat -> list bop -> list (list str) -> Prop) (cur : option nat) (l : live) : Prop :=
  match l with
  | LEnd => True
  | LComp b cls ch nx =>
      (exists k, cur = Some k /\ Q k b cls) /\ everywhere Q cur ch /\ everywhere Q cur nx
  | LProv k _ ch nx | LProvDone k _ ch nx => everywhere Q (Some k) ch /\ everywhere Q cur nx
  | LCompWait _ _ nx | LProvWait _ _ _ nx => everywhere Q cur nx
  end.

(** The data [d] has the text of every style whose classes [cls] the function [b] got. *)
Definition served (d : list record) (b : list bop) (cls : list (list str)) : Prop :=
  Forall2 (fun x cl => exists r, In r d
             /\ cl = r_id r :: match fst x with Some l => [l] | None => [] end
             /\ r_text r = to_style_str (Some (r_id r)) (snd x)) (asks [] b) cls.
