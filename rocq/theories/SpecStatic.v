(** * SpecStatic: sheets of which nothing is on the heap. *)

From Coq Require Import List.
From Verif Require Import Str Owned.
Import ListNotations.

(** Every text, list, rule and block is borrowed, and so is what it holds. *)
Definition borrowed {A} (P : A -> Prop) (c : cow A) : Prop :=
  match c with CowBorrowed a => P a | CowOwned _ => False end.
Definition frag_static (f : ofrag) : Prop := borrowed (fun _ => True) (o_inner f).
Definition frags_static : cow (list ofrag) -> Prop := borrowed (Forall frag_static).
Definition selectors_static : cow (list oselector) -> Prop :=
  borrowed (Forall (fun s => frags_static (o_fragments s))).
Inductive rbc_static : orbc -> Prop :=
| static_attr k v : borrowed (fun _ => True) k -> frags_static v -> rbc_static (OAttr (mk_oattr k v))
| static_rule cond l : frags_static cond -> Forall rbc_static l ->
    rbc_static (ORule (Borrowed (mk_orule cond (CowBorrowed l))))
| static_block cond l : selectors_static cond -> Forall rbc_static l ->
    rbc_static (OBlock (Borrowed (mk_oblock cond (CowBorrowed l)))).
Inductive scope_static : oscope -> Prop :=
| static_srule cond l : frags_static cond -> Forall rbc_static l ->
    scope_static (OSRule (mk_orule cond (CowBorrowed l)))
| static_sblock cond l : selectors_static cond -> Forall rbc_static l ->
    scope_static (OSBlock (mk_oblock cond (CowBorrowed l))).
Definition sheet_static : osheet -> Prop := borrowed (Forall scope_static).
