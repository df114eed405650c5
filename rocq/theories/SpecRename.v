(** * SpecRename: sheets that do not mention a class. *)

From Coq Require Import String Ascii List NArith Bool.
From Verif Require Import Str Ast.
Import ListNotations.
Local Open Scope list_scope.

(** The texts of a sheet, each in one piece. *)
Fixpoint rbc_texts (c : rbc) : list str :=
  match c with
  | CAttr a => [a_key a; List.concat (a_value a)]
  | CRule cond l => List.concat cond :: flat_map rbc_texts l
  | CBlock cond l => map (@List.concat _) cond ++ flat_map rbc_texts l
  end.
Definition sheet_texts (s : sheet) : list str := flat_map (fun c => rbc_texts (rbc_of_scope c)) s.

(** No text of the sheet has [.class] in it. *)
Definition unmentioned (class : str) (s : sheet) : Prop :=
  forall t, In t (sheet_texts s) -> ~ exists a b, t = a ++ (lit "." ++ class) ++ b.
