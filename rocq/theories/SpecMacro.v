(** * SpecMacro: what a string literal with placeholders means.

    Independent of the scanner, of the output trees and of the generated code. *)

From Coq Require Import String Ascii List NArith Bool.
From Verif Require Import Str Ast Tok.
Import ListNotations.
Local Open Scope list_scope.

(** ** The notation *)

(** A literal piece of text, a dollar-brace written as [$${], or a placeholder [${ name }] with
    blanks around the name. *)
Inductive piece := Text (s : str) | DollarBrace | Hole (before name after : str).

(** How a piece is written. *)
Definition write_piece (p : piece) : str :=
  match p with
  | Text s => s
  | DollarBrace => lit "$${"
  | Hole w n w' => lit "${" ++ w ++ n ++ w' ++ lit "}"
  end.
Definition write (ps : list piece) : str := flat_map write_piece ps.

(** Letters, then letters, digits and underscores. *)
Definition placeholder_name (n : str) : Prop :=
  exists c r, n = c :: r /\ is_ascii_alpha c = true
    /\ Forall (fun x => is_ascii_alnum x = true \/ x = ch "_") r.
(** Spaces, tabs, carriage returns and newlines. *)
Definition blanks (w : str) : Prop := Forall (fun c => In c [32; 9; 13; 10]%N) w.

Definition piece_ok (p : piece) : Prop :=
  match p with
  | Text s => s <> [] /\ Forall (fun c => c <> ch "$" /\ c <> ch "{") s
  | DollarBrace => True
  | Hole w n w' => blanks w /\ placeholder_name n /\ blanks w'
  end.

(** Two texts next to each other cannot be told from one. *)
Fixpoint texts_apart (ps : list piece) : Prop :=
  match ps with
  | Text _ :: ((Text _ :: _) as r) => False
  | _ :: r => texts_apart r
  | [] => True
  end.

(** What a piece stands for, given a text for every placeholder. *)
Definition piece_value (value : str -> str) (p : piece) : str :=
  match p with
  | Text s => s
  | DollarBrace => lit "${"
  | Hole _ n _ => value n
  end.

(** [s], with its placeholders replaced, is [t]. *)
Definition fills (value : str -> str) (s t : str) : Prop :=
  exists ps, Forall piece_ok ps /\ s = write ps /\ t = flat_map (piece_value value) ps.

(** [s] has a placeholder called [n]. *)
Definition has_hole (n s : str) : Prop :=
  exists ps w w', Forall piece_ok ps /\ s = write ps /\ In (Hole w n w') ps.

(** ** Sheets, fragment by fragment *)

(** The same sheet up to its string fragments, which are related by [R].  Names of declarations
    are the same. *)
Inductive like_rbc (R : str -> str -> Prop) : rbc -> rbc -> Prop :=
| like_attr k v v' : Forall2 R v v' -> like_rbc R (CAttr (mk_attr k v)) (CAttr (mk_attr k v'))
| like_rule c c' l l' :
    Forall2 R c c' -> like_rbcs R l l' -> like_rbc R (CRule c l) (CRule c' l')
| like_block c c' l l' :
    Forall2 (Forall2 R) c c' -> like_rbcs R l l' -> like_rbc R (CBlock c l) (CBlock c' l')
with like_rbcs (R : str -> str -> Prop) : list rbc -> list rbc -> Prop :=
| like_nil : like_rbcs R [] []
| like_cons x x' l l' : like_rbc R x x' -> like_rbcs R l l' -> like_rbcs R (x :: l) (x' :: l').
Inductive like_scope (R : str -> str -> Prop) : scope_content -> scope_content -> Prop :=
| like_sblock c c' l l' :
    Forall2 (Forall2 R) c c' -> like_rbcs R l l' -> like_scope R (SBlock c l) (SBlock c' l')
| like_srule c c' l l' :
    Forall2 R c c' -> like_rbcs R l l' -> like_scope R (SRule c l) (SRule c' l').
Definition like_sheet (R : str -> str -> Prop) : sheet -> sheet -> Prop := Forall2 (like_scope R).

(** The sheet with its placeholders replaced. *)
Definition sheet_fills (value : str -> str) : sheet -> sheet -> Prop := like_sheet (fills value).

(** Every string fragment of a sheet: conditions, selectors and values. *)
Fixpoint rbc_strings (c : rbc) : list str :=
  match c with
  | CAttr a => a_value a
  | CRule cond l => cond ++ flat_map rbc_strings l
  | CBlock cond l => List.concat cond ++ flat_map rbc_strings l
  end.
Definition sheet_strings (s : sheet) : list str :=
  flat_map (fun c => rbc_strings (rbc_of_scope c)) s.

(** ** Argument lists *)

(** No comma at top level. *)
Definition no_comma (c : code) : Prop := forall j, ~ In (RPunct (ch ",") j) c.

(** [name = tokens, name = tokens, ...], with an optional comma at the end. *)
Inductive arg_list : list rtok -> list (str * code) -> Prop :=
| al_none : arg_list [] []
| al_last n j c : no_comma c ->
    arg_list (RIdent n :: RPunct (ch "=") j :: c) [(n, c)]
| al_more n j c j' rest l : no_comma c -> arg_list rest l ->
    arg_list (RIdent n :: RPunct (ch "=") j :: c ++ RPunct (ch ",") j' :: rest) ((n, c) :: l).
(** What may follow the string literal: nothing, or a comma and an argument list. *)
Inductive after_literal : list rtok -> list (str * code) -> Prop :=
| after_none : after_literal [] []
| after_comma j rest l : arg_list rest l -> after_literal (RPunct (ch ",") j :: rest) l.

(** The text of argument [n], when the expressions have the texts [rho]. *)
Fixpoint argument (l : list (str * code)) (rho : code -> str) (n : str) : str :=
  match l with
  | [] => []
  | (m, c) :: l' => if str_eqb m n then rho c else argument l' rho n
  end.

(** ** Text in one piece *)

(** [x] is part of [t]. *)
Definition part_of (x t : str) : Prop := exists a b, t = a ++ x ++ b.

(** A sheet with each of its texts in one fragment, or in none if there is no text. *)
Definition compact (l : list str_fragment) : list str_fragment :=
  match List.concat l with [] => [] | t => [t] end.
Fixpoint rbc_compact (c : rbc) : rbc :=
  match c with
  | CAttr a => CAttr (mk_attr (a_key a) (compact (a_value a)))
  | CRule cond l => CRule (compact cond) (map rbc_compact l)
  | CBlock cond l => CBlock (map compact cond) (map rbc_compact l)
  end.
Definition scope_compact (c : scope_content) : scope_content :=
  match c with
  | SBlock cond l => SBlock (map compact cond) (map rbc_compact l)
  | SRule cond l => SRule (compact cond) (map rbc_compact l)
  end.
Definition sheet_compact (s : sheet) : sheet := map scope_compact s.
