(** * SpecOutput: what an output tree means, without generating any code. *)

From Coq Require Import String Ascii List NArith Bool.
From Verif Require Import Str Ast Tok Output.
Import ListNotations.
Local Open Scope list_scope.

(** The text of a piece of output, when the expressions have the values of [rho]. *)
Definition frag_text (rho : env) (f : out_frag) : str :=
  match f with
  | FStr s => s
  | FToken t => ptok_string t
  | FDelim Brace b => if b then lit "{" else lit "}"
  | FDelim Bracket b => if b then lit "[" else lit "]"
  | FDelim Paren b => if b then lit "(" else lit ")"
  | FArg _ c => rho c
  | FExpr (ECode c) => rho c
  | FExpr (ELitStr s) => s
  end.
Definition key_text (rho : env) (k : cow_string) : str :=
  match k with CStr s => s | CRaw c _ => rho c end.

(** The sheet an output tree spells. *)
Fixpoint rbc_meaning (rho : env) (c : out_rbc) : rbc :=
  match c with
  | OutAttr a => CAttr (mk_attr (key_text rho (oa_key a)) (map (frag_text rho) (oa_values a)))
  | OutRule cond l => CRule (map (frag_text rho) cond) (map (rbc_meaning rho) l)
  | OutBlock cond l => CBlock (map (map (frag_text rho)) cond) (map (rbc_meaning rho) l)
  end.
Definition scope_meaning (rho : env) (c : out_scope) : scope_content :=
  match c with
  | OutSRule cond l => SRule (map (frag_text rho) cond) (map (rbc_meaning rho) l)
  | OutSBlock cond l => SBlock (map (map (frag_text rho)) cond) (map (rbc_meaning rho) l)
  end.
Definition sheet_meaning (rho : env) (s : out_sheet) : sheet := map (scope_meaning rho) s.

(** A sheet up to how its text is cut into fragments: every sequence of fragments is joined. *)
Definition joined (l : list str_fragment) : list str_fragment := [List.concat l].
Fixpoint rbc_joined (c : rbc) : rbc :=
  match c with
  | CAttr a => CAttr (mk_attr (a_key a) (joined (a_value a)))
  | CRule cond l => CRule (joined cond) (map rbc_joined l)
  | CBlock cond l => CBlock (map joined cond) (map rbc_joined l)
  end.
Definition scope_joined (c : scope_content) : scope_content :=
  match c with
  | SBlock cond l => SBlock (map joined cond) (map rbc_joined l)
  | SRule cond l => SRule (joined cond) (map rbc_joined l)
  end.
Definition sheet_joined (s : sheet) : sheet := map scope_joined s.

(** Some interpolated expression occurs in the tree. *)
Definition frag_interpolated (f : out_frag) : bool :=
  match f with FArg _ _ | FExpr (ECode _) => true | _ => false end.
Definition key_interpolated (k : cow_string) : bool :=
  match k with CRaw _ _ => true | CStr _ => false end.
Fixpoint rbc_interpolated (c : out_rbc) : bool :=
  match c with
  | OutAttr a => key_interpolated (oa_key a) || existsb frag_interpolated (oa_values a)
  | OutRule cond l => existsb frag_interpolated cond || existsb rbc_interpolated l
  | OutBlock cond l =>
      existsb (existsb frag_interpolated) cond || existsb rbc_interpolated l
  end.
Definition scope_interpolated (c : out_scope) : bool :=
  match c with
  | OutSRule cond l => existsb frag_interpolated cond || existsb rbc_interpolated l
  | OutSBlock cond l =>
      existsb (existsb frag_interpolated) cond || existsb rbc_interpolated l
  end.
Definition interpolated (s : out_sheet) : bool := existsb scope_interpolated s.

(** Keys are only ever made by [into_inner] (style_attr.rs, attribute.rs 114-121), so a [CRaw]
    key carries the kind of an expression. *)
Definition key_ok (k : cow_string) : Prop := match k with CRaw _ d => d = KDynamic | CStr _ => True end.
Fixpoint rbc_keys_ok (c : out_rbc) : Prop :=
  match c with
  | OutAttr a => key_ok (oa_key a)
  | OutRule _ l | OutBlock _ l => fold_right (fun c P => rbc_keys_ok c /\ P) True l
  end.
Definition scope_keys_ok (c : out_scope) : Prop :=
  match c with
  | OutSRule _ l | OutSBlock _ l => fold_right (fun c P => rbc_keys_ok c /\ P) True l
  end.
Definition keys_ok (s : out_sheet) : Prop := Forall scope_keys_ok s.
