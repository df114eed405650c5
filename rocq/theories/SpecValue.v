(** * SpecValue: values of declarations as CSS has them (C93).

    CSS Syntax Level 3, 5.4.4 and 5.4.8: a value is a sequence of component values; strings in
    either quotes, [url(..)] without quotes, and blocks in parentheses, brackets and braces belong to it
    as a whole.  It ends at the first semicolon outside of these. *)

From Coq Require Import String Ascii List NArith Bool.
From Verif Require Import Str.
Import ListNotations.
Local Open Scope list_scope.

Definition squote : char := 39%N.

(** The inside of a string in the quotes [q]: no newline, and [q] and backslashes only escaped. *)
Inductive quoted_body (q : char) : str -> Prop :=
| qb_nil : quoted_body q []
| qb_char c b : c <> q -> c <> 92%N -> c <> 10%N -> quoted_body q b -> quoted_body q (c :: b)
| qb_escape c b : c <> 10%N -> quoted_body q b -> quoted_body q (92%N :: c :: b).

Definition brackets (o c : char) : Prop :=
  (o = ch "(" /\ c = ch ")") \/ (o = ch "[" /\ c = ch "]") \/ (o = ch "{" /\ c = ch "}").

(** [css_value true] is the text of a value, [css_value false] what may be in a block.  Comments are left
    out, backslashes outside strings too. *)
Inductive css_value (top : bool) : str -> Prop :=
| cv_nil : css_value top []
| cv_char c v : ~ In c (lit "()[]{};\'" ++ [34%N]) -> (c = ch "/" -> hd_error v <> Some (ch "*")) ->
    css_value top v -> css_value top (c :: v)
| cv_semicolon v : top = false -> css_value top v -> css_value top (ch ";" :: v)
| cv_string q b v : q = 34%N \/ q = squote -> quoted_body q b -> css_value top v ->
    css_value top (q :: b ++ [q] ++ v)
| cv_url u v : Forall (fun c => ~ In c ([32; 9; 10; 13; 12; 34; 39; 40; 41; 92]%N)) u -> css_value top v ->
    css_value top (lit "url(" ++ u ++ lit ")" ++ v)
| cv_block o b c v : brackets o c -> css_value false b -> css_value top v ->
    css_value top (o :: b ++ [c] ++ v).

(** A declaration outside braces, and the style that has only this declaration. *)
Definition decl_css (k v : str) : str := k ++ lit ":" ++ v ++ lit ";".
