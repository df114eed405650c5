(** * PropsSize: the CSS of a style is not much bigger than the style (C89). *)

From Coq Require Import String Ascii List NArith Bool Arith Lia.
From Verif Require Import Str Ast Nom CssParser Render SpecSize SizeFacts SizeText.
Import ListNotations.
Local Open Scope list_scope.

(** Whatever the sheet and the class are: the text written is at most the number of items times the square of
    the depth (indentation) and the chars of all texts (conditions written again, with the class in the selectors). *)
Theorem rendered_size : forall class s,
  let depth := sheet_nesting s in
  let room := class_room class in
  List.length (to_style_str class s)
  <= sheet_items s * (12 * ((depth + 2) * (depth + 2)) + 4 * (room * room * (sheet_text s + 1))).
Proof. exact to_style_str_len. Qed.
Print Assumptions rendered_size.

(** A sheet read from a text is not bigger than twice the text. *)
Theorem parsed_no_bigger : forall css s, parse css = Parsed s ->
  sheet_items s + sheet_text s <= 2 * List.length css.
Proof. exact parsed_size. Qed.
Print Assumptions parsed_no_bigger.

(** So the CSS made for a text is at most cubic in the text, and quadratic if its rules are nested
    to a limited depth only. *)
Theorem text_to_css_size : forall css s class, parse css = Parsed s ->
  let n := List.length css in
  let depth := sheet_nesting s in
  let room := class_room class in
  depth <= 2 * n
  /\ List.length (to_style_str class s) <= 2 * n * (12 * ((depth + 2) * (depth + 2)) + 4 * (room * room * (2 * n + 1))).
Proof.
  intros css s class H n depth room. apply parsed_size in H. fold n in H. pose proof (sheet_nesting_items s) as D. fold depth in D.
  split; [lia|]. etransitivity; [apply to_style_str_len|]. fold depth room.
  apply Nat.mul_le_mono; [lia|]. apply Nat.add_le_mono_l, Nat.mul_le_mono_l, Nat.mul_le_mono_l. lia.
Qed.
Print Assumptions text_to_css_size.

(** The cube is needed: a block with [k] rules in each other and a declaration on each level.  Its items and texts are linear in [k]. *)
Theorem cube_reached : forall class k,
  sheet_items (deep k) = 2 * k + 1 /\ sheet_text (deep k) = 10 * k + 2 /\ sheet_nesting (deep k) = k
  /\ 2 * (k * k * k) <= 3 * List.length (to_style_str class (deep k)) + 2 * k.
Proof.
  intros class k. destruct (deep_size k) as (A & B & C). repeat split; auto. apply deep_ge.
Qed.
Print Assumptions cube_reached.

Example deep_2 : to_style_str (Some (lit "c")) (deep 2)
  = lit ".c b {" ++ nl ++ lit "    x: y;" ++ nl ++ lit "}" ++ nl
    ++ lit "@media a {" ++ nl ++ lit "    .c b {" ++ nl ++ lit "        x: y;" ++ nl ++ lit "    }" ++ nl ++ lit "}" ++ nl.
Proof. vm_compute. reflexivity. Qed.
Example deep_parsed : parse (lit "b{x:y;@media a{x:y;}}") = Parsed [SBlock [[lit "b"]] [CAttr (mk_attr (lit "x") [lit "y"]);
    CRule [lit "@media "; lit "a"] [CAttr (mk_attr (lit "x") [lit "y"])]]].
Proof. vm_compute. reflexivity. Qed.
Example deep_sizes : map (fun k => N.of_nat (List.length (to_style_str (Some (lit "c")) (deep k)))) [5; 10; 20] = [425; 2275; 14250]%N.
Proof. vm_compute. reflexivity. Qed.
