(** * PropsDepth: how deep the calls of the parser nest (C90).

    [parse_within d css] is the parser with room for [d] nested calls; [OutOfFuel] says that it
    needed more.  [sheet_nesting s] is how deep rules are nested in the style [s]. *)

From Coq Require Import String Ascii List NArith Bool Arith Lia.
From Verif Require Import Str Ast Nom CssParser SpecSize SpecDepth ParserTotal DepthFacts DepthNest DepthGates.
Import ListNotations.
Local Open Scope list_scope.

(** When the room was enough, the result is the one of [Parser::parse]. *)
Theorem room_changes_nothing d css :
  parse_within d css <> OutOfFuel -> parse_within d css = parse css.
Proof. apply within_parse. Qed.

(** Any text: room for its opening braces, and two more calls, is enough. *)
Theorem braces_are_enough d css : opens css + 2 <= d -> parse_within d css = parse css.
Proof. intros H. now apply within_parse, within_opens. Qed.

(** A text that is accepted: room for the nesting of its style, and two more calls, is enough,
    however long the text is and however many braces it has. *)
Theorem nesting_is_enough d css s :
  parse css = Parsed s -> sheet_nesting s + 2 <= d -> parse_within d css = Parsed s.
Proof. apply within_nesting. Qed.

(** So a style without nested rules is read in a constant room. *)
Theorem flat_is_constant css s : parse css = Parsed s -> sheet_nesting s = 0 -> parse_within 2 css = Parsed s.
Proof. intros H E. apply nesting_is_enough; auto. rewrite E. auto. Qed.

(** Room for less than the nesting is not enough. *)
Theorem nesting_is_needed d css s :
  parse css = Parsed s -> d < sheet_nesting s -> parse_within d css = OutOfFuel.
Proof.
  intros H Hd. destruct (parse_within d css) as [s'| |] eqn:E; auto; exfalso.
  - pose proof (within_parse d css) as W. rewrite E in W. rewrite H in W.
    injection (W ltac:(discriminate)) as ->. apply within_needs in E. lia.
  - pose proof (within_parse d css) as W. rewrite E in W. rewrite H in W. now discriminate W.
Qed.

(** And a text that is rejected may need room for all its opening braces. *)
Theorem braces_are_needed n d :
  1 <= n -> d <= n ->
  opens (gates n) = n /\ parse (gates n) = Rejected /\ parse_within d (gates n) = OutOfFuel.
Proof.
  intros H1 Hd. split; [apply gates_opens|]. split; [|now apply gates_within].
  destruct n; [lia|]. apply gates_rejected.
Qed.

(** ** Cases *)

Definition of_result (r : parse_result) : option nat :=
  match r with Parsed s => Some (sheet_nesting s) | _ => None end.

(** Three blocks one after the other: no nesting, three opening braces. *)
Definition flat_text : str := lit "color: red; a { b: c; } d, e { f: g; } &:hover { h: i; }".
Example flat_text_room :
  of_result (parse flat_text) = Some 0 /\ parse_within 2 flat_text = parse flat_text
  /\ parse_within 1 flat_text = OutOfFuel /\ opens flat_text = 3.
Proof. vm_compute. auto. Qed.

Definition nested_text : str := lit "a { b: c; } @media x { d: e; @supports y { f { g: h; @media z { i: j; } } } }".
Example nested_text_room :
  of_result (parse nested_text) = Some 3 /\ parse_within 5 nested_text = parse nested_text
  /\ parse_within 4 nested_text = OutOfFuel /\ parse_within 2 nested_text = OutOfFuel.
Proof. vm_compute. auto. Qed.

Definition frames_text : str := lit "@keyframes k { from { a: b; } to { c: d; } }".
Example frames_text_room :
  of_result (parse frames_text) = Some 2 /\ parse_within 2 frames_text = parse frames_text
  /\ parse_within 1 frames_text = OutOfFuel.
Proof. vm_compute. auto. Qed.

Example gates_room :
  gates 2 = lit "@media a{@media a{" /\ parse_within 2 (gates 2) = OutOfFuel /\ parse_within 3 (gates 2) = Rejected.
Proof. vm_compute. auto. Qed.

Print Assumptions room_changes_nothing.
Print Assumptions braces_are_enough.
Print Assumptions nesting_is_enough.
Print Assumptions flat_is_constant.
Print Assumptions nesting_is_needed.
Print Assumptions braces_are_needed.
