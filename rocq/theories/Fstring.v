(** * Fstring: scanning string fragments for placeholders,
    /repo/packages/stylist-macros/src/literal/fstring.rs.

    The [context] labels only matter for error messages and are dropped. *)

From Coq Require Import String Ascii List NArith Bool Arith.
From Verif Require Import Str Nom CssParser.
Import ListNotations.
Local Open Scope list_scope.

(** [Fragment], fstring.rs 15-18. *)
Inductive ffrag := FLiteral (s : str) | FInterpolation (name : str).

(** [nom::bytes::complete::take_while]: possibly empty. *)
Definition take_while (f : char -> bool) : parser str := fun i =>
  let (a, b) := span f i in ROk b a.

(** [Parser::sp], fstring.rs 37-42; [expect_non_empty] (25-34) is the same function as in
    parser.rs. *)
Definition f_sp : parser str :=
  expect_non_empty (take_while (fun c => mem c sp_chars)).

(** [Parser::trimmed], fstring.rs 45-60. *)
Definition f_trimmed {A} (f : parser A) : parser A := delimited (opt f_sp) f (opt f_sp).

(** [Parser::interpolation], fstring.rs 63-91. *)
Definition f_name : parser str :=
  recognize (preceded alpha1 (many0 (alt [alphanumeric1; tag (lit "_")]))).
Definition f_interpolation : parser ffrag :=
  expect_non_empty
    (map_p FInterpolation
       (delimited (tag (lit "${")) (cut (f_trimmed f_name)) (tag (lit "}")))).

(** [Parser::literal], fstring.rs 93-109; [is_not("${")] stops at either char. *)
Definition f_literal : parser ffrag :=
  expect_non_empty (map_p FLiteral (is_not (lit "${"))).

(** [Parser::fragments], fstring.rs 111-118. *)
Definition f_fragments : parser (list ffrag) :=
  all_consuming (many0 (alt [map_p (fun _ => FLiteral (lit "${")) (tag (lit "$${"));
                             f_literal;
                             f_interpolation])).

(** [Parser::parse], fstring.rs 120-139: [Some] is [Ok]. *)
Inductive scan_result := Scanned (l : list ffrag) | ScanRejected | ScanFuel.
Definition scan (s : str) : scan_result :=
  match f_fragments s with
  | ROk _ l => Scanned l
  | RErr | RFail => ScanRejected
  | RFuel => ScanFuel
  end.
