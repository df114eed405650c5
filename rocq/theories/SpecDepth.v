(** * SpecDepth: how deep the calls of the parser may nest (C90). *)

From Coq Require Import String Ascii List NArith Bool Arith.
From Verif Require Import Str Ast Nom CssParser.
Import ListNotations.
Local Open Scope list_scope.

(** [Parser::parse] (/repo/packages/stylist-core/src/parser.rs 526-545) with room for [d] calls,
    one inside another, of the two parsers that call themselves: [Parser::scope_contents]
    (497-511, through [at_rule], 458-494) and [Parser::rule_block] (340-367, through
    [rule_block_contents], 316-337).  The call for a frame of [@keyframes] is not counted: it
    happens at one level only.  [OutOfFuel] is a run that needed more room. *)
Definition parse_within (d : nat) (css : str) : parse_result :=
  match sheet_p d css with
  | ROk _ s => Parsed s
  | RErr | RFail => Rejected
  | RFuel => OutOfFuel
  end.

(** The opening braces of a text. *)
Fixpoint opens (css : str) : nat :=
  match css with
  | [] => 0
  | c :: css' => (if char_eqb c (ch "{") then 1 else 0) + opens css'
  end.

(** [@media a{], [n] times, and nothing closed *)
Fixpoint gates (n : nat) : str := match n with O => [] | S n => lit "@media a{" ++ gates n end.
