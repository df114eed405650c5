(** * CssParser: the run-time CSS parser, /repo/packages/stylist-core/src/parser.rs.

    Function by function.  [traced_context] (29-64) only logs and labels errors, and is
    dropped.  [String::trim] is [Str.trim].  The recursion [rule_block] /
    [rule_block_contents] and [scope_contents] / [at_rule] is bounded by a depth [d]; running
    out of it is [RFuel], shown impossible in [ParserTotal.v]. *)

From Coq Require Import String Ascii List NArith Bool Arith.
From Verif Require Import Str Ast Nom.
Import ListNotations.
Local Open Scope list_scope.

(** Rust literals containing a double quote. *)
Definition dquote : str := [34%N].

(** [expect_non_empty], parser.rs 67-83 *)
Definition expect_non_empty {A} (p : parser A) : parser A := fun i =>
  match i with [] => RErr | _ :: _ => p i end.

(** [chars] of [sp], parser.rs 129: [" \t\r\n"] *)
Definition sp_chars : str := [32%N; 9%N; 13%N; 10%N].

(** [Parser::cmt], parser.rs 113-125 *)
Definition cmt : parser str :=
  delimited (tag (lit "/*"))
    (recognize (many0 (alt [is_not (lit "*");
                            terminated (tag (lit "*")) (not_p (char_p (ch "/")))])))
    (tag (lit "*/")).

(** [Parser::sp], parser.rs 128-132 *)
Definition sp : parser str :=
  recognize (many0 (alt [take_while1 (fun c => mem c sp_chars); cmt])).

(** [Parser::trimmed], parser.rs 92-108 *)
Definition trimmed {A} (f : parser A) : parser A := delimited sp f sp.

(** [char::is_ascii] *)
Definition is_ascii (c : char) : bool := N.ltb c 128.

(** [Parser::ident], parser.rs 137-155 *)
Definition ident : parser str :=
  recognize (preceded
    (alt [tag (lit "-"); tag (lit "_"); alpha1; take_while1 (fun c => negb (is_ascii c))])
    (many0 (alt [tag (lit "-"); tag (lit "_"); alphanumeric1;
                 take_while1 (fun c => negb (is_ascii c))]))).

(** [Parser::style_attr_key], parser.rs 157-159 *)
Definition style_attr_key : parser str := trimmed ident.

(** [Parser::interpolation], parser.rs 235-247 *)
Definition interpolation : parser str :=
  trimmed (expect_non_empty (delimited (tag (lit "${"))
    (trimmed (recognize (preceded alpha1 (many0 (alt [alphanumeric1; tag (lit "_")])))))
    (tag (lit "}")))).

(** [Parser::string], parser.rs 222-231 *)
Definition string_p : parser str :=
  trimmed (expect_non_empty (recognize (preceded (tag dquote)
    (terminated
       (many0 (alt [is_not (lit "\" ++ dquote);
                    recognize (preceded (tag (lit "\")) anychar)]))
       (tag dquote))))).

(** [Parser::style_attr_value], parser.rs 162-177 *)
Definition style_attr_value : parser str :=
  trimmed (map_p trim
    (recognize (many1 (alt [is_not (lit "${;}/" ++ dquote);
                            recognize interpolation;
                            string_p;
                            recognize (preceded (tag (lit "/"))
                                                (none_of (lit "${;}" ++ dquote ++ lit "*")))])))).

(** [Parser::attribute], parser.rs 180-197 *)
Definition attribute : parser attr :=
  trimmed (expect_non_empty
    (map_p (fun p => mk_attr (trim (fst p)) [snd p])
       (separated_pair style_attr_key (tag (lit ":")) style_attr_value))).

(** [Parser::attributes], parser.rs 199-218 *)
Definition attributes (dangling : bool) : parser (list attr) :=
  let final_semicolon :=
    if dangling then map_p Some (tag (lit ";")) else opt (tag (lit ";")) in
  trimmed (expect_non_empty
    (terminated (separated_list1 (tag (lit ";")) attribute)
                (preceded (opt sp) final_semicolon))).

(** [Parser::selector], parser.rs 251-263 *)
Definition selector_p : parser selector :=
  trimmed (expect_non_empty
    (map_p (fun p => [trim p])
       (recognize (many1 (alt [recognize (preceded (none_of (lit "$,}@{" ++ dquote))
                                                   (opt (is_not (lit "$," ++ dquote ++ lit "{"))));
                               string_p;
                               recognize interpolation]))))).

(** [Parser::condition], parser.rs 266-274 *)
Definition condition : parser (list selector) :=
  trimmed (expect_non_empty (many1 (terminated selector_p (opt (tag (lit ",")))))).

(** [Parser::at_rule_condition], parser.rs 397-428; [tags] is the tuple of accepted names. *)
Definition at_rule_condition (tags : list (parser str)) : parser (list str) :=
  trimmed (expect_non_empty
    (map_p (fun p => [fst p; snd p])
       (pair_p (recognize (terminated (alt tags) (tag (lit " "))))
               (map_p trim (recognize (many1 (alt [is_not (lit "${"); recognize interpolation]))))))).

(** The conditions of [rule_block] by kind, parser.rs 341-348. *)
Definition other_condition : parser (list str) :=
  at_rule_condition [tag (lit "@container"); tag (lit "@media"); tag (lit "@supports")].
Definition frame_condition : parser (list str) :=
  map_p (fun m => [trim m]) (recognize condition).

(** The loop shared by [block_contents] (280-291) and [rule_block_contents] (320-333):
    style attributes, or a nested rule parsed by [rule]. *)
Definition contents_loop (rule : parser rbc) : parser (list rbc) :=
  map_p (@List.concat rbc)
    (many0 (alt [map_p (map CAttr) (attributes false); map_p (fun m => [m]) rule])).

(** [Parser::block_contents], parser.rs 276-295 *)
Definition block_contents (rule : parser rbc) : parser (list rbc) :=
  trimmed (expect_non_empty (contents_loop rule)).

(** [Parser::rule_block_contents], parser.rs 316-337 *)
Definition rule_block_contents (rule : parser rbc) : parser (list rbc) :=
  expect_non_empty (contents_loop rule).

(** [Parser::rule_block], parser.rs 340-367, for the condition parser [cond] and the nested
    rule parser [rule]. *)
Definition rule_block_with (cond : parser (list str)) (rule : parser rbc) : parser rbc :=
  trimmed (expect_non_empty
    (map_p (fun p => CRule (fst p) (snd p))
       (separated_pair cond (tag (lit "{"))
                       (terminated (rule_block_contents rule) (tag (lit "}")))))).

(** [rule_block(i, RuleBlockKind::Other)] with nesting depth at most [d]. *)
Fixpoint rule_block_other (d : nat) : parser rbc :=
  match d with
  | O => fun _ => RFuel
  | S d' => rule_block_with other_condition (rule_block_other d')
  end.

(** [rule_block(i, RuleBlockKind::Keyframes)] *)
Definition rule_block_frame (d : nat) : parser rbc :=
  rule_block_with frame_condition (rule_block_other d).

(** [Parser::block], parser.rs 298-314 *)
Definition block (d : nat) : parser scope_content :=
  trimmed (expect_non_empty
    (map_p (fun p => SBlock (fst p) (snd p))
       (pair_p condition
               (delimited (tag (lit "{")) (trimmed (block_contents (rule_block_other d)))
                          (tag (lit "}")))))).

(** [Parser::dangling_block], parser.rs 370-387 *)
Definition dangling_block : parser scope_content :=
  trimmed (expect_non_empty
    (map_p (fun l => SBlock [] (map CAttr l)) (attributes true))).

(** [Parser::keyframes], parser.rs 430-455, mapped to [ScopeContent::Rule] (508) *)
Definition keyframes (d : nat) : parser scope_content :=
  trimmed (map_p (fun p => SRule (fst p) (snd p))
    (separated_pair (at_rule_condition [tag (lit "@keyframes"); fail_p])
                    (tag (lit "{"))
                    (terminated (many0 (rule_block_frame d)) (tag (lit "}"))))).

(** [Parser::at_rule], parser.rs 458-494, for the scope parser [contents]. *)
Definition at_rule_with (contents : parser (list scope_content)) : parser scope_content :=
  trimmed (expect_non_empty
    (map_p (fun p => SRule (fst p) (map rbc_of_scope (snd p)))
       (separated_pair
          (at_rule_condition [tag (lit "@container"); tag (lit "@supports"); tag (lit "@media")])
          (tag (lit "{"))
          (terminated contents (tag (lit "}")))))).

(** [Parser::scope_contents], parser.rs 497-511, with nesting depth at most [d]. *)
Fixpoint scope_contents (d : nat) : parser (list scope_content) :=
  match d with
  | O => fun _ => RFuel
  | S d' =>
      trimmed (expect_non_empty
        (many0 (alt [dangling_block; block d'; at_rule_with (scope_contents d'); keyframes d'])))
  end.

(** [Parser::scope], parser.rs 390-395 *)
Definition scope (d : nat) : parser (list scope_content) :=
  trimmed (expect_non_empty (scope_contents d)).

(** [Parser::sheet], parser.rs 515-523 *)
Definition sheet_p (d : nat) : parser sheet :=
  trimmed (map_p (@List.concat scope_content) (many0 (scope d))).

(** What [Parser::parse] returns: [Ok(sheet)] or [Err(Error::Parse { .. })]; [OutOfFuel]
    stands for the model's bounds. *)
Inductive parse_result :=
| Parsed (s : sheet)
| Rejected
| OutOfFuel.

(** [Parser::parse], parser.rs 526-545: the rest of the input is ignored on [Ok].  The depth
    bound is the length of the input plus two (every level consumes a brace). *)
Definition parse (css : str) : parse_result :=
  match sheet_p (S (S (List.length css))) css with
  | ROk _ s => Parsed s
  | RErr | RFail => Rejected
  | RFuel => OutOfFuel
  end.
