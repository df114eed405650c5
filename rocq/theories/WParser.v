(** * WParser: the run-time CSS parser of [CssParser.v] with the work it does.

    /repo/packages/stylist-core/src/parser.rs, function by function, on top of [WNom.v]. *)

From Coq Require Import String Ascii List NArith Bool Arith.
From Verif Require Import Str Ast Nom CssParser WNom.
Import ListNotations.
Local Open Scope list_scope.

(** [expect_non_empty], parser.rs 67-83 *)
Definition w_expect_non_empty {A} (p : wparser A) : wparser A := fun i =>
  match i with [] => (RErr, 1%N) | _ :: _ => more 1 (p i) end.

(** [Parser::cmt], parser.rs 113-125 *)
Definition w_cmt : wparser str :=
  wdelimited (wtag (lit "/*"))
    (wrecognize (wmany0 (walt [wis_not (lit "*");
                            wterminated (wtag (lit "*")) (wnot (wchar (ch "/")))])))
    (wtag (lit "*/")).

(** [Parser::sp], parser.rs 128-132 *)
Definition w_sp : wparser str :=
  wrecognize (wmany0 (walt [wwhile1 (fun c => mem c sp_chars); w_cmt])).

(** [Parser::trimmed], parser.rs 92-108 *)
Definition w_trimmed {A} (f : wparser A) : wparser A := wdelimited w_sp f w_sp.

(** [Parser::ident], parser.rs 137-155 *)
Definition w_ident : wparser str :=
  wrecognize (wpreceded
    (walt [wtag (lit "-"); wtag (lit "_"); walpha1; wwhile1 (fun c => negb (is_ascii c))])
    (wmany0 (walt [wtag (lit "-"); wtag (lit "_"); walphanumeric1;
                 wwhile1 (fun c => negb (is_ascii c))]))).

(** [Parser::style_attr_key], parser.rs 157-159 *)
Definition w_style_attr_key : wparser str := w_trimmed w_ident.

(** [Parser::interpolation], parser.rs 235-247 *)
Definition w_interpolation : wparser str :=
  w_trimmed (w_expect_non_empty (wdelimited (wtag (lit "${"))
    (w_trimmed (wrecognize (wpreceded walpha1 (wmany0 (walt [walphanumeric1; wtag (lit "_")])))))
    (wtag (lit "}")))).

(** [Parser::string], parser.rs 222-231 *)
Definition w_string_p : wparser str :=
  w_trimmed (w_expect_non_empty (wrecognize (wpreceded (wtag dquote)
    (wterminated
       (wmany0 (walt [wis_not (lit "\" ++ dquote);
                    wrecognize (wpreceded (wtag (lit "\")) wanychar)]))
       (wtag dquote))))).

(** [Parser::style_attr_value], parser.rs 162-177 *)
Definition w_style_attr_value : wparser str :=
  w_trimmed (wmap trim
    (wrecognize (wmany1 (walt [wis_not (lit "${;}/" ++ dquote);
                            wrecognize w_interpolation;
                            w_string_p;
                            wrecognize (wpreceded (wtag (lit "/"))
                                                (wnone_of (lit "${;}" ++ dquote ++ lit "*")))])))).

(** [Parser::attribute], parser.rs 180-197 *)
Definition w_attribute : wparser attr :=
  w_trimmed (w_expect_non_empty
    (wmap (fun p => mk_attr (trim (fst p)) [snd p])
       (wseparated_pair w_style_attr_key (wtag (lit ":")) w_style_attr_value))).

(** [Parser::attributes], parser.rs 199-218 *)
Definition w_attributes (dangling : bool) : wparser (list attr) :=
  let final_semicolon :=
    if dangling then wmap Some (wtag (lit ";")) else wopt (wtag (lit ";")) in
  w_trimmed (w_expect_non_empty
    (wterminated (wseparated_list1 (wtag (lit ";")) w_attribute)
                (wpreceded (wopt w_sp) final_semicolon))).

(** [Parser::selector], parser.rs 251-263 *)
Definition w_selector_p : wparser selector :=
  w_trimmed (w_expect_non_empty
    (wmap (fun p => [trim p])
       (wrecognize (wmany1 (walt [wrecognize (wpreceded (wnone_of (lit "$,}@{" ++ dquote))
                                                   (wopt (wis_not (lit "$," ++ dquote ++ lit "{"))));
                               w_string_p;
                               wrecognize w_interpolation]))))).

(** [Parser::condition], parser.rs 266-274 *)
Definition w_condition : wparser (list selector) :=
  w_trimmed (w_expect_non_empty (wmany1 (wterminated w_selector_p (wopt (wtag (lit ",")))))).

(** [Parser::at_rule_condition], parser.rs 397-428; [tags] is the tuple of accepted names. *)
Definition w_at_rule_condition (tags : list (wparser str)) : wparser (list str) :=
  w_trimmed (w_expect_non_empty
    (wmap (fun p => [fst p; snd p])
       (wpair (wrecognize (wterminated (walt tags) (wtag (lit " "))))
               (wmap trim (wrecognize (wmany1 (walt [wis_not (lit "${"); wrecognize w_interpolation]))))))).

(** The conditions of [rule_block] by kind, parser.rs 341-348. *)
Definition w_other_condition : wparser (list str) :=
  w_at_rule_condition [wtag (lit "@container"); wtag (lit "@media"); wtag (lit "@supports")].
Definition w_frame_condition : wparser (list str) :=
  wmap (fun m => [trim m]) (wrecognize w_condition).

(** The loop shared by [block_contents] (280-291) and [rule_block_contents] (320-333):
    style attributes, or a nested rule parsed by [rule]. *)
Definition w_contents_loop (rule : wparser rbc) : wparser (list rbc) :=
  wmap (@List.concat rbc)
    (wmany0 (walt [wmap (map CAttr) (w_attributes false); wmap (fun m => [m]) rule])).

(** [Parser::block_contents], parser.rs 276-295 *)
Definition w_block_contents (rule : wparser rbc) : wparser (list rbc) :=
  w_trimmed (w_expect_non_empty (w_contents_loop rule)).

(** [Parser::rule_block_contents], parser.rs 316-337 *)
Definition w_rule_block_contents (rule : wparser rbc) : wparser (list rbc) :=
  w_expect_non_empty (w_contents_loop rule).

(** [Parser::rule_block], parser.rs 340-367, for the condition parser [cond] and the nested
    rule parser [rule]. *)
Definition w_rule_block_with (cond : wparser (list str)) (rule : wparser rbc) : wparser rbc :=
  w_trimmed (w_expect_non_empty
    (wmap (fun p => CRule (fst p) (snd p))
       (wseparated_pair cond (wtag (lit "{"))
                       (wterminated (w_rule_block_contents rule) (wtag (lit "}")))))).

(** [rule_block(i, RuleBlockKind::Other)] with nesting depth at most [d]. *)
Fixpoint w_rule_block_other (d : nat) : wparser rbc :=
  match d with
  | O => fun _ => (RFuel, 0%N)
  | S d' => w_rule_block_with w_other_condition (w_rule_block_other d')
  end.

(** [rule_block(i, RuleBlockKind::Keyframes)] *)
Definition w_rule_block_frame (d : nat) : wparser rbc :=
  w_rule_block_with w_frame_condition (w_rule_block_other d).

(** [Parser::block], parser.rs 298-314 *)
Definition w_block (d : nat) : wparser scope_content :=
  w_trimmed (w_expect_non_empty
    (wmap (fun p => SBlock (fst p) (snd p))
       (wpair w_condition
               (wdelimited (wtag (lit "{")) (w_trimmed (w_block_contents (w_rule_block_other d)))
                          (wtag (lit "}")))))).

(** [Parser::dangling_block], parser.rs 370-387 *)
Definition w_dangling_block : wparser scope_content :=
  w_trimmed (w_expect_non_empty
    (wmap (fun l => SBlock [] (map CAttr l)) (w_attributes true))).

(** [Parser::keyframes], parser.rs 430-455, mapped to [ScopeContent::Rule] (508) *)
Definition w_keyframes (d : nat) : wparser scope_content :=
  w_trimmed (wmap (fun p => SRule (fst p) (snd p))
    (wseparated_pair (w_at_rule_condition [wtag (lit "@keyframes"); wfail])
                    (wtag (lit "{"))
                    (wterminated (wmany0 (w_rule_block_frame d)) (wtag (lit "}"))))).

(** [Parser::at_rule], parser.rs 458-494, for the scope parser [contents]. *)
Definition w_at_rule_with (contents : wparser (list scope_content)) : wparser scope_content :=
  w_trimmed (w_expect_non_empty
    (wmap (fun p => SRule (fst p) (map rbc_of_scope (snd p)))
       (wseparated_pair
          (w_at_rule_condition [wtag (lit "@container"); wtag (lit "@supports"); wtag (lit "@media")])
          (wtag (lit "{"))
          (wterminated contents (wtag (lit "}")))))).

(** [Parser::scope_contents], parser.rs 497-511, with nesting depth at most [d]. *)
Fixpoint w_scope_contents (d : nat) : wparser (list scope_content) :=
  match d with
  | O => fun _ => (RFuel, 0%N)
  | S d' =>
      w_trimmed (w_expect_non_empty
        (wmany0 (walt [w_dangling_block; w_block d'; w_at_rule_with (w_scope_contents d'); w_keyframes d'])))
  end.

(** [Parser::scope], parser.rs 390-395 *)
Definition w_scope (d : nat) : wparser (list scope_content) :=
  w_trimmed (w_expect_non_empty (w_scope_contents d)).

(** [Parser::sheet], parser.rs 515-523 *)
Definition w_sheet_p (d : nat) : wparser sheet :=
  w_trimmed (wmap (@List.concat scope_content) (wmany0 (w_scope d))).

(** [Parser::parse], parser.rs 526-545: what comes out, and the work. *)
Definition w_parse (css : str) : parse_result * N :=
  match w_sheet_p (S (S (List.length css))) css with
  | (ROk _ s, w) => (Parsed s, w)
  | (RErr, w) | (RFail, w) => (Rejected, w)
  | (RFuel, w) => (OutOfFuel, w)
  end.
Definition work (css : str) : N := snd (w_parse css).
