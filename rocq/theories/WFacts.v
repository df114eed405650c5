(** * WFacts: the parser with work is the parser, and bounds for the work of its parts. *)

From Coq Require Import String Ascii List NArith Bool Arith Lia.
From Verif Require Import Str StrFacts Ast Nom CssParser WNom WParser SpecSays NomFacts ParserSound ParserTotal ParserLex ParserSel.
Import ListNotations.
Local Open Scope list_scope.

(** ** The results are the same. *)

(** [p] is [q] with work. *)
Definition wera {A} (p : wparser A) (q : parser A) : Prop := forall i, fst (p i) = q i.

Lemma wera_non_empty {A} (p : wparser A) q : wera p q -> wera (w_expect_non_empty p) (expect_non_empty q).
Proof. intros H [|c i]; cbn; auto. rewrite <- H. unfold more. now destruct (p (c :: i)). Qed.
Lemma wera_tag t : wera (wtag t) (tag t).
Proof. now intros i. Qed.
Lemma wera_while1 f : wera (wwhile1 f) (take_while1 f).
Proof. now intros i. Qed.
Lemma wera_none_of s : wera (wnone_of s) (none_of s).
Proof. now intros i. Qed.
Lemma wera_anychar : wera wanychar anychar.
Proof. now intros i. Qed.
Lemma wera_char x : wera (wchar x) (char_p x).
Proof. now intros i. Qed.
Lemma wera_fail {A} : wera (@wfail A) fail_p.
Proof. now intros i. Qed.
Lemma fst_wbind {A B} (x : res A * N) (f : str -> A -> res B * N) :
  fst (wbind x f) = bind (fst x) (fun r a => fst (f r a)).
Proof. destruct x as [[r a| | |] w]; cbn; auto. now destruct (f r a). Qed.
Lemma fst_more {A} w (x : res A * N) : fst (more w x) = fst x.
Proof. now destruct x. Qed.
Lemma wera_map {A B} (f : A -> B) p q : wera p q -> wera (wmap f p) (map_p f q).
Proof. intros H i. unfold wmap, map_p. now rewrite fst_wbind, H. Qed.
Lemma wera_not {A} (p : wparser A) q : wera p q -> wera (wnot p) (not_p q).
Proof. intros H i. unfold wnot, not_p. rewrite <- H. destruct (p i) as [[] ?]; reflexivity. Qed.
Lemma wera_opt {A} (p : wparser A) q : wera p q -> wera (wopt p) (opt q).
Proof. intros H i. unfold wopt, opt. rewrite <- H. destruct (p i) as [[] ?]; reflexivity. Qed.
Lemma wera_recognize {A} (p : wparser A) q : wera p q -> wera (wrecognize p) (recognize q).
Proof. intros H i. unfold wrecognize, recognize. now rewrite fst_wbind, H. Qed.
Lemma wera_alt {A} (ps : list (wparser A)) qs : Forall2 wera ps qs -> wera (walt ps) (alt qs).
Proof.
  intros H i. induction H as [|p q ps qs Hp _ IH]; cbn; auto.
  rewrite <- Hp. destruct (p i) as [[] ?]; cbn [fst]; auto. now rewrite fst_more.
Qed.
Lemma wera_pair {A B} (p : wparser A) (p' : wparser B) q q' : wera p q -> wera p' q' -> wera (wpair p p') (pair_p q q').
Proof.
  intros H H' i. unfold wpair, pair_p. rewrite fst_wbind, H. destruct (q i) as [r a| | |]; cbn; auto.
  now rewrite fst_wbind, H'.
Qed.
Lemma wera_preceded {A B} (p : wparser A) (p' : wparser B) q q' : wera p q -> wera p' q' -> wera (wpreceded p p') (preceded q q').
Proof. intros H H' i. unfold wpreceded, preceded. rewrite fst_wbind, H. destruct (q i) as [r a| | |]; cbn; auto. Qed.
Lemma wera_terminated {A B} (p : wparser A) (p' : wparser B) q q' : wera p q -> wera p' q' -> wera (wterminated p p') (terminated q q').
Proof.
  intros H H' i. unfold wterminated, terminated. rewrite fst_wbind, H. destruct (q i) as [r a| | |]; cbn; auto.
  now rewrite fst_wbind, H'.
Qed.
Lemma wera_delimited {A B C} (p : wparser A) (p' : wparser B) (p2 : wparser C) q q' q2 :
  wera p q -> wera p' q' -> wera p2 q2 -> wera (wdelimited p p' p2) (delimited q q' q2).
Proof. intros. apply wera_preceded; auto. now apply wera_terminated. Qed.
Lemma wera_separated_pair {A B C} (p : wparser A) (p' : wparser B) (p2 : wparser C) q q' q2 :
  wera p q -> wera p' q' -> wera p2 q2 -> wera (wseparated_pair p p' p2) (separated_pair q q' q2).
Proof. intros. apply wera_pair; auto. now apply wera_preceded. Qed.
Lemma wera_many0_fuel {A} (p : wparser A) q n : wera p q -> wera (wmany0_fuel n p) (many0_fuel n q).
Proof.
  intros H. induction n as [|n IH]; intros i; cbn; auto. rewrite <- H. destruct (p i) as [[r a| | |] w]; cbn [fst]; auto.
  destruct (Nat.eqb _ _); auto. rewrite fst_more, fst_wbind, IH. reflexivity.
Qed.
Lemma wera_many0 {A} (p : wparser A) q : wera p q -> wera (wmany0 p) (many0 q).
Proof. intros H i. now apply wera_many0_fuel. Qed.
Lemma wera_many1 {A} (p : wparser A) q : wera p q -> wera (wmany1 p) (many1 q).
Proof.
  intros H i. unfold wmany1, many1. rewrite fst_wbind, H. destruct (q i) as [r a| | |]; cbn [bind]; auto.
  rewrite fst_wbind, (wera_many0 _ _ H). reflexivity.
Qed.
Lemma wera_sep_fuel {A B} (sep : wparser B) (p : wparser A) qs q n :
  wera sep qs -> wera p q -> wera (wsep_fuel n sep p) (sep_fuel n qs q).
Proof.
  intros Hs H. induction n as [|n IH]; intros i; cbn; auto. rewrite <- Hs. destruct (sep i) as [[r b| | |] w]; cbn [fst]; auto.
  destruct (Nat.eqb _ _); auto. rewrite <- H. destruct (p r) as [[r' a| | |] w']; cbn [fst]; auto.
  rewrite fst_more, fst_wbind, IH. reflexivity.
Qed.
Lemma wera_separated_list1 {A B} (sep : wparser B) (p : wparser A) qs q :
  wera sep qs -> wera p q -> wera (wseparated_list1 sep p) (separated_list1 qs q).
Proof.
  intros Hs H i. unfold wseparated_list1, separated_list1. rewrite fst_wbind, H. destruct (q i) as [r a| | |]; cbn [bind]; auto.
  rewrite fst_wbind, (wera_sep_fuel _ _ _ _ _ Hs H). reflexivity.
Qed.

#[export] Hint Resolve wera_tag wera_while1 wera_none_of wera_anychar wera_char wera_fail wera_map wera_not wera_opt
  wera_recognize wera_alt wera_pair wera_preceded wera_terminated wera_delimited wera_separated_pair wera_many0 wera_many1
  wera_separated_list1 wera_non_empty Forall2_cons Forall2_nil : wera.

Lemma wera_is_not s : wera (wis_not s) (is_not s).
Proof. apply wera_while1. Qed.
Lemma wera_alpha1 : wera walpha1 alpha1.
Proof. apply wera_while1. Qed.
Lemma wera_alphanumeric1 : wera walphanumeric1 alphanumeric1.
Proof. apply wera_while1. Qed.
#[export] Hint Resolve wera_is_not wera_alpha1 wera_alphanumeric1 : wera.
Lemma wera_cmt : wera w_cmt cmt.
Proof. unfold w_cmt, cmt. auto 12 with wera. Qed.
#[export] Hint Resolve wera_cmt : wera.
Lemma wera_sp : wera w_sp sp.
Proof. unfold w_sp, sp. auto 12 with wera. Qed.
#[export] Hint Resolve wera_sp : wera.
Lemma wera_trimmed {A} (p : wparser A) q : wera p q -> wera (w_trimmed p) (trimmed q).
Proof. intros. unfold w_trimmed, trimmed. auto with wera. Qed.
#[export] Hint Resolve wera_trimmed : wera.
Lemma wera_ident : wera w_ident ident.
Proof. unfold w_ident, ident. auto 14 with wera. Qed.
#[export] Hint Resolve wera_ident : wera.
Lemma wera_interpolation : wera w_interpolation interpolation.
Proof. unfold w_interpolation, interpolation. auto 16 with wera. Qed.
Lemma wera_string : wera w_string_p string_p.
Proof. unfold w_string_p, string_p. auto 16 with wera. Qed.
#[export] Hint Resolve wera_interpolation wera_string : wera.
Lemma wera_value : wera w_style_attr_value style_attr_value.
Proof. unfold w_style_attr_value, style_attr_value. auto 16 with wera. Qed.
#[export] Hint Resolve wera_value : wera.
Lemma wera_attribute : wera w_attribute attribute.
Proof. unfold w_attribute, attribute, w_style_attr_key, style_attr_key. auto 16 with wera. Qed.
#[export] Hint Resolve wera_attribute : wera.
Lemma wera_attributes d : wera (w_attributes d) (attributes d).
Proof. unfold w_attributes, attributes. destruct d; auto 16 with wera. Qed.
#[export] Hint Resolve wera_attributes : wera.
Lemma wera_selector : wera w_selector_p selector_p.
Proof. unfold w_selector_p, selector_p. auto 16 with wera. Qed.
#[export] Hint Resolve wera_selector : wera.
Lemma wera_condition : wera w_condition condition.
Proof. unfold w_condition, condition. auto 16 with wera. Qed.
#[export] Hint Resolve wera_condition : wera.
Lemma wera_at_condition ts us : Forall2 wera ts us -> wera (w_at_rule_condition ts) (at_rule_condition us).
Proof. intros. unfold w_at_rule_condition, at_rule_condition. auto 16 with wera. Qed.
#[export] Hint Resolve wera_at_condition : wera.
Lemma wera_other_condition : wera w_other_condition other_condition.
Proof. unfold w_other_condition, other_condition. auto 16 with wera. Qed.
Lemma wera_frame_condition : wera w_frame_condition frame_condition.
Proof. unfold w_frame_condition, frame_condition. auto 16 with wera. Qed.
#[export] Hint Resolve wera_other_condition wera_frame_condition : wera.
Lemma wera_contents_loop p q : wera p q -> wera (w_contents_loop p) (contents_loop q).
Proof. intros. unfold w_contents_loop, contents_loop. auto 16 with wera. Qed.
#[export] Hint Resolve wera_contents_loop : wera.
Lemma wera_rule_block_with c c' p q : wera c c' -> wera p q -> wera (w_rule_block_with c p) (rule_block_with c' q).
Proof. intros. unfold w_rule_block_with, rule_block_with, w_rule_block_contents, rule_block_contents. auto 16 with wera. Qed.
#[export] Hint Resolve wera_rule_block_with : wera.
Lemma wera_rule_block_other d : wera (w_rule_block_other d) (rule_block_other d).
Proof. induction d; [now intros i|]. cbn. auto with wera. Qed.
#[export] Hint Resolve wera_rule_block_other : wera.
Lemma wera_rule_block_frame d : wera (w_rule_block_frame d) (rule_block_frame d).
Proof. unfold w_rule_block_frame, rule_block_frame. auto with wera. Qed.
#[export] Hint Resolve wera_rule_block_frame : wera.
Lemma wera_block d : wera (w_block d) (block d).
Proof. unfold w_block, block, w_block_contents, block_contents. auto 20 with wera. Qed.
Lemma wera_dangling : wera w_dangling_block dangling_block.
Proof. unfold w_dangling_block, dangling_block. auto 20 with wera. Qed.
Lemma wera_keyframes d : wera (w_keyframes d) (keyframes d).
Proof. unfold w_keyframes, keyframes. auto 20 with wera. Qed.
Lemma wera_at_rule p q : wera p q -> wera (w_at_rule_with p) (at_rule_with q).
Proof. intros. unfold w_at_rule_with, at_rule_with. auto 20 with wera. Qed.
#[export] Hint Resolve wera_block wera_dangling wera_keyframes wera_at_rule : wera.
Lemma wera_scope_contents d : wera (w_scope_contents d) (scope_contents d).
Proof. induction d; [now intros i|]. apply wera_trimmed, wera_non_empty, wera_many0, wera_alt. auto 16 with wera. Qed.
#[export] Hint Resolve wera_scope_contents : wera.
Lemma wera_scope d : wera (w_scope d) (scope d).
Proof. unfold w_scope, scope. auto with wera. Qed.
#[export] Hint Resolve wera_scope : wera.
Lemma wera_sheet d : wera (w_sheet_p d) (sheet_p d).
Proof. unfold w_sheet_p, sheet_p. auto with wera. Qed.

Lemma w_parse_parse css : fst (w_parse css) = parse css.
Proof.
  unfold w_parse, parse. rewrite <- wera_sheet. destruct (w_sheet_p _ css) as [[] ?]; reflexivity.
Qed.
