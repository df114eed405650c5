(** * DepthFacts: how deep the calls of the parser nest (C90). *)

From Coq Require Import String Ascii List NArith Bool Arith Lia.
From Verif Require Import Str StrFacts Ast Nom CssParser SpecSays NomFacts ParserSound ParserTotal SpecGrammar ParserLex ParserTokens ParserSel ParserGrammar ParserComplete SpecSize SpecDepth.
Import ListNotations.
Local Open Scope list_scope.

Lemma opens_app a b : opens (a ++ b) = opens a + opens b.
Proof. induction a as [|c a IH]; cbn; auto. rewrite IH. lia. Qed.
Lemma opens_le {A} (p : parser A) i r a : shrinks p -> p i = ROk r a -> opens r <= opens i.
Proof. intros H E. destruct (H _ _ _ E) as (t & ->). rewrite opens_app. lia. Qed.

(** ** Room for the opening braces is enough *)

Definition flat {A} (p : parser A) : Prop := forall i, p i <> RFuel.
Definition roomy {A} (n : nat) (p : parser A) : Prop := forall i, opens i <= n -> p i <> RFuel.

Lemma flat_safe {A} (p : parser A) : (forall n, safe n p) -> flat p.
Proof. intros H i. exact (proj2 (H (List.length i) i (le_n _))). Qed.
Lemma flat_roomy {A} n (p : parser A) : flat p -> roomy n p.
Proof. intros H i _. apply H. Qed.

Lemma roomy_bind {A B} (x : res A) (f : str -> A -> res B) :
  x <> RFuel -> (forall r a, x = ROk r a -> f r a <> RFuel) -> bind x f <> RFuel.
Proof. intros H1 H2. destruct x; cbn; auto; discriminate. Qed.

Section Roomy.
  Variable n : nat.
  Lemma roomy_map {A B} (f : A -> B) p : roomy n p -> roomy n (map_p f p).
  Proof. intros H i Hi. apply roomy_bind; [now apply H|discriminate]. Qed.
  Lemma roomy_alt {A} (ps : list (parser A)) : Forall (roomy n) ps -> roomy n (alt ps).
  Proof.
    induction 1 as [|p ps H _ IH]; intros i Hi; cbn; [discriminate|].
    specialize (H i Hi). specialize (IH i Hi). destruct (p i); auto; discriminate.
  Qed.
  Lemma roomy_pair {A B} (p : parser A) (q : parser B) :
    shrinks p -> roomy n p -> roomy n q -> roomy n (pair_p p q).
  Proof.
    intros S H1 H2 i Hi. apply roomy_bind; [now apply H1|]. intros r a E.
    apply opens_le in E; auto. apply roomy_bind; [|discriminate]. apply H2. lia.
  Qed.
  Lemma roomy_preceded {A B} (p : parser A) (q : parser B) :
    shrinks p -> roomy n p -> roomy n q -> roomy n (preceded p q).
  Proof.
    intros S H1 H2 i Hi. apply roomy_bind; [now apply H1|]. intros r a E.
    apply opens_le in E; auto. apply H2. lia.
  Qed.
  Lemma roomy_terminated {A B} (p : parser A) (q : parser B) :
    shrinks p -> roomy n p -> flat q -> roomy n (terminated p q).
  Proof.
    intros S H1 H2 i Hi. apply roomy_bind; [now apply H1|]. intros r a _.
    apply roomy_bind; [apply H2|discriminate].
  Qed.
  Lemma roomy_trimmed {A} (p : parser A) : roomy n p -> roomy n (trimmed p).
  Proof.
    intros H i Hi. rewrite trimmed_eq. apply roomy_bind; [|discriminate]. apply H.
    destruct (sp_dsp i) as (w & _ & E & _). rewrite E, opens_app in Hi. lia.
  Qed.
  Lemma roomy_non_empty {A} (p : parser A) : roomy n p -> roomy n (expect_non_empty p).
  Proof. intros H i Hi. destruct i; [discriminate|]. now apply H. Qed.
  Lemma roomy_many0_fuel {A} (p : parser A) k i :
    shrinks p -> roomy n p -> opens i <= n -> List.length i < k -> many0_fuel k p i <> RFuel.
  Proof.
    intros S H. revert i. induction k as [|k IH]; intros i Hi Hk; [lia|]. cbn.
    specialize (H i Hi). destruct (p i) as [r a| | |] eqn:E; try discriminate; auto.
    destruct (Nat.eqb_spec (List.length r) (List.length i)); [discriminate|].
    apply roomy_bind; [|discriminate]. pose proof (shrinks_le _ _ _ _ S E).
    apply opens_le in E; auto. apply IH; lia.
  Qed.
  Lemma roomy_many0 {A} (p : parser A) : shrinks p -> roomy n p -> roomy n (many0 p).
  Proof. intros S H i Hi. apply roomy_many0_fuel; auto. Qed.
  (** After an opening brace there is one less. *)
  Lemma roomy_braced {A B} (p : parser A) (q : parser B) :
    shrinks p -> flat p -> (1 <= n -> roomy (n - 1) q) ->
    roomy n (separated_pair p (tag (lit "{")) q).
  Proof.
    intros S Hp Hq i Hi. unfold separated_pair, pair_p, preceded.
    apply roomy_bind; [now apply Hp|]. intros r a E. apply opens_le in E; auto.
    apply roomy_bind; [|discriminate]. apply roomy_bind; [unfold tag; destruct (starts_with _ _); discriminate|].
    intros r' b E'. destruct (sound_tag _ _ _ _ E') as (t & -> & -> & ->).
    rewrite opens_app in E. cbn in E. apply Hq; lia.
  Qed.
End Roomy.

Lemma flat_tag t : flat (tag t).
Proof. apply flat_safe. intros n. apply safe_tag. Qed.

Lemma roomy_contents_loop n rule : shrinks rule -> roomy n rule -> roomy n (contents_loop rule).
Proof.
  intros S H. unfold contents_loop. apply roomy_map, roomy_many0.
  - apply shrinks_alt. repeat constructor; apply shrinks_map; auto using shrinks_attributes.
  - apply roomy_alt. repeat constructor; apply roomy_map; auto.
    apply flat_roomy, flat_safe. intros m. apply safe_attributes.
Qed.

Lemma roomy_rule_block_with n cond rule :
  shrinks cond -> flat cond -> shrinks rule -> (1 <= n -> roomy (n - 1) rule) ->
  roomy n (rule_block_with cond rule).
Proof.
  intros Sc Hc Sr Hr. unfold rule_block_with.
  apply roomy_trimmed, roomy_non_empty, roomy_map, roomy_braced; auto.
  intros Hn. apply roomy_terminated; auto using flat_tag.
  - now apply shrinks_non_empty, shrinks_contents_loop.
  - apply roomy_non_empty, roomy_contents_loop; auto.
Qed.

Lemma roomy_rule_block_other d n : n < d -> roomy n (rule_block_other d).
Proof.
  revert n. induction d as [|d IH]; intros n Hd; [lia|]. cbn [rule_block_other].
  apply roomy_rule_block_with; auto using shrinks_other_condition, shrinks_rule_block_other.
  - apply flat_safe. intros m. apply safe_other_condition.
  - intros Hn. apply IH. lia.
Qed.

Lemma roomy_rule_block_frame d n : n <= d -> roomy n (rule_block_frame d).
Proof.
  intros H. apply roomy_rule_block_with; auto using shrinks_frame_condition, shrinks_rule_block_other.
  - apply flat_safe. intros m. apply safe_frame_condition.
  - intros Hn. apply roomy_rule_block_other. lia.
Qed.

Lemma roomy_block n d : n < d -> roomy n (block d).
Proof.
  intros H. assert (S : shrinks (contents_loop (rule_block_other d)))
    by apply shrinks_contents_loop, shrinks_rule_block_other.
  apply roomy_trimmed, roomy_non_empty, roomy_map, roomy_pair; auto using shrinks_condition.
  - apply flat_roomy, flat_safe. intros m. apply safe_condition.
  - apply roomy_preceded; auto using shrinks_tag, flat_roomy, flat_tag.
    apply roomy_terminated; auto using flat_tag.
    + now apply shrinks_trimmed, shrinks_trimmed, shrinks_non_empty.
    + apply roomy_trimmed, roomy_trimmed, roomy_non_empty, roomy_contents_loop; auto using shrinks_rule_block_other.
      now apply roomy_rule_block_other.
Qed.

Lemma shrinks_keyframes_condition : shrinks (at_rule_condition [tag (lit "@keyframes"); fail_p]).
Proof. eapply sound_shrinks, sound_keyframes_condition. Qed.
Definition group_condition : parser (list str) :=
  at_rule_condition [tag (lit "@container"); tag (lit "@supports"); tag (lit "@media")].
Lemma shrinks_group_condition : shrinks group_condition.
Proof.
  eapply sound_shrinks, (sound_at_rule_condition group_names).
  repeat apply Forall_cons; try apply Forall_nil; apply sound_tag_in; cbn [group_names In]; tauto.
Qed.

Lemma roomy_keyframes n d : n <= d -> roomy n (keyframes d).
Proof.
  intros H. apply roomy_trimmed, roomy_map, roomy_braced; auto using shrinks_keyframes_condition.
  - apply flat_safe. intros m. apply safe_at_rule_condition;
      repeat apply Forall_cons; auto using Forall_nil, safe_tag, safe_fail, shrinks_tag, shrinks_fail.
  - intros Hn. pose proof (shrinks_frame d).
    apply roomy_terminated; auto using flat_tag, shrinks_many0.
    apply roomy_many0; auto. apply roomy_rule_block_frame. lia.
Qed.

Lemma roomy_at_rule n contents :
  shrinks contents -> (1 <= n -> roomy (n - 1) contents) -> roomy n (at_rule_with contents).
Proof.
  intros S H. apply roomy_trimmed, roomy_non_empty, roomy_map, roomy_braced; auto using shrinks_group_condition.
  - apply flat_safe. intros m. apply safe_at_rule_condition; repeat apply Forall_cons; auto using Forall_nil, safe_tag, shrinks_tag.
  - intros Hn. apply roomy_terminated; auto using flat_tag.
Qed.

Lemma shrinks_scope_elem d : shrinks (scope_elem d).
Proof. eapply sound_shrinks, sound_scope_elem. Qed.

Lemma roomy_scope_contents n d : n + 1 < d -> roomy n (scope_contents d).
Proof.
  revert n. induction d as [|d IH]; intros n H; [lia|]. cbn [scope_contents].
  apply roomy_trimmed, roomy_non_empty, roomy_many0; [apply shrinks_scope_elem|].
  apply roomy_alt. repeat apply Forall_cons; try apply Forall_nil.
  - apply flat_roomy, flat_safe. intros m. apply safe_dangling.
  - apply roomy_block. lia.
  - apply roomy_at_rule; [apply shrinks_scope_contents|]. intros Hn. apply IH. lia.
  - apply roomy_keyframes. lia.
Qed.

Lemma shrinks_scope d : shrinks (scope d).
Proof. apply shrinks_trimmed, shrinks_non_empty, shrinks_scope_contents. Qed.

Lemma roomy_sheet n d : n + 1 < d -> roomy n (sheet_p d).
Proof.
  intros H. apply roomy_trimmed, roomy_map, roomy_many0; [apply shrinks_scope|].
  now apply roomy_trimmed, roomy_non_empty, roomy_scope_contents.
Qed.

(** ** More room changes nothing *)

Definition refines {A} (p q : parser A) : Prop := forall i, p i <> RFuel -> q i = p i.

Lemma refines_refl {A} (p : parser A) : refines p p.
Proof. intros i _. reflexivity. Qed.
Lemma refines_map {A B} (f : A -> B) p q : refines p q -> refines (map_p f p) (map_p f q).
Proof.
  intros H i. unfold map_p. specialize (H i). destruct (p i); cbn; intros N; try (rewrite H by discriminate; reflexivity).
  congruence.
Qed.
Lemma refines_alt {A} (ps qs : list (parser A)) : Forall2 refines ps qs -> refines (alt ps) (alt qs).
Proof.
  induction 1 as [|p q ps qs H _ IH]; intros i; cbn; auto. specialize (H i). specialize (IH i).
  destruct (p i); intros N; try (rewrite H by discriminate; auto; fail). congruence.
Qed.
Lemma refines_pair {A B} (p p' : parser A) (q q' : parser B) :
  refines p p' -> refines q q' -> refines (pair_p p q) (pair_p p' q').
Proof.
  intros H1 H2 i. unfold pair_p. specialize (H1 i). destruct (p i) as [r a| | |]; cbn; intros N;
    try (rewrite H1 by discriminate; reflexivity); [|congruence].
  rewrite H1 by discriminate. cbn. specialize (H2 r). destruct (q r); cbn in *;
    try (rewrite H2 by discriminate; reflexivity). congruence.
Qed.
Lemma refines_preceded {A B} (p : parser A) (q q' : parser B) :
  refines q q' -> refines (preceded p q) (preceded p q').
Proof. intros H i. unfold preceded. destruct (p i); cbn; auto. Qed.
Lemma refines_terminated {A B} (p p' : parser A) (q : parser B) :
  refines p p' -> refines (terminated p q) (terminated p' q).
Proof.
  intros H i. unfold terminated. specialize (H i). destruct (p i); cbn; intros N;
    try (rewrite H by discriminate; reflexivity). congruence.
Qed.
Lemma refines_trimmed {A} (p q : parser A) : refines p q -> refines (trimmed p) (trimmed q).
Proof. intros H. unfold trimmed, delimited. now apply refines_preceded, refines_terminated. Qed.
Lemma refines_non_empty {A} (p q : parser A) : refines p q -> refines (expect_non_empty p) (expect_non_empty q).
Proof. intros H i. destruct i; cbn; auto. Qed.
Lemma refines_many0 {A} (p q : parser A) : refines p q -> refines (many0 p) (many0 q).
Proof.
  intros H i. unfold many0. generalize (S (List.length i)). intros k. revert i.
  induction k as [|k IH]; intros i; cbn; auto. specialize (H i).
  destruct (p i) as [r a| | |]; intros N; try (rewrite H by discriminate; reflexivity); [|congruence].
  rewrite H by discriminate. destruct (_ =? _); auto. specialize (IH r).
  destruct (many0_fuel k p r); cbn in *; try (rewrite IH by discriminate; reflexivity). congruence.
Qed.

Lemma refines_contents_loop p q : refines p q -> refines (contents_loop p) (contents_loop q).
Proof.
  intros H. apply refines_map, refines_many0, refines_alt.
  repeat constructor; apply refines_map; auto using refines_refl.
Qed.
Lemma refines_rule_block_with cond p q : refines p q -> refines (rule_block_with cond p) (rule_block_with cond q).
Proof.
  intros H. apply refines_trimmed, refines_non_empty, refines_map, refines_pair; auto using refines_refl.
  now apply refines_preceded, refines_terminated, refines_non_empty, refines_contents_loop.
Qed.
Lemma refines_other d : refines (rule_block_other d) (rule_block_other (S d)).
Proof.
  induction d as [|d IH]; [intros i N; now destruct N|]. cbn [rule_block_other].
  now apply refines_rule_block_with.
Qed.
Lemma refines_scope_contents d : refines (scope_contents d) (scope_contents (S d)).
Proof.
  induction d as [|d IH]; [intros i N; now destruct N|]. pose proof (refines_other d).
  cbn [scope_contents]. apply refines_trimmed, refines_non_empty, refines_many0, refines_alt.
  repeat apply Forall2_cons; try apply Forall2_nil.
  - apply refines_refl.
  - apply refines_trimmed, refines_non_empty, refines_map, refines_pair; auto using refines_refl.
    now apply refines_preceded, refines_terminated, refines_trimmed, refines_trimmed, refines_non_empty, refines_contents_loop.
  - apply refines_trimmed, refines_non_empty, refines_map, refines_pair; auto using refines_refl.
    now apply refines_preceded, refines_terminated.
  - apply refines_trimmed, refines_map, refines_pair; auto using refines_refl.
    now apply refines_preceded, refines_terminated, refines_many0, refines_rule_block_with.
Qed.
Lemma refines_sheet d : refines (sheet_p d) (sheet_p (S d)).
Proof.
  apply refines_trimmed, refines_map, refines_many0, refines_trimmed, refines_non_empty, refines_scope_contents.
Qed.
Lemma sheet_more d d' i : d <= d' -> sheet_p d i <> RFuel -> sheet_p d' i = sheet_p d i.
Proof.
  intros H N. induction H as [|d' H IH]; auto. rewrite <- IH. apply refines_sheet. now rewrite IH.
Qed.

(** Two runs with enough room agree. *)
Lemma sheet_agree d d' i : sheet_p d i <> RFuel -> sheet_p d' i <> RFuel -> sheet_p d i = sheet_p d' i.
Proof.
  intros N N'. destruct (Nat.le_ge_cases d d') as [H|H].
  - symmetry. now apply sheet_more.
  - now apply sheet_more.
Qed.

Lemma within_parse d css : parse_within d css <> OutOfFuel -> parse_within d css = parse css.
Proof.
  intros N. pose proof (parse_total css) as T. unfold parse, parse_within in *.
  rewrite (sheet_agree d (S (S (List.length css)))); auto.
  - intros E. rewrite E in N. congruence.
  - intros E. rewrite E in T. congruence.
Qed.

Lemma within_opens d css : opens css + 2 <= d -> parse_within d css <> OutOfFuel.
Proof.
  intros H. assert (R : sheet_p d css <> RFuel) by (apply (roomy_sheet (opens css)); lia).
  unfold parse_within. destruct (sheet_p d css); congruence.
Qed.
