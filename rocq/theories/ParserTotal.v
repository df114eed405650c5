(** * ParserTotal: the parser never runs out of fuel and consumes its whole input. *)

From Coq Require Import String Ascii List NArith Bool Arith Lia.
From Verif Require Import Str StrFacts Ast Nom SpecSays NomFacts CssParser ParserSound.
Import ListNotations.
Local Open Scope list_scope.

Lemma safe_le {A} n m (p : parser A) : n <= m -> safe m p -> safe n p.
Proof. intros H Hp i Hi. apply Hp. lia. Qed.

Lemma shrinks_tag t : shrinks (tag t).
Proof. eapply sound_shrinks, sound_tag. Qed.
Lemma shrinks_sp : shrinks sp.
Proof. eapply sound_shrinks, sound_sp. Qed.
Lemma shrinks_opt {A} (p : parser A) : shrinks p -> shrinks (opt p).
Proof.
  intros H i r o. unfold opt. destruct (p i) eqn:E; try discriminate; intros [= <- <-]; eauto.
  now exists [].
Qed.
Lemma shrinks_alt {A} (ps : list (parser A)) : Forall shrinks ps -> shrinks (alt ps).
Proof.
  intros H i r a. induction H as [|p ps Hp _ IH]; cbn; [discriminate|].
  destruct (p i) eqn:E; try discriminate; auto. intros [= <- <-]. eauto.
Qed.
Lemma shrinks_map {A B} (f : A -> B) p : shrinks p -> shrinks (map_p f p).
Proof. intros H i r a E. apply bind_ok in E. destruct E as (r' & b & E & [= <- <-]). eauto. Qed.
Lemma shrinks_recognize {A} (p : parser A) : shrinks p -> shrinks (recognize p).
Proof. intros H i r a E. apply bind_ok in E. destruct E as (r' & b & E & [= <- <-]). eauto. Qed.

Lemma shrinks_trans {A B} (x : res A) (f : str -> A -> res B) i r b :
  bind x f = ROk r b ->
  (forall r' a, x = ROk r' a -> exists t, i = t ++ r') ->
  (forall r' a, f r' a = ROk r b -> exists t, r' = t ++ r) ->
  exists t, i = t ++ r.
Proof.
  intros E H1 H2. apply bind_ok in E. destruct E as (r' & a & E1 & E2).
  destruct (H1 _ _ E1) as [t ->]. destruct (H2 _ _ E2) as [t2 ->]. exists (t ++ t2).
  now rewrite app_assoc.
Qed.
Lemma shrinks_pair {A B} (p : parser A) (q : parser B) : shrinks p -> shrinks q -> shrinks (pair_p p q).
Proof.
  intros Hp Hq i r ab E. eapply shrinks_trans; [exact E|eauto|].
  intros r' a E'. eapply shrinks_trans; [exact E'|eauto|]. intros r2 b [= <- _]. now exists [].
Qed.
Lemma shrinks_preceded {A B} (p : parser A) (q : parser B) : shrinks p -> shrinks q -> shrinks (preceded p q).
Proof. intros Hp Hq i r ab E. eapply shrinks_trans; [exact E|eauto|]. eauto. Qed.
Lemma shrinks_terminated {A B} (p : parser A) (q : parser B) : shrinks p -> shrinks q -> shrinks (terminated p q).
Proof.
  intros Hp Hq i r ab E. eapply shrinks_trans; [exact E|eauto|].
  intros r' a E'. eapply shrinks_trans; [exact E'|eauto|]. intros r2 b [= <- _]. now exists [].
Qed.

Section SafeParsers.
  Variable n : nat.
  Local Hint Resolve safe_tag safe_take_while1 safe_is_not safe_none_of safe_anychar safe_char_p
    safe_fail safe_map safe_not safe_opt safe_recognize safe_alt safe_pair safe_preceded
    safe_terminated safe_many0 safe_many1 safe_separated_list1 Forall_cons Forall_nil
    shrinks_tag shrinks_sp shrinks_opt shrinks_alt shrinks_map shrinks_recognize shrinks_pair
    shrinks_preceded shrinks_terminated : safe.

  Lemma shrinks_take_while1 f : shrinks (take_while1 f).
  Proof. eapply sound_shrinks, sound_take_while1. Qed.
  Lemma shrinks_is_not set : shrinks (is_not set).
  Proof. apply shrinks_take_while1. Qed.
  Lemma shrinks_none_of set : shrinks (none_of set).
  Proof. eapply sound_shrinks, sound_none_of. Qed.
  Lemma shrinks_anychar : shrinks anychar.
  Proof. eapply sound_shrinks, sound_anychar. Qed.
  Lemma shrinks_not {A} (p : parser A) : shrinks (not_p p).
  Proof. eapply sound_shrinks, sound_not. Qed.
  Lemma shrinks_many0 {A} (p : parser A) : shrinks p -> shrinks (many0 p).
  Proof.
    intros H. assert (S : sound p (fun _ _ => True)).
    { intros i r a E. destruct (H _ _ _ E) as [t ->]. eauto. }
    eapply sound_shrinks, sound_many0, S.
  Qed.
  Local Hint Resolve shrinks_take_while1 shrinks_is_not shrinks_none_of shrinks_anychar
    shrinks_not shrinks_many0 : safe.

  Lemma safe_cmt : safe n cmt.
  Proof.
    unfold cmt, delimited, alpha1, alphanumeric1. auto 20 with safe.
  Qed.
  Lemma shrinks_cmt : shrinks cmt.
  Proof. eapply sound_shrinks, sound_cmt. Qed.
  Local Hint Resolve safe_cmt shrinks_cmt : safe.

  Lemma safe_sp : safe n sp.
  Proof. unfold sp. auto 20 with safe. Qed.
  Local Hint Resolve safe_sp : safe.

  Lemma safe_trimmed {A} (p : parser A) : shrinks p -> safe n p -> safe n (trimmed p).
  Proof. intros. unfold trimmed, delimited. auto with safe. Qed.
  Lemma shrinks_trimmed {A} (p : parser A) : shrinks p -> shrinks (trimmed p).
  Proof. intros. unfold trimmed, delimited. auto with safe. Qed.
  Lemma safe_non_empty {A} (p : parser A) : safe n p -> safe n (expect_non_empty p).
  Proof. intros H i Hi. destruct i; [now split|]. now apply H. Qed.
  Lemma shrinks_non_empty {A} (p : parser A) : shrinks p -> shrinks (expect_non_empty p).
  Proof. intros H i r a. destruct i; [discriminate|]. apply H. Qed.
  Local Hint Resolve safe_trimmed shrinks_trimmed safe_non_empty shrinks_non_empty : safe.

  Lemma safe_ident : safe n ident.
  Proof. unfold ident, alpha1, alphanumeric1. auto 20 with safe. Qed.
  Lemma shrinks_ident : shrinks ident.
  Proof. eapply sound_shrinks, sound_ident. Qed.
  Lemma safe_interpolation : safe n interpolation.
  Proof. unfold interpolation, delimited, alpha1, alphanumeric1. auto 20 with safe. Qed.
  Lemma shrinks_interpolation : shrinks interpolation.
  Proof. eapply sound_shrinks, sound_interpolation. Qed.
  Lemma safe_string : safe n string_p.
  Proof. unfold string_p. auto 20 with safe. Qed.
  Lemma shrinks_string : shrinks string_p.
  Proof. eapply sound_shrinks, sound_string. Qed.
  Local Hint Resolve safe_ident shrinks_ident safe_interpolation shrinks_interpolation
    safe_string shrinks_string : safe.

  Lemma safe_value : safe n style_attr_value.
  Proof.
    unfold style_attr_value. apply safe_trimmed.
    - apply shrinks_map, shrinks_recognize.
      eapply sound_shrinks, sound_many1 with (R := fun _ _ => True).
      intros i r a E. assert (S : shrinks (alt [is_not (lit "${;}/" ++ dquote);
                            recognize interpolation;
                            string_p;
                            recognize (preceded (tag (lit "/"))
                                                (none_of (lit "${;}" ++ dquote ++ lit "*")))]))
        by auto 20 with safe.
      destruct (S _ _ _ E) as [t ->]. eauto.
    - apply safe_map, safe_recognize, safe_many1; auto 20 with safe.
  Qed.
  Lemma safe_attribute : safe n attribute.
  Proof.
    unfold attribute, style_attr_key, separated_pair.
    apply safe_trimmed; [|apply safe_non_empty, safe_map, safe_pair; auto using safe_value with safe].
    apply shrinks_non_empty, shrinks_map, shrinks_pair; auto with safe.
    apply shrinks_preceded; auto with safe. eapply sound_shrinks, sound_value.
  Qed.
  Lemma shrinks_attribute : shrinks attribute.
  Proof. eapply sound_shrinks, sound_attribute. Qed.
  Lemma safe_attributes d : safe n (attributes d).
  Proof.
    unfold attributes. assert (S1 : shrinks (separated_list1 (tag (lit ";")) attribute)).
    { eapply sound_shrinks, sound_separated_list1; [apply sound_tag|apply sound_attribute]. }
    pose proof safe_attribute. pose proof shrinks_attribute.
    destruct d; apply safe_trimmed; auto 20 with safe.
  Qed.
  Lemma shrinks_attributes d : shrinks (attributes d).
  Proof. eapply sound_shrinks, sound_attributes. Qed.
  Lemma safe_selector : safe n selector_p.
  Proof.
    unfold selector_p. set (chunk := alt _). assert (S : shrinks chunk) by (unfold chunk; auto 20 with safe).
    assert (S1 : shrinks (many1 chunk)).
    { eapply sound_shrinks, sound_many1 with (R := fun _ _ => True). intros i r a E.
      destruct (S _ _ _ E) as [t ->]. eauto. }
    apply safe_trimmed; auto with safe. apply safe_non_empty, safe_map, safe_recognize, safe_many1; auto.
    unfold chunk. auto 20 with safe.
  Qed.
  Lemma safe_condition : safe n condition.
  Proof.
    unfold condition. assert (S : shrinks selector_p) by (eapply sound_shrinks, sound_selector).
    pose proof safe_selector. apply safe_trimmed; auto 20 with safe.
    apply shrinks_non_empty. eapply sound_shrinks, sound_many1.
    eapply sound_terminated; [apply sound_selector|apply sound_opt, sound_tag].
  Qed.
  Lemma shrinks_condition : shrinks condition.
  Proof. eapply sound_shrinks, sound_condition. Qed.

  Lemma safe_at_rule_condition ps :
    Forall (safe n) ps -> Forall shrinks ps -> safe n (at_rule_condition ps).
  Proof.
    intros H S. unfold at_rule_condition. set (chunk := alt [is_not (lit "${"); _]).
    assert (S0 : shrinks chunk) by (unfold chunk; auto 20 with safe).
    assert (H0 : safe n chunk) by (unfold chunk; auto 20 with safe).
    assert (S1 : shrinks (many1 chunk)).
    { eapply sound_shrinks, sound_many1 with (R := fun _ _ => True). intros i r a E.
      destruct (S0 _ _ _ E) as [t ->]. eauto. }
    apply safe_trimmed; auto 20 with safe.
  Qed.
  Lemma shrinks_fail {A} : shrinks (@fail_p A).
  Proof. intros i r a E. discriminate. Qed.

  Lemma safe_other_condition : safe n other_condition.
  Proof. apply safe_at_rule_condition; auto 20 with safe. Qed.
  Lemma shrinks_other_condition : shrinks other_condition.
  Proof. eapply sound_shrinks, sound_other_condition. Qed.
  Lemma safe_frame_condition : safe n frame_condition.
  Proof. apply safe_map, safe_recognize, safe_condition. Qed.
  Lemma shrinks_frame_condition : shrinks frame_condition.
  Proof. apply shrinks_map, shrinks_recognize, shrinks_condition. Qed.

  Lemma safe_contents_loop rule : shrinks rule -> safe n rule -> safe n (contents_loop rule).
  Proof.
    intros S H. pose proof (safe_attributes false). pose proof (shrinks_attributes false).
    unfold contents_loop. auto 20 with safe.
  Qed.

  (** After an opening brace there is less input. *)
  Lemma safe_braced {A B} (p : parser A) (q : parser B) :
    shrinks p -> safe n p -> (1 <= n -> safe (n - 1) q) ->
    safe n (separated_pair p (tag (lit "{")) q).
  Proof.
    intros S Hp Hq i Hi. unfold separated_pair, pair_p, preceded.
    apply safe_bind; [now apply Hp|]. intros r a E. apply shrinks_le in E; auto.
    apply safe_bind; [|now split]. apply safe_bind; [now apply (safe_tag n); lia|].
    intros r' b E'. destruct (sound_tag _ _ _ _ E') as (t & -> & -> & ->).
    rewrite app_length in E. cbn in E. apply Hq; lia.
  Qed.
End SafeParsers.

Lemma safe_contents_terminated n rule :
  shrinks rule -> safe n rule ->
  safe n (terminated (rule_block_contents rule) (tag (lit "}"))).
Proof.
  intros S H. apply safe_terminated.
  - apply shrinks_non_empty. unfold contents_loop. apply shrinks_map, shrinks_many0, shrinks_alt.
    repeat constructor; apply shrinks_map; auto using shrinks_attributes.
  - now apply safe_non_empty, safe_contents_loop.
  - apply safe_tag.
Qed.

Lemma shrinks_rule_block_other d : shrinks (rule_block_other d).
Proof. eapply sound_shrinks, sound_rule_block_other. Qed.

Lemma shrinks_contents_loop rule : shrinks rule -> shrinks (contents_loop rule).
Proof.
  intros S. unfold contents_loop. apply shrinks_map, shrinks_many0, shrinks_alt.
  repeat constructor; apply shrinks_map; auto using shrinks_attributes.
Qed.

Lemma shrinks_separated_pair {A B C} (p : parser A) (s : parser B) (q : parser C) :
  shrinks p -> shrinks s -> shrinks q -> shrinks (separated_pair p s q).
Proof. intros. apply shrinks_pair; auto. now apply shrinks_preceded. Qed.

Lemma safe_rule_block_with n cond rule :
  shrinks cond -> safe n cond -> shrinks rule -> (1 <= n -> safe (n - 1) rule) ->
  safe n (rule_block_with cond rule).
Proof.
  intros Sc Hc Sr Hr. unfold rule_block_with. apply safe_trimmed.
  - apply shrinks_non_empty, shrinks_map, shrinks_separated_pair; auto using shrinks_tag.
    apply shrinks_terminated; auto using shrinks_tag.
    now apply shrinks_non_empty, shrinks_contents_loop.
  - apply safe_non_empty, safe_map, safe_braced; auto.
    intros Hn. apply safe_contents_terminated; auto.
Qed.

Lemma safe_rule_block_other d n : n < d -> safe n (rule_block_other d).
Proof.
  revert n. induction d as [|d IH]; intros n Hd; [lia|]. cbn [rule_block_other].
  apply safe_rule_block_with;
    auto using shrinks_other_condition, safe_other_condition, shrinks_rule_block_other.
  intros Hn. apply IH. lia.
Qed.

Lemma safe_rule_block_frame d n : n <= d -> safe n (rule_block_frame d).
Proof.
  intros H. apply safe_rule_block_with;
    auto using shrinks_frame_condition, safe_frame_condition, shrinks_rule_block_other.
  intros Hn. apply safe_rule_block_other. lia.
Qed.

Lemma safe_dangling n : safe n dangling_block.
Proof.
  apply safe_trimmed.
  - apply shrinks_non_empty, shrinks_map, shrinks_attributes.
  - apply safe_non_empty, safe_map, safe_attributes.
Qed.

Lemma safe_block n d : n < d -> safe n (block d).
Proof.
  intros H. assert (S : shrinks (contents_loop (rule_block_other d)))
    by apply shrinks_contents_loop, shrinks_rule_block_other.
  apply safe_trimmed.
  - apply shrinks_non_empty, shrinks_map, shrinks_pair; [apply shrinks_condition|].
    apply shrinks_preceded; [apply shrinks_tag|]. apply shrinks_terminated; [|apply shrinks_tag].
    now apply shrinks_trimmed, shrinks_trimmed, shrinks_non_empty.
  - apply safe_non_empty, safe_map, safe_pair; auto using shrinks_condition, safe_condition.
    apply safe_preceded; auto using shrinks_tag, safe_tag. apply safe_terminated; auto using safe_tag.
    + now apply shrinks_trimmed, shrinks_trimmed, shrinks_non_empty.
    + apply safe_trimmed; [now apply shrinks_trimmed, shrinks_non_empty|].
      apply safe_trimmed; [now apply shrinks_non_empty|].
      apply safe_non_empty, safe_contents_loop; auto using shrinks_rule_block_other.
      now apply safe_rule_block_other.
Qed.

Lemma safe_keyframes n d : n <= d -> safe n (keyframes d).
Proof.
  intros H.
  assert (S : shrinks (terminated (many0 (rule_block_frame d)) (tag (lit "}")))).
  { apply shrinks_terminated, shrinks_tag. apply shrinks_many0.
    eapply sound_shrinks, sound_frame. }
  assert (Sk : shrinks (at_rule_condition [tag (lit "@keyframes"); fail_p])).
  { eapply sound_shrinks, sound_keyframes_condition. }
  apply safe_trimmed.
  - apply shrinks_map, shrinks_separated_pair; auto using shrinks_tag.
  - apply safe_map, safe_braced; auto.
    + apply safe_at_rule_condition;
        repeat apply Forall_cons; auto using Forall_nil, safe_tag, safe_fail, shrinks_tag, shrinks_fail.
    + intros Hn. assert (Sf : shrinks (rule_block_frame d)) by (eapply sound_shrinks, sound_frame).
      apply safe_terminated; auto using safe_tag, shrinks_many0.
      apply safe_many0; auto. apply safe_rule_block_frame. lia.
Qed.

Lemma shrinks_scope_contents d : shrinks (scope_contents d).
Proof. eapply sound_shrinks, sound_scope_contents. Qed.

Lemma safe_at_rule n contents :
  shrinks contents -> (1 <= n -> safe (n - 1) contents) -> safe n (at_rule_with contents).
Proof.
  intros S H.
  assert (Sc : shrinks (at_rule_condition [tag (lit "@container"); tag (lit "@supports"); tag (lit "@media")])).
  { eapply sound_shrinks, (sound_at_rule_condition group_names).
    repeat apply Forall_cons; try apply Forall_nil; apply sound_tag_in; cbn [group_names In]; tauto. }
  assert (St : shrinks (terminated contents (tag (lit "}")))) by auto using shrinks_terminated, shrinks_tag.
  apply safe_trimmed.
  - apply shrinks_non_empty, shrinks_map, shrinks_separated_pair; auto using shrinks_tag.
  - apply safe_non_empty, safe_map, safe_braced; auto.
    + apply safe_at_rule_condition; repeat apply Forall_cons; auto using Forall_nil, safe_tag, shrinks_tag.
    + intros Hn. apply safe_terminated; auto using safe_tag.
Qed.

Definition scope_elem (d : nat) : parser scope_content :=
  alt [dangling_block; block d; at_rule_with (scope_contents d); keyframes d].

Lemma sound_scope_elem d : sound (scope_elem d) elem_text.
Proof.
  apply sound_alt. each.
  - apply sound_dangling.
  - apply sound_block.
  - eapply sound_weaken.
    { apply sound_trimmed, sound_non_empty, sound_map.
      eapply sound_separated_pair; [|apply sound_tag|].
      - apply (sound_at_rule_condition group_names). each; apply sound_tag_in; cbn [group_names In]; tauto.
      - eapply sound_terminated; [apply sound_scope_contents|apply sound_tag]. }
    intros t s (w & u & w' & -> & Hw & Hw' & (cond & content) & (ct & c & b & -> & Hct & (_ & -> & _) & Hb) & ->) t' l Hl.
    cbn [fst snd] in *. destruct Hb as (body & cl & -> & Hbody & (_ & -> & _)).
    replace ((w ++ (ct ++ lit "{" ++ body ++ lit "}") ++ w') ++ t')
      with (w ++ ct ++ lit "{" ++ body ++ lit "}" ++ w' ++ t') by now rewrite <- !app_assoc.
    now apply ss_rule.
  - apply sound_keyframes.
Qed.

Lemma safe_scope_elem_of n d :
  n < d -> (1 <= n -> safe (n - 1) (scope_contents d)) -> safe n (scope_elem d).
Proof.
  intros Hd H. apply safe_alt. repeat apply Forall_cons; try apply Forall_nil.
  - apply safe_dangling.
  - now apply safe_block.
  - apply safe_at_rule; auto using shrinks_scope_contents.
  - apply safe_keyframes. lia.
Qed.

Lemma safe_scope_contents n d : n + 1 < d -> safe n (scope_contents d).
Proof.
  revert n. induction d as [|d IH]; intros n H; [lia|]. cbn [scope_contents].
  assert (S : shrinks (scope_elem d)) by (eapply sound_shrinks, sound_scope_elem).
  apply safe_trimmed.
  - now apply shrinks_non_empty, shrinks_many0.
  - apply safe_non_empty, safe_many0; auto. apply safe_scope_elem_of; [lia|].
    intros Hn. apply IH. lia.
Qed.

Lemma safe_sheet n d : n + 1 < d -> safe n (sheet_p d).
Proof.
  intros H. assert (S : shrinks (scope d)).
  { apply shrinks_trimmed, shrinks_non_empty, shrinks_scope_contents. }
  apply safe_trimmed.
  - now apply shrinks_map, shrinks_many0.
  - apply safe_map, safe_many0; auto. apply safe_trimmed.
    + apply shrinks_non_empty, shrinks_scope_contents.
    + now apply safe_non_empty, safe_scope_contents.
Qed.

Lemma parse_total css : parse css <> OutOfFuel.
Proof.
  unfold parse. assert (H : safe (List.length css) (sheet_p (S (S (List.length css)))))
    by (apply safe_sheet; lia).
  destruct (H css (le_n _)) as [H1 H2]. destruct (sheet_p _ css); congruence.
Qed.

(** ** The whole input is consumed *)

(** [sp] always succeeds. *)
Lemma many0_no_err {A} (p : parser A) n i :
  (forall i r a, p i = ROk r a -> List.length r < List.length i) -> many0_fuel n p i <> RErr.
Proof.
  intros H. revert i. induction n as [|n IH]; intros i; cbn; [discriminate|].
  destruct (p i) eqn:E; try discriminate. apply H in E.
  destruct (Nat.eqb_spec (List.length rest) (List.length i)); [lia|].
  specialize (IH rest). destruct (many0_fuel n p rest); cbn; congruence.
Qed.

Definition sp_item : parser str := alt [take_while1 (fun c => mem c sp_chars); cmt].

Lemma cmt_consumes i r a : cmt i = ROk r a -> List.length r < List.length i.
Proof.
  intros E. apply bind_ok in E. destruct E as (r1 & a1 & E1 & E).
  destruct (sound_tag _ _ _ _ E1) as (t & -> & -> & ->).
  apply bind_ok in E. destruct E as (r2 & a2 & E2 & E).
  apply bind_ok in E. destruct E as (r3 & a3 & E3 & [= <- <-]).
  apply shrinks_le in E3; [|apply shrinks_tag].
  apply shrinks_le in E2.
  2:{ apply shrinks_recognize, shrinks_many0, shrinks_alt. repeat constructor.
      - apply shrinks_is_not.
      - apply shrinks_terminated; [apply shrinks_tag|apply shrinks_not]. }
  rewrite app_length. cbn. lia.
Qed.

Lemma take_while1_consumes f i r a : take_while1 f i = ROk r a -> List.length r < List.length i.
Proof.
  intros E. destruct (sound_take_while1 _ _ _ _ E) as (t & -> & -> & Hn & _).
  rewrite app_length. destruct a; [easy|]. cbn. lia.
Qed.

Lemma sp_item_consumes i r a : sp_item i = ROk r a -> List.length r < List.length i.
Proof.
  unfold sp_item. cbn [alt]. destruct (take_while1 _ i) eqn:E; try discriminate.
  - intros [= <- <-]. eapply take_while1_consumes, E.
  - destruct (cmt i) eqn:E2; try discriminate. intros [= <- <-]. eapply cmt_consumes, E2.
Qed.

Lemma sp_ok i : exists r w, sp i = ROk r w /\ i = w ++ r /\ blank w.
Proof.
  destruct (safe_sp (List.length i) i (le_n _)) as [H1 H2].
  destruct (sp i) as [r w| | |] eqn:E; try easy.
  - exists r, w. split; auto.
    assert (Hw : sound sp (fun t a => t = a /\ blank t)).
    { intros i' r' a' E'. destruct (sound_sp _ _ _ E') as (t & -> & Ht).
      unfold sp in E'. apply sound_recognize with (R := fun _ _ => True) in E'.
      - destruct E' as (t' & Ht' & -> & _). apply app_inv_tail in Ht'. subst. eauto.
      - intros i2 r2 a2 E2. assert (S : shrinks (many0 sp_item)).
        { apply shrinks_many0, shrinks_alt. repeat constructor; [apply shrinks_take_while1|apply shrinks_cmt]. }
        destruct (S _ _ _ E2) as [t2 ->]. eauto. }
    destruct (Hw _ _ _ E) as (t & -> & -> & Hb). auto.
  - exfalso. unfold sp, recognize in E. change (alt [take_while1 (fun c => mem c sp_chars); cmt]) with sp_item in E.
    unfold many0 in E. destruct (many0_fuel (S (List.length i)) sp_item i) eqn:E2; try discriminate.
    revert E2. apply many0_no_err, sp_item_consumes.
Qed.

(** Where the loop of [many0] stops, the element parser fails. *)
Lemma many0_stop {A} (p : parser A) n i r l : many0_fuel n p i = ROk r l -> p r = RErr.
Proof.
  revert i l. induction n as [|n IH]; intros i l; cbn; [discriminate|].
  destruct (p i) eqn:E; try discriminate.
  - destruct (Nat.eqb _ _); [discriminate|]. intros E2. apply bind_ok in E2.
    destruct E2 as (r2 & l2 & E2 & [= <- <-]). eauto.
  - now intros [= <- <-].
Qed.

(** After [sp] there is no blank space left to take. *)
Lemma sp_stop i r w : sp i = ROk r w -> sp_item r = RErr.
Proof. intros E. apply bind_ok in E. destruct E as (r' & l & E & [= <- _]). eapply many0_stop, E. Qed.

Lemma sp_item_sp r : sp_item r = RErr -> sp r = ROk r [].
Proof.
  intros H. unfold sp, recognize, many0. change (alt [take_while1 (fun c => mem c sp_chars); cmt]) with sp_item.
  cbn [many0_fuel]. rewrite H. cbn [bind]. now rewrite Nat.sub_diag.
Qed.

(** Parsers that always consume something. *)
Definition consumes {A} (p : parser A) : Prop :=
  forall i r a, p i = ROk r a -> List.length r < List.length i.

Lemma consumes_tag c t : consumes (tag (c :: t)).
Proof.
  intros i r a E. destruct (sound_tag _ _ _ _ E) as (u & -> & -> & ->). rewrite app_length. cbn. lia.
Qed.
Lemma consumes_map {A B} (f : A -> B) p : consumes p -> consumes (map_p f p).
Proof. intros H i r a E. apply bind_ok in E. destruct E as (r' & b & E & [= <- <-]). eauto. Qed.
Lemma consumes_pair_l {A B} (p : parser A) (q : parser B) :
  consumes p -> shrinks q -> consumes (pair_p p q).
Proof.
  intros Hp Hq i r a E. apply bind_ok in E. destruct E as (r1 & b & E1 & E).
  apply bind_ok in E. destruct E as (r2 & c & E2 & [= <- <-]).
  apply Hp in E1. apply shrinks_le in E2; auto. lia.
Qed.
Lemma consumes_pair_r {A B} (p : parser A) (q : parser B) :
  shrinks p -> consumes q -> consumes (pair_p p q).
Proof.
  intros Hp Hq i r a E. apply bind_ok in E. destruct E as (r1 & b & E1 & E).
  apply bind_ok in E. destruct E as (r2 & c & E2 & [= <- <-]).
  apply Hq in E2. apply shrinks_le in E1; auto. lia.
Qed.
Lemma consumes_preceded_l {A B} (p : parser A) (q : parser B) :
  consumes p -> shrinks q -> consumes (preceded p q).
Proof.
  intros Hp Hq i r a E. apply bind_ok in E. destruct E as (r1 & b & E1 & E).
  apply Hp in E1. apply shrinks_le in E; auto. lia.
Qed.
Lemma consumes_preceded_r {A B} (p : parser A) (q : parser B) :
  shrinks p -> consumes q -> consumes (preceded p q).
Proof.
  intros Hp Hq i r a E. apply bind_ok in E. destruct E as (r1 & b & E1 & E).
  apply Hq in E. apply shrinks_le in E1; auto. lia.
Qed.
Lemma consumes_terminated_l {A B} (p : parser A) (q : parser B) :
  consumes p -> shrinks q -> consumes (terminated p q).
Proof.
  intros Hp Hq i r a E. apply bind_ok in E. destruct E as (r1 & b & E1 & E).
  apply bind_ok in E. destruct E as (r2 & c & E2 & [= <- <-]).
  apply Hp in E1. apply shrinks_le in E2; auto. lia.
Qed.
Lemma consumes_terminated_r {A B} (p : parser A) (q : parser B) :
  shrinks p -> consumes q -> consumes (terminated p q).
Proof.
  intros Hp Hq i r a E. apply bind_ok in E. destruct E as (r1 & b & E1 & E).
  apply bind_ok in E. destruct E as (r2 & c & E2 & [= <- <-]).
  apply Hq in E2. apply shrinks_le in E1; auto. lia.
Qed.
Lemma consumes_trimmed {A} (p : parser A) : consumes p -> consumes (trimmed p).
Proof.
  intros H. apply consumes_preceded_r; [apply shrinks_sp|].
  apply consumes_terminated_l; [exact H|apply shrinks_sp].
Qed.
Lemma consumes_non_empty {A} (p : parser A) : consumes p -> consumes (expect_non_empty p).
Proof. intros H i r a. destruct i; [discriminate|]. apply H. Qed.
Lemma consumes_shrinks_braced {A B} (p : parser A) (q : parser B) c :
  shrinks p -> shrinks q -> consumes (separated_pair p (tag [c]) q).
Proof.
  intros Hp Hq. apply consumes_pair_r; auto. apply consumes_preceded_l; auto. apply consumes_tag.
Qed.
Lemma consumes_alt {A} (ps : list (parser A)) : Forall consumes ps -> consumes (alt ps).
Proof.
  intros H i r a. induction H as [|p ps Hp _ IH]; cbn; [discriminate|].
  destruct (p i) eqn:E; try discriminate; auto. intros [= <- <-]. eauto.
Qed.

Lemma consumes_attribute : consumes attribute.
Proof.
  apply consumes_trimmed, consumes_non_empty, consumes_map.
  apply (consumes_shrinks_braced _ _ (ch ":")).
  - apply shrinks_trimmed, shrinks_ident.
  - eapply sound_shrinks, sound_value.
Qed.

Lemma consumes_attributes d : consumes (attributes d).
Proof.
  apply consumes_trimmed, consumes_non_empty, consumes_terminated_l.
  - intros i r l E. apply bind_ok in E. destruct E as (r1 & a & E1 & E).
    apply consumes_attribute in E1. apply bind_ok in E. destruct E as (r2 & l2 & E2 & [= <- <-]).
    apply (sound_shrinks _ _ (sound_sep_fuel _ _ _ _ _ (sound_tag _) sound_attribute)) in E2.
    destruct E2 as [t ->]. rewrite app_length in E1. lia.
  - apply shrinks_preceded; [apply shrinks_opt, shrinks_sp|].
    destruct d; [apply shrinks_map, shrinks_tag|apply shrinks_opt, shrinks_tag].
Qed.

Lemma consumes_scope_elem d : consumes (scope_elem d).
Proof.
  apply consumes_alt. each.
  - apply consumes_trimmed, consumes_non_empty, consumes_map, consumes_attributes.
  - apply consumes_trimmed, consumes_non_empty, consumes_map, consumes_pair_r;
      [apply shrinks_condition|].
    apply consumes_preceded_l; [apply consumes_tag|].
    apply shrinks_terminated; [|apply shrinks_tag].
    apply shrinks_trimmed, shrinks_trimmed, shrinks_non_empty, shrinks_contents_loop,
      shrinks_rule_block_other.
  - apply consumes_trimmed, consumes_non_empty, consumes_map, (consumes_shrinks_braced _ _ (ch "{")).
    + eapply sound_shrinks, (sound_at_rule_condition group_names).
      each; apply sound_tag_in; cbn [group_names In]; tauto.
    + apply shrinks_terminated; [apply shrinks_scope_contents|apply shrinks_tag].
  - apply consumes_trimmed, consumes_map, (consumes_shrinks_braced _ _ (ch "{")).
    + eapply sound_shrinks, sound_keyframes_condition.
    + apply shrinks_terminated; [|apply shrinks_tag]. apply shrinks_many0.
      eapply sound_shrinks, sound_frame.
Qed.

(** [scope] only fails on blank text: on unknown text it succeeds without consuming, which
    is an error of the enclosing loop. *)
Lemma scope_error_blank d i : List.length i + 1 < d -> scope d i = RErr -> exists w, sp i = ROk [] w.
Proof.
  intros Hd. unfold scope, trimmed, delimited, preceded, terminated.
  destruct (sp_ok i) as (r & w & E & Hi & Hw). rewrite E. cbn [bind].
  destruct r as [|c r].
  { intros _. eauto. }
  cbn [expect_non_empty].
  destruct (safe_scope_contents (List.length (c :: r)) d) with (i := c :: r) as [H1 H2];
    [subst; rewrite app_length in Hd; lia|lia|].
  destruct (scope_contents d (c :: r)) as [r2 l| | |] eqn:E2; cbn [bind]; try easy.
  - destruct (sp_ok r2) as (r3 & w3 & E3 & _). rewrite E3. discriminate.
  - intros _. exfalso. clear H1 H2. destruct d as [|d]; [lia|]. cbn [scope_contents] in E2.
    unfold trimmed, delimited, preceded, terminated in E2. apply sp_stop in E.
    rewrite (sp_item_sp _ E) in E2. cbn [bind expect_non_empty] in E2.
    change (alt [dangling_block; block d; at_rule_with (scope_contents d); keyframes d])
      with (scope_elem d) in E2.
    destruct (many0 (scope_elem d) (c :: r)) as [r2 l| | |] eqn:E3; cbn [bind] in E2; try easy.
    + destruct (sp_ok r2) as (r3 & w3 & E4 & _). rewrite E4 in E2. discriminate.
    + revert E3. apply many0_no_err, consumes_scope_elem.
Qed.

Lemma sheet_consumes_all d i r s :
  List.length i + 1 < d -> sheet_p d i = ROk r s -> r = [].
Proof.
  intros Hd E. unfold sheet_p, trimmed, delimited, preceded, terminated, map_p in E.
  destruct (sp_ok i) as (r1 & w1 & E1 & Hi & _). rewrite E1 in E. cbn [bind] in E.
  apply bind_ok in E. destruct E as (r2 & l & E2 & E).
  apply bind_ok in E2. destruct E2 as (r3 & ls & E3 & [= <- <-]).
  assert (Hl : List.length r3 <= List.length i).
  { assert (S : shrinks (many0 (scope d)))
      by apply shrinks_many0, shrinks_trimmed, shrinks_non_empty, shrinks_scope_contents.
    apply shrinks_le in E3; auto. subst i. rewrite app_length. lia. }
  apply many0_stop in E3. apply scope_error_blank in E3; [|lia]. destruct E3 as [w E3].
  rewrite E3 in E. cbn [bind] in E. now injection E.
Qed.

Lemma parse_sound css s : parse css = Parsed s -> says_sheet css s.
Proof.
  unfold parse. destruct (sheet_p _ css) as [r s'| | |] eqn:E; try discriminate. intros [= <-].
  assert (r = []) by (eapply sheet_consumes_all; [|exact E]; lia). subst r.
  destruct (sound_sheet _ _ _ _ E) as (t & -> & H). now rewrite app_nil_r.
Qed.

(** ** The shape of accepted sheets *)

Lemma decl_shape t a : padded decl_text t a -> attr_shape a.
Proof.
  intros (_ & u & _ & _ & _ & _ & kt & k & vt & v & _ & (_ & x & _ & _ & _ & _ & -> & Hk)
          & (_ & y & _ & _ & _ & _ & -> & Hv) & ->).
  split; cbn; [exists k; auto|]. exists v. auto.
Qed.

Lemma says_decls_shape f t l : says_decls f t l -> l <> [] /\ Forall attr_shape l.
Proof.
  induction 1 as [t a _ H|t a w H _|t a t' l H _ [IH1 IH2]]; split; try discriminate;
    constructor; eauto using decl_shape.
Qed.

Lemma at_text_shape names t cond : at_text names t cond -> cond_shape names cond.
Proof. intros (w & n & c & w' & _ & _ & _ & Hn & Hc & ->). exists n, c. auto. Qed.

Lemma says_content_shape t c : says_content t c -> Forall content_shape c.
Proof.
  induction 1 as [w _|t l t' c Hl _ IH|w t cond body content w' t' c _ Ht _ IHb _ _ IH].
  - constructor.
  - apply Forall_app. split; auto. apply says_decls_shape in Hl. destruct Hl as [_ Hl].
    clear IH. induction Hl; cbn; constructor; auto. now apply cs_attr.
  - constructor; auto. apply cs_rule; eauto using at_text_shape.
Qed.

Lemma selector_list_shape t l : selector_list t l -> l <> [] /\ Forall selector_shape l.
Proof.
  intros (Hn & w & u & w' & -> & _ & _ & H). split; auto. clear Hn.
  induction H as [|t s t' l (u' & c & _ & (x & (_ & y & _ & _ & _ & _ & -> & Hx) & ->) & _) _ IH];
    constructor; auto. exists x. auto.
Qed.

Lemma frames_shape t l : star frame_text t l -> Forall frame_shape l.
Proof.
  induction 1 as [|t r t' l (w & ct & body & content & w' & _ & _ & _ & Hct & Hb & ->) _ IH];
    constructor; auto. apply fs_frame; auto. eapply says_content_shape, Hb.
Qed.

Lemma says_scope_shape t c : says_scope t c -> Forall scope_shape (map rbc_of_scope c).
Proof.
  induction 1; cbn; constructor; auto.
  - apply sh_dangling; eapply says_decls_shape; eauto.
  - match goal with H : selector_list _ _ |- _ => apply selector_list_shape in H; destruct H end.
    apply sh_block; auto. eapply says_content_shape; eauto.
  - apply sh_rule; auto. eapply at_text_shape; eauto.
  - apply sh_keyframes; [eapply at_text_shape; eauto|eapply frames_shape; eauto].
Qed.

Lemma parse_shape css s : parse css = Parsed s -> sheet_shape s.
Proof.
  intros H. apply parse_sound, says_scope_shape in H. unfold sheet_shape.
  now rewrite Forall_map in H.
Qed.

(** ** The depth bound is immaterial *)

(** [q] answers what [p] answers, wherever [p] has enough fuel. *)
Definition refines {A} (p q : parser A) : Prop := forall i, p i <> RFuel -> q i = p i.

Lemma refines_refl {A} (p : parser A) : refines p p.
Proof. now intros i _. Qed.
Lemma refines_map {A B} (f : A -> B) p q : refines p q -> refines (map_p f p) (map_p f q).
Proof.
  intros H i E. unfold map_p in *. rewrite H; auto. intros E2. apply E. now rewrite E2.
Qed.
Lemma refines_pair {A B} (p p' : parser A) (q q' : parser B) :
  refines p p' -> refines q q' -> refines (pair_p p q) (pair_p p' q').
Proof.
  intros Hp Hq i E. unfold pair_p in *. rewrite Hp by (intros E2; apply E; now rewrite E2).
  destruct (p i) as [r a| | |]; cbn [bind] in *; auto.
  rewrite Hq; auto. intros E2. apply E. now rewrite E2.
Qed.
Lemma refines_preceded {A B} (p p' : parser A) (q q' : parser B) :
  refines p p' -> refines q q' -> refines (preceded p q) (preceded p' q').
Proof.
  intros Hp Hq i E. unfold preceded in *. rewrite Hp by (intros E2; apply E; now rewrite E2).
  destruct (p i) as [r a| | |]; cbn [bind] in *; auto.
Qed.
Lemma refines_terminated {A B} (p p' : parser A) (q q' : parser B) :
  refines p p' -> refines q q' -> refines (terminated p q) (terminated p' q').
Proof.
  intros Hp Hq i E. unfold terminated in *. rewrite Hp by (intros E2; apply E; now rewrite E2).
  destruct (p i) as [r a| | |]; cbn [bind] in *; auto.
  rewrite Hq; auto. intros E2. apply E. now rewrite E2.
Qed.
Lemma refines_trimmed {A} (p q : parser A) : refines p q -> refines (trimmed p) (trimmed q).
Proof.
  intros H. apply refines_preceded; [apply refines_refl|]. apply refines_terminated; [exact H|apply refines_refl].
Qed.
Lemma refines_non_empty {A} (p q : parser A) :
  refines p q -> refines (expect_non_empty p) (expect_non_empty q).
Proof. intros H i E. destruct i; auto. now apply H. Qed.
Lemma refines_alt {A} (ps qs : list (parser A)) :
  Forall2 refines ps qs -> refines (alt ps) (alt qs).
Proof.
  intros H i. induction H as [|p q ps qs Hp _ IH]; cbn; auto. intros E.
  rewrite Hp by (intros E2; apply E; now rewrite E2). destruct (p i); auto.
Qed.
Lemma refines_many0_fuel {A} (p q : parser A) n :
  refines p q -> refines (many0_fuel n p) (many0_fuel n q).
Proof.
  intros H. induction n as [|n IH]; intros i; cbn; auto. intros E.
  rewrite H by (intros E2; apply E; now rewrite E2). destruct (p i); auto.
  destruct (Nat.eqb _ _); auto. rewrite IH; auto. intros E2. apply E. now rewrite E2.
Qed.
Lemma refines_many0 {A} (p q : parser A) : refines p q -> refines (many0 p) (many0 q).
Proof. intros H i. now apply refines_many0_fuel. Qed.

Lemma refines_contents_loop p q : refines p q -> refines (contents_loop p) (contents_loop q).
Proof.
  intros H. apply refines_map, refines_many0, refines_alt.
  apply Forall2_cons; [apply refines_refl|]. apply Forall2_cons; [|apply Forall2_nil].
  now apply refines_map.
Qed.
Lemma refines_rule_block_with c p q :
  refines p q -> refines (rule_block_with c p) (rule_block_with c q).
Proof.
  intros H. apply refines_trimmed, refines_non_empty, refines_map, refines_pair; [apply refines_refl|].
  apply refines_preceded; [apply refines_refl|]. apply refines_terminated; [|apply refines_refl].
  now apply refines_non_empty, refines_contents_loop.
Qed.
Lemma refines_rule_block_other d : refines (rule_block_other d) (rule_block_other (S d)).
Proof.
  induction d as [|d IH]; [intros i E; now destruct E|].
  cbn [rule_block_other]. now apply refines_rule_block_with.
Qed.
Lemma refines_block d : refines (block d) (block (S d)).
Proof.
  apply refines_trimmed, refines_non_empty, refines_map, refines_pair; [apply refines_refl|].
  apply refines_preceded; [apply refines_refl|]. apply refines_terminated; [|apply refines_refl].
  apply refines_trimmed, refines_trimmed, refines_non_empty, refines_contents_loop, refines_rule_block_other.
Qed.
Lemma refines_keyframes d : refines (keyframes d) (keyframes (S d)).
Proof.
  apply refines_trimmed, refines_map, refines_pair; [apply refines_refl|].
  apply refines_preceded; [apply refines_refl|]. apply refines_terminated; [|apply refines_refl].
  apply refines_many0, refines_rule_block_with, refines_rule_block_other.
Qed.
Lemma refines_at_rule p q : refines p q -> refines (at_rule_with p) (at_rule_with q).
Proof.
  intros H. apply refines_trimmed, refines_non_empty, refines_map, refines_pair; [apply refines_refl|].
  apply refines_preceded; [apply refines_refl|]. apply refines_terminated; [|apply refines_refl].
  exact H.
Qed.
Lemma scope_contents_S d :
  scope_contents (S d) = trimmed (expect_non_empty (many0 (scope_elem d))).
Proof. reflexivity. Qed.
Lemma refines_scope_contents d : refines (scope_contents d) (scope_contents (S d)).
Proof.
  induction d as [|d IH]; [intros i E; now destruct E|].
  rewrite (scope_contents_S d), (scope_contents_S (S d)).
  apply refines_trimmed, refines_non_empty, refines_many0. unfold scope_elem. apply refines_alt.
  apply Forall2_cons; [apply refines_refl|].
  apply Forall2_cons; [apply refines_block|].
  apply Forall2_cons; [apply refines_at_rule; exact IH|].
  apply Forall2_cons; [apply refines_keyframes|apply Forall2_nil].
Qed.
Lemma refines_sheet d : refines (sheet_p d) (sheet_p (S d)).
Proof.
  unfold sheet_p, scope.
  apply refines_trimmed, refines_map, refines_many0, refines_trimmed, refines_non_empty.
  apply refines_scope_contents.
Qed.

Lemma sheet_depth css d :
  S (S (List.length css)) <= d -> sheet_p d css = sheet_p (S (S (List.length css))) css.
Proof.
  intros Hd. remember (S (S (List.length css))) as k eqn:Hk. induction Hd as [|d Hd IH]; auto.
  rewrite <- IH. apply refines_sheet.
  assert (H : safe (List.length css) (sheet_p d)) by (apply safe_sheet; lia).
  now apply H.
Qed.
