(** * DepthNest: the room that an accepted text needs (C90). *)

From Coq Require Import String Ascii List NArith Bool Arith Lia.
From Verif Require Import Str StrFacts Ast Nom CssParser SpecSays NomFacts ParserSound ParserTotal SpecGrammar ParserLex ParserTokens ParserSel ParserGrammar ParserComplete SpecSize SpecDepth DepthFacts.
Import ListNotations.
Local Open Scope list_scope.

Lemma most_le l n : most l <= n <-> Forall (fun x => x <= n) l.
Proof.
  induction l as [|x l IH]; cbn; split; intros H; auto; try lia.
  - constructor; [|apply IH]; unfold most in *; cbn in H; lia.
  - inversion H; subst. apply IH in H3. unfold most in *. cbn. lia.
Qed.

Lemma tag_rest t i r a : tag t i = ROk r a -> i = t ++ r.
Proof. intros E. destruct (sound_tag _ _ _ _ E) as (u & -> & -> & _). reflexivity. Qed.

(** ** Loops whose next text is a closing brace *)

Lemma many0_down {A} (big small : parser A) (P : A -> Prop) (Q : str -> Prop) :
  (forall i r a, big i = ROk r a -> P a -> small i = ROk r a) ->
  (forall X, Q X -> big X = RErr -> small X = RErr) ->
  forall i r l, many0 big i = ROk r l -> Q r -> Forall P l -> many0 small i = ROk r l.
Proof.
  intros H E i. unfold many0. generalize (S (List.length i)). intros k. revert i.
  induction k as [|k IH]; intros i r l; cbn; [discriminate|].
  destruct (big i) as [r1 a| | |] eqn:Eb; try discriminate.
  - destruct (_ =? _) eqn:En; [discriminate|]. intros F Hr HP.
    apply bind_ok in F. destruct F as (r2 & l2 & F & [= <- <-]). inversion HP; subst.
    rewrite (H _ _ _ Eb) by auto. rewrite En. rewrite (IH _ _ _ F) by auto. reflexivity.
  - intros [= <- <-] Hr _. now rewrite E.
Qed.

Lemma loop_down (big small : parser rbc) (P : rbc -> Prop) :
  (forall i r a, big i = ROk r a -> P a -> small i = ROk r a) ->
  (forall X, brace (dsp X) -> small X = RErr) ->
  forall i r l, contents_loop big i = ROk r l -> brace (dsp r) -> Forall P l ->
    contents_loop small i = ROk r l.
Proof.
  intros H E i r l F Hr HP. unfold contents_loop, map_p at 1 in F. apply bind_ok in F.
  destruct F as (r1 & ls & F & [= <- <-]).
  unfold contents_loop, map_p at 1.
  assert (G : many0 (alt [map_p (map CAttr) (attributes false); map_p (fun m => [m]) small]) i = ROk r1 ls).
  { eapply (many0_down _ _ (Forall P) (fun X => brace (dsp X))); [| |exact F|exact Hr|].
    - intros i0 r0 a0. cbn [alt]. intros F' HP'.
      destruct (map_p (map CAttr) (attributes false) i0); auto; try discriminate.
      unfold map_p in *. destruct (big i0) as [r2 b| | |] eqn:Eb; try discriminate. cbn [bind] in F'.
      injection F' as <- <-. inversion HP'; subst. now rewrite (H _ _ _ Eb).
    - intros X HX. cbn [alt]. destruct (map_p (map CAttr) (attributes false) X); try discriminate.
      intros _. unfold map_p. now rewrite E.
    - clear - HP. induction ls as [|x ls IH]; constructor; cbn in HP; apply Forall_app in HP; tauto. }
  rewrite G. reflexivity.
Qed.

Lemma brace_tag X r a : tag (lit "}") X = ROk r a -> brace X.
Proof. intros E. exists r. now apply tag_rest in E. Qed.

Lemma rule_down cond (big small : parser rbc) (P : rbc -> Prop) :
  (forall i r a, big i = ROk r a -> P a -> small i = ROk r a) ->
  (forall X, brace (dsp X) -> small X = RErr) ->
  forall i r a, rule_block_with cond big i = ROk r a ->
    (forall c l, a = CRule c l -> Forall P l) -> rule_block_with cond small i = ROk r a.
Proof.
  intros H E i r a F HP. unfold rule_block_with in *. rewrite trimmed_eq in *.
  destruct (dsp i) as [|c0 X0]; [discriminate|]. cbn [expect_non_empty] in *.
  set (X := c0 :: X0) in *. unfold map_p, separated_pair, pair_p, preceded, terminated, rule_block_contents in *.
  destruct (cond X) as [r1 cd| | |]; try discriminate. cbn [bind] in *.
  destruct (tag (lit "{") r1) as [r2 x| | |]; try discriminate. cbn [bind] in *.
  destruct r2 as [|c2 r2]; [discriminate|]. cbn [expect_non_empty] in *.
  destruct (contents_loop big (c2 :: r2)) as [r3 l| | |] eqn:El; try discriminate. cbn [bind] in *.
  destruct (tag (lit "}") r3) as [r4 y| | |] eqn:Et; try discriminate. cbn [bind fst snd] in *.
  injection F as <- <-. rewrite (loop_down big small P H E _ _ _ El).
  - cbn [bind]. rewrite Et. reflexivity.
  - apply brace_tag in Et. now rewrite brace_dsp.
  - eapply HP. reflexivity.
Qed.

Lemma other_stop d X : brace (dsp X) -> rule_block_other (S d) X = RErr.
Proof.
  intros H. cbn [rule_block_other]. apply trimmed_err, non_empty_err, map_err, pair_err.
  apply at_condition_err. rewrite dsp_idem. destruct H as [X' ->]. reflexivity.
Qed.
Lemma frame_stop d X : brace (dsp X) -> rule_block_frame d X = RErr.
Proof.
  intros H. unfold rule_block_frame, rule_block_with. rewrite <- trimmed_dsp. now apply frame_brace.
Qed.

(** ** Nested rules need one call each, and one more looks for the next *)

Lemma rule_is_rule cond rule i r a : rule_block_with cond rule i = ROk r a -> exists c l, a = CRule c l.
Proof.
  unfold rule_block_with. rewrite trimmed_eq. intros F. apply bind_ok in F. destruct F as (r1 & b & F & [= _ <-]).
  destruct (dsp i); [discriminate|]. cbn [expect_non_empty] in F. apply bind_ok in F.
  destruct F as (r2 & p & _ & [= _ <-]). eauto.
Qed.

Definition fits (d : nat) (x : rbc) : Prop := rule_depth x + 1 <= d.

Lemma fits_rule d c l : fits (S d) (CRule c l) -> Forall (fits d) l.
Proof.
  unfold fits. cbn [rule_depth]. intros H. assert (M : most (map rule_depth l) <= d - 1) by lia.
  apply most_le in M. rewrite Forall_map in M. eapply Forall_impl; [|exact M]. cbn. intros x Hx. lia.
Qed.

Lemma other_down d : forall D i r a,
  rule_block_other D i = ROk r a -> fits d a -> rule_block_other d i = ROk r a.
Proof.
  induction d as [|d IH]; intros D i r a F Hf; [unfold fits in Hf; lia|].
  destruct D as [|D]; [discriminate|]. cbn [rule_block_other] in *.
  destruct (rule_is_rule _ _ _ _ _ F) as (c & l & Ea).
  assert (Hd : exists d', d = S d').
  { subst a. unfold fits in Hf. cbn in Hf. destruct d; [lia|eauto]. }
  destruct Hd as [d' Ed].
  eapply (rule_down _ (rule_block_other D) (rule_block_other d) (fits d)); [| |exact F|].
  - intros i' r' a' F' Hf'. eapply IH; eauto.
  - intros X HX. subst d. now apply other_stop.
  - intros c' l' E'. rewrite Ea in Hf. rewrite E' in Ea. injection Ea as <- <-. now apply fits_rule in Hf.
Qed.

Lemma other_loop_down d D i r l :
  contents_loop (rule_block_other D) i = ROk r l -> brace (dsp r) -> 1 <= d -> Forall (fits d) l ->
  contents_loop (rule_block_other d) i = ROk r l.
Proof.
  intros F Hr Hd Hl. eapply (loop_down (rule_block_other D) _ (fits d)); [| |exact F|exact Hr|exact Hl].
  - intros i' r' a' F' Hf'. eapply other_down; eauto.
  - intros X HX. destruct d; [lia|]. now apply other_stop.
Qed.

Lemma frame_down d D i r a :
  1 <= d -> rule_block_frame D i = ROk r a -> rule_depth a <= d -> rule_block_frame d i = ROk r a.
Proof.
  intros Hd F Hf. unfold rule_block_frame in *.
  eapply (rule_down _ (rule_block_other D) _ (fits d)); [| |exact F|].
  - intros i' r' a' F' Hf'. eapply other_down; eauto.
  - intros X HX. destruct d; [lia|]. now apply other_stop.
  - intros c l ->. apply (fits_rule d c l). unfold fits. lia.
Qed.

(** ** The pieces of a scope *)

Definition sdepth (x : scope_content) : nat := rule_depth (rbc_of_scope x).

Lemma block_down d D i r a : 1 <= d -> block D i = ROk r a -> sdepth a + 1 <= d -> block d i = ROk r a.
Proof.
  intros Hd F Hf. unfold block in *. rewrite trimmed_eq in *.
  destruct (dsp i) as [|c0 X0]; [discriminate|]. cbn [expect_non_empty] in *.
  set (X := c0 :: X0) in *. unfold map_p, pair_p, delimited, preceded, terminated in *.
  destruct (condition X) as [r1 cd| | |]; try discriminate. cbn [bind] in *.
  destruct (tag (lit "{") r1) as [r2 x| | |]; try discriminate. cbn [bind] in *.
  unfold block_contents in *. rewrite !trimmed_eq in *. rewrite !dsp_idem in *.
  destruct (dsp r2) as [|c2 r2']; [discriminate|]. cbn [expect_non_empty] in *.
  destruct (contents_loop (rule_block_other D) (c2 :: r2')) as [r3 l| | |] eqn:El; try discriminate. cbn [bind] in *.
  destruct (tag (lit "}") (dsp (dsp r3))) as [r4 y| | |] eqn:Et; try discriminate. cbn [bind fst snd] in *.
  injection F as <- <-. rewrite (other_loop_down d D _ _ _ El); auto.
  - cbn [bind]. rewrite Et. reflexivity.
  - apply brace_tag in Et. now rewrite dsp_idem in Et.
  - unfold sdepth in Hf. cbn [rbc_of_scope rule_depth] in Hf. assert (M : most (map rule_depth l) <= d - 1) by lia.
    apply most_le in M. rewrite Forall_map in M. eapply Forall_impl; [|exact M]. unfold fits. cbn. lia.
Qed.

Lemma keyframes_down d D i r a : 1 <= d -> keyframes D i = ROk r a -> sdepth a <= S d -> keyframes d i = ROk r a.
Proof.
  intros Hd F Hf. unfold keyframes in *. rewrite trimmed_eq in *.
  unfold map_p, separated_pair, pair_p, preceded, terminated in *.
  destruct (at_rule_condition _ (dsp i)) as [r1 cd| | |]; try discriminate. cbn [bind] in *.
  destruct (tag (lit "{") r1) as [r2 x| | |]; try discriminate. cbn [bind] in *.
  destruct (many0 (rule_block_frame D) r2) as [r3 l| | |] eqn:El; try discriminate. cbn [bind] in *.
  destruct (tag (lit "}") r3) as [r4 y| | |] eqn:Et; try discriminate. cbn [bind fst snd] in *.
  injection F as <- <-.
  rewrite (many0_down _ (rule_block_frame d) (fun x => rule_depth x <= d) (fun X => brace (dsp X)))
    with (1 := fun i r a F Hx => frame_down d D i r a Hd F Hx) (3 := El).
  - cbn [bind]. rewrite Et. reflexivity.
  - intros X HX _. now apply frame_stop.
  - apply brace_tag in Et. now rewrite brace_dsp.
  - unfold sdepth in Hf. cbn [rbc_of_scope rule_depth] in Hf. assert (M : most (map rule_depth l) <= d) by lia.
    apply most_le in M. now rewrite Forall_map in M.
Qed.

Lemma at_rule_down (big small : parser (list scope_content)) (P : scope_content -> Prop) :
  (forall i r l, big i = ROk r l -> brace (dsp r) -> Forall P l -> small i = ROk r l) ->
  forall i r a, at_rule_with big i = ROk r a ->
    (forall c l, a = SRule c (map rbc_of_scope l) -> Forall P l) -> at_rule_with small i = ROk r a.
Proof.
  intros H i r a F HP. unfold at_rule_with in *. rewrite trimmed_eq in *.
  destruct (dsp i) as [|c0 X0]; [discriminate|]. cbn [expect_non_empty] in *.
  set (X := c0 :: X0) in *. unfold map_p, separated_pair, pair_p, preceded, terminated in *.
  destruct (at_rule_condition _ X) as [r1 cd| | |]; try discriminate. cbn [bind] in *.
  destruct (tag (lit "{") r1) as [r2 x| | |]; try discriminate. cbn [bind] in *.
  destruct (big r2) as [r3 l| | |] eqn:El; try discriminate. cbn [bind] in *.
  destruct (tag (lit "}") r3) as [r4 y| | |] eqn:Et; try discriminate. cbn [bind fst snd] in *.
  injection F as <- <-. rewrite (H _ _ _ El).
  - cbn [bind]. rewrite Et. reflexivity.
  - apply brace_tag in Et. now rewrite brace_dsp.
  - eapply HP. reflexivity.
Qed.

(** A text that starts with a condition of an at-rule. *)
Lemma condition_head tags i r c :
  at_rule_condition tags i = ROk r c -> exists r' t, alt tags (dsp i) = ROk r' t.
Proof.
  unfold at_rule_condition. rewrite trimmed_eq. intros F. apply bind_ok in F. destruct F as (r1 & a1 & F & _).
  destruct (dsp i) as [|c0 X]; [discriminate|]. cbn [expect_non_empty] in F.
  apply bind_ok in F. destruct F as (r2 & a2 & F & _). apply bind_ok in F. destruct F as (r3 & a3 & F & _).
  apply bind_ok in F. destruct F as (r4 & a4 & F & _). apply bind_ok in F. destruct F as (r5 & a5 & F & _). eauto.
Qed.
Lemma at_rule_head contents i r a : at_rule_with contents i = ROk r a ->
  exists r' t, alt [tag (lit "@container"); tag (lit "@supports"); tag (lit "@media")] (dsp i) = ROk r' t.
Proof.
  unfold at_rule_with. rewrite trimmed_eq. intros F. apply bind_ok in F. destruct F as (r1 & a1 & F & _).
  destruct (dsp i) as [|c0 X] eqn:Ei; [discriminate|]. cbn [expect_non_empty] in F.
  apply bind_ok in F. destruct F as (r2 & a2 & F & _). apply bind_ok in F. destruct F as (r3 & a3 & F & _).
  apply condition_head in F. rewrite <- Ei, dsp_idem in F. rewrite <- Ei. exact F.
Qed.
Lemma keyframes_head d i r a : keyframes d i = ROk r a ->
  exists r' t, alt [tag (lit "@keyframes"); fail_p] (dsp i) = ROk r' t.
Proof.
  unfold keyframes. rewrite trimmed_eq. intros F. apply bind_ok in F. destruct F as (r1 & a1 & F & _).
  apply bind_ok in F. destruct F as (r2 & a2 & F & _). apply bind_ok in F. destruct F as (r3 & a3 & F & _).
  apply condition_head in F. now rewrite dsp_idem in F.
Qed.

Lemma at_rule_is_rule contents i r a : at_rule_with contents i = ROk r a -> exists c l, a = SRule c l.
Proof.
  unfold at_rule_with. rewrite trimmed_eq. intros F. apply bind_ok in F. destruct F as (r1 & b & F & [= _ <-]).
  destruct (dsp i); [discriminate|]. cbn [expect_non_empty] in F. apply bind_ok in F.
  destruct F as (r2 & p & _ & [= _ <-]). eauto.
Qed.

Lemma group_at X r t : alt [tag (lit "@container"); tag (lit "@supports"); tag (lit "@media")] X = ROk r t ->
  no_sel X.
Proof.
  cbn [alt]. intros E.
  assert (K : exists u Y, X = ch "@" :: u ++ Y).
  { destruct (tag (lit "@container") X) eqn:E1; try discriminate; [apply tag_rest in E1|].
    { exists (lit "container"), rest. exact E1. }
    destruct (tag (lit "@supports") X) eqn:E2; try discriminate; [apply tag_rest in E2|].
    { exists (lit "supports"), rest. exact E2. }
    destruct (tag (lit "@media") X) eqn:E3; try discriminate. apply tag_rest in E3.
    exists (lit "media"), rest. exact E3. }
  destruct K as (u & Y & ->). cbn. tauto.
Qed.
Lemma keyframes_at X r t : alt [tag (lit "@keyframes"); fail_p] X = ROk r t ->
  no_sel X /\ alt [tag (lit "@container"); tag (lit "@supports"); tag (lit "@media")] X = RErr.
Proof.
  cbn [alt]. destruct (tag (lit "@keyframes") X) as [r1 a| | |] eqn:E1; try discriminate.
  intros _. apply tag_rest in E1. subst X. split; [cbn; tauto|reflexivity].
Qed.

(** ** A scope *)

Lemma elem_down d D (small : parser (list scope_content)) i r a :
  1 <= d -> small = scope_contents d ->
  (2 <= d -> forall i r l, scope_contents D i = ROk r l -> brace (dsp r) -> Forall (fun x => sdepth x + 2 <= d) l -> small i = ROk r l) ->
  scope_elem D i = ROk r a -> sdepth a + 1 <= d -> scope_elem d i = ROk r a.
Proof.
  intros Hd Es H F Hf. unfold scope_elem in *. cbn [alt] in *.
  destruct (dangling_block i) as [r0 a0| | |]; auto; try discriminate.
  destruct (block D i) as [r1 a1| | |] eqn:E1; try discriminate.
  { injection F as <- <-. now rewrite (block_down d D _ _ _ Hd E1). }
  destruct (at_rule_with (scope_contents D) i) as [r2 a2| | |] eqn:E2; try discriminate.
  { injection F as <- <-. destruct (at_rule_head _ _ _ _ E2) as (r' & t & Hh).
    rewrite block_err by (eapply group_at, Hh). subst small.
    rewrite (at_rule_down _ (scope_contents d) (fun x => sdepth x + 2 <= d)) with (2 := E2); auto.
    { intros i' r'' l'. apply H. destruct (at_rule_is_rule _ _ _ _ E2) as (c & l & ->). unfold sdepth in Hf. cbn [rbc_of_scope rule_depth] in Hf. lia. }
    intros c l ->. unfold sdepth in Hf. cbn [rbc_of_scope rule_depth] in Hf.
    assert (M : most (map rule_depth (map rbc_of_scope l)) <= d - 2) by lia.
    apply most_le in M. rewrite !Forall_map in M. eapply Forall_impl; [|exact M].
    unfold sdepth. cbn. lia. }
  destruct (keyframes D i) as [r3 a3| | |] eqn:E3; try discriminate. injection F as <- <-.
  destruct (keyframes_head _ _ _ _ E3) as (r' & t & Hh). apply keyframes_at in Hh. destruct Hh as [H1 H2].
  rewrite block_err by auto. rewrite at_rule_err by auto. rewrite (keyframes_down d D _ _ _ Hd E3); auto. lia.
Qed.

Lemma scope_contents_down d : forall D i r l,
  scope_contents D i = ROk r l -> scope_stop (dsp r) -> 2 <= d -> Forall (fun x => sdepth x + 2 <= d) l ->
  scope_contents d i = ROk r l.
Proof.
  induction d as [|d IH]; intros D i r l F Hr Hd Hl; [lia|].
  destruct D as [|D]; [discriminate|]. cbn [scope_contents] in *.
  rewrite trimmed_eq in *. apply bind_ok in F. destruct F as (r1 & l1 & F & [= <- <-]). rewrite dsp_idem in Hr.
  destruct (dsp i) as [|c X]; [discriminate|]. cbn [expect_non_empty] in *.
  assert (G : many0 (scope_elem d) (c :: X) = ROk r1 l1).
  { eapply (many0_down (scope_elem D) (scope_elem d) (fun x => sdepth x + 2 <= S d) (fun X => scope_stop (dsp X))).
    - intros i' r' a' F' Hf'. eapply (elem_down d D); eauto; [lia| |lia].
      intros H2 i2 r2 l2 F2 Hr2 Hl2. eapply IH; eauto. now right.
    - intros X' HX _. rewrite <- scope_elem_dsp. now apply scope_elem_stop.
    - exact F.
    - exact Hr.
    - exact Hl. }
  unfold scope_elem in G. rewrite G. reflexivity.
Qed.

Lemma scope_again D i r l : scope (S D) i = ROk r l -> scope_elem D r = RErr /\ dsp r = r.
Proof.
  unfold scope. rewrite trimmed_eq. intros F. apply bind_ok in F. destruct F as (r1 & l1 & F & [= <- <-]).
  destruct (dsp i) as [|c X]; [discriminate|]. cbn [expect_non_empty scope_contents] in F.
  rewrite trimmed_eq in F. apply bind_ok in F. destruct F as (r2 & l2 & F & [= <- <-]).
  destruct (dsp (c :: X)) as [|c' X']; [discriminate|]. cbn [expect_non_empty] in F.
  apply many0_stop in F. rewrite !scope_elem_dsp, !dsp_idem. auto.
Qed.

(** Once a scope is read, there is nothing more. *)
Lemma scope_once D i r ls : 
  many0 (scope (S D)) i = ROk r ls ->
  (dsp i = [] /\ ls = [] /\ r = i) \/
  (exists l, scope (S D) i = ROk [] l /\ ls = [l] /\ r = [] /\ i <> []).
Proof.
  unfold many0. cbn [many0_fuel]. destruct (scope (S D) i) as [r1 l| | |] eqn:E; try discriminate.
  - destruct (_ =? _) eqn:En; [discriminate|]. intros F. apply bind_ok in F. destruct F as (r2 & l2 & F & [= <- <-]).
    destruct (scope_again _ _ _ _ E) as [Hs Hd].
    destruct r1 as [|c X].
    + right. exists l. assert (i <> []) by (intros ->; discriminate).
      destruct i as [|ci i]; [easy|]. cbn in F. injection F as <- <-. auto.
    + exfalso. destruct (List.length i) as [|n]; [discriminate|]. cbn [many0_fuel] in F.
      assert (G : scope (S D) (c :: X) = ROk (c :: X) []).
      { unfold scope. rewrite trimmed_eq, Hd. cbn [expect_non_empty scope_contents].
        rewrite trimmed_eq, Hd. cbn [expect_non_empty].
        change (alt _) with (scope_elem D). rewrite many0_stop_at by auto. cbn [bind]. now rewrite !Hd. }
      rewrite G, Nat.eqb_refl in F. discriminate.
  - intros [= <- <-]. left. repeat split; auto. revert E. unfold scope. rewrite trimmed_eq.
    destruct (dsp i) as [|c X] eqn:Ei; auto. cbn [expect_non_empty scope_contents]. rewrite trimmed_eq.
    rewrite <- Ei, dsp_idem, Ei. cbn [expect_non_empty].
    intros E. exfalso. destruct (many0 _ (c :: X)) as [r l| | |] eqn:Em; try discriminate.
    revert Em. apply many0_no_err, (consumes_scope_elem D).
Qed.

Lemma sheet_down d D i r s :
  sheet_p (S D) i = ROk r s -> sheet_nesting s + 2 <= d -> sheet_p d i = ROk r s.
Proof.
  intros F Hs. unfold sheet_p in *. rewrite trimmed_eq in *. unfold map_p in *.
  destruct (many0 (scope (S D)) (dsp i)) as [r1 ls| | |] eqn:E; try discriminate. cbn [bind] in F.
  injection F as <- <-. apply scope_once in E. destruct E as [(Hi & -> & ->)|(l & E & -> & -> & Hi)].
  - rewrite dsp_idem in Hi. rewrite Hi. reflexivity.
  - cbn [List.concat] in Hs. rewrite app_nil_r in Hs. unfold scope in E. rewrite trimmed_eq, dsp_idem in E.
    apply bind_ok in E. destruct E as (r2 & l2 & E & [= Hr <-]).
    destruct (dsp i) as [|c X] eqn:Ei; [easy|]. cbn [expect_non_empty] in E.
    assert (G : scope d (c :: X) = ROk [] l2).
    { unfold scope. rewrite trimmed_eq, <- Ei, dsp_idem, Ei. cbn [expect_non_empty].
      rewrite (scope_contents_down d _ _ _ _ E); [|rewrite Hr; now left|lia|].
      - cbn [bind]. now rewrite Hr.
      - unfold sheet_nesting in Hs. assert (M : most (map rule_depth (map rbc_of_scope l2)) <= d - 2) by lia.
        apply most_le in M. rewrite !Forall_map in M. eapply Forall_impl; [|exact M].
        unfold sdepth. cbn. lia. }
    rewrite (many0_step _ _ _ _ (shrinks_scope d) G) by (cbn; lia).
    rewrite many0_stop_at by reflexivity. reflexivity.
Qed.

Lemma within_nesting d css s :
  parse css = Parsed s -> sheet_nesting s + 2 <= d -> parse_within d css = Parsed s.
Proof.
  unfold parse, parse_within. destruct (sheet_p _ css) as [r s'| | |] eqn:E; try discriminate.
  intros [= <-] H. now rewrite (sheet_down d _ _ _ _ E).
Qed.

(** ** No less will do *)

Lemma many0_each {A} (p : parser A) (P : A -> Prop) :
  (forall i r a, p i = ROk r a -> P a) -> forall i r l, many0 p i = ROk r l -> Forall P l.
Proof.
  intros H i. unfold many0. generalize (S (List.length i)). intros k. revert i.
  induction k as [|k IH]; intros i r l; cbn; [discriminate|].
  destruct (p i) as [r1 a| | |] eqn:E; try discriminate.
  - destruct (_ =? _); [discriminate|]. intros F. apply bind_ok in F. destruct F as (r2 & l2 & F & [= <- <-]).
    constructor; eauto.
  - intros [= <- <-]. constructor.
Qed.

Lemma loop_each (p : parser rbc) (P : rbc -> Prop) i r l :
  (forall i r a, p i = ROk r a -> P a) -> (forall a, P (CAttr a)) ->
  contents_loop p i = ROk r l -> Forall P l /\ p r = RErr.
Proof.
  intros H Ha F. unfold contents_loop, map_p at 1 in F. apply bind_ok in F.
  destruct F as (r1 & ls & F & [= <- <-]). split.
  - assert (G : Forall (Forall P) ls).
    { eapply many0_each; [|exact F]. intros i' r' a'. cbn [alt]. unfold map_p.
      destruct (attributes false i') as [r2 b| | |]; try discriminate; cbn [bind].
      - intros [= <- <-]. apply Forall_map. apply Forall_forall. auto.
      - destruct (p i') as [r3 b| | |] eqn:E; try discriminate. cbn [bind]. intros [= <- <-].
        constructor; eauto. }
    clear - G. induction G; cbn; auto. now apply Forall_app.
  - apply many0_stop in F. cbn [alt] in F. unfold map_p in F.
    destruct (attributes false r1); try discriminate. cbn [bind] in F.
    destruct (p r1); try discriminate. reflexivity.
Qed.

Lemma rule_each cond (p : parser rbc) (P : rbc -> Prop) i r a :
  (forall i r a, p i = ROk r a -> P a) -> (forall a, P (CAttr a)) ->
  rule_block_with cond p i = ROk r a -> exists c l x, a = CRule c l /\ Forall P l /\ p x = RErr.
Proof.
  intros H Ha F. unfold rule_block_with in F. rewrite trimmed_eq in F.
  destruct (dsp i) as [|c0 X0]; [discriminate|]. cbn [expect_non_empty] in F.
  set (X := c0 :: X0) in *. unfold map_p, separated_pair, pair_p, preceded, terminated, rule_block_contents in F.
  destruct (cond X) as [r1 cd| | |]; try discriminate. cbn [bind] in F.
  destruct (tag (lit "{") r1) as [r2 x| | |]; try discriminate. cbn [bind] in F.
  destruct r2 as [|c2 r2]; [discriminate|]. cbn [expect_non_empty] in F.
  destruct (contents_loop p (c2 :: r2)) as [r3 l| | |] eqn:El; try discriminate. cbn [bind] in F.
  destruct (tag (lit "}") r3) as [r4 y| | |] eqn:Et; try discriminate. cbn [bind fst snd] in F.
  injection F as <- <-. destruct (loop_each p P _ _ _ H Ha El). eauto 10.
Qed.

Lemma most_each {A} (f : A -> nat) l n : Forall (fun x => f x <= n) l -> most (map f l) <= n.
Proof. intros H. apply most_le. now apply Forall_map. Qed.

Lemma other_needs d : forall i r a, rule_block_other d i = ROk r a -> rule_depth a <= d - 1.
Proof.
  induction d as [|d IH]; intros i r a F; [discriminate|]. cbn [rule_block_other] in F.
  apply (rule_each _ _ (fun x => rule_depth x <= d - 1)) in F; auto; [|cbn; lia].
  destruct F as (c & l & x & -> & Hl & Hx). cbn [rule_depth]. apply most_each in Hl.
  destruct d; [discriminate|]. lia.
Qed.
Lemma frame_needs d i r a : rule_block_frame d i = ROk r a -> rule_depth a <= d.
Proof.
  intros F. apply (rule_each _ _ (fun x => rule_depth x <= d - 1)) in F; [|apply other_needs|cbn; lia].
  destruct F as (c & l & x & -> & Hl & Hx). cbn [rule_depth]. apply most_each in Hl.
  destruct d; [discriminate|]. lia.
Qed.
Lemma block_needs d i r a : block d i = ROk r a -> sdepth a <= d - 1.
Proof.
  intros F. unfold block in F. rewrite trimmed_eq in F. apply bind_ok in F. destruct F as (r1 & a1 & F & [= _ <-]).
  destruct (dsp i) as [|c0 X0]; [discriminate|]. cbn [expect_non_empty] in F.
  apply bind_ok in F. destruct F as (r2 & [c l] & F & [= _ <-]).
  apply bind_ok in F. destruct F as (r3 & c' & _ & F). apply bind_ok in F. destruct F as (r4 & l' & F & [= _ <- <-]).
  apply bind_ok in F. destruct F as (r5 & x & _ & F). apply bind_ok in F. destruct F as (r6 & l1 & F & E).
  apply bind_ok in E. destruct E as (r7 & y & _ & [= _ <-]).
  unfold block_contents in F. rewrite !trimmed_eq in F. apply bind_ok in F. destruct F as (r8 & l2 & F & [= _ <-]).
  apply bind_ok in F. destruct F as (r9 & l3 & F & [= _ <-]).
  destruct (dsp (dsp r5)) as [|c2 X2]; [discriminate|]. cbn [expect_non_empty] in F.
  apply (loop_each _ (fun x => rule_depth x <= d - 1)) in F; [|apply other_needs|cbn; lia].
  unfold sdepth. cbn [rbc_of_scope rule_depth fst snd]. apply most_each, F.
Qed.
Lemma keyframes_needs d i r a : keyframes d i = ROk r a -> sdepth a <= S d.
Proof.
  intros F. unfold keyframes in F. rewrite trimmed_eq in F. apply bind_ok in F. destruct F as (r1 & a1 & F & [= _ <-]).
  apply bind_ok in F. destruct F as (r2 & [c l] & F & [= _ <-]).
  apply bind_ok in F. destruct F as (r3 & c' & _ & F). apply bind_ok in F. destruct F as (r4 & l' & F & [= _ <- <-]).
  apply bind_ok in F. destruct F as (r5 & x & _ & F). apply bind_ok in F. destruct F as (r6 & l1 & F & E).
  apply bind_ok in E. destruct E as (r7 & y & _ & [= _ <-]).
  apply (many0_each _ (fun x => rule_depth x <= d)) in F; [|apply frame_needs].
  unfold sdepth. cbn [rbc_of_scope rule_depth fst snd]. apply most_each in F. lia.
Qed.
Lemma at_rule_needs n (p : parser (list scope_content)) i r a :
  (forall i r l, p i = ROk r l -> Forall (fun x => sdepth x <= n) l) ->
  at_rule_with p i = ROk r a -> sdepth a <= S n.
Proof.
  intros H F. unfold at_rule_with in F. rewrite trimmed_eq in F. apply bind_ok in F. destruct F as (r1 & a1 & F & [= _ <-]).
  destruct (dsp i) as [|c0 X0]; [discriminate|]. cbn [expect_non_empty] in F.
  apply bind_ok in F. destruct F as (r2 & [c l] & F & [= _ <-]).
  apply bind_ok in F. destruct F as (r3 & c' & _ & F). apply bind_ok in F. destruct F as (r4 & l' & F & [= _ <- <-]).
  apply bind_ok in F. destruct F as (r5 & x & _ & F). apply bind_ok in F. destruct F as (r6 & l1 & F & E).
  apply bind_ok in E. destruct E as (r7 & y & _ & [= _ <-]).
  apply H in F. unfold sdepth. cbn [rbc_of_scope rule_depth fst snd]. rewrite map_map.
  apply most_each in F. unfold sdepth in F. lia.
Qed.
Lemma dangling_needs i r a : dangling_block i = ROk r a -> sdepth a = 0.
Proof.
  intros F. unfold dangling_block in F. rewrite trimmed_eq in F. apply bind_ok in F. destruct F as (r1 & a1 & F & [= _ <-]).
  destruct (dsp i) as [|c0 X0]; [discriminate|]. cbn [expect_non_empty] in F.
  apply bind_ok in F. destruct F as (r2 & l & F & [= _ <-]). unfold sdepth. cbn [rbc_of_scope rule_depth].
  clear. induction l as [|x l IH]; cbn; auto.
Qed.

Lemma scope_needs d : forall i r l, scope_contents d i = ROk r l -> Forall (fun x => sdepth x <= d) l.
Proof.
  induction d as [|d IH]; intros i r l F; [discriminate|]. cbn [scope_contents] in F.
  rewrite trimmed_eq in F. apply bind_ok in F. destruct F as (r1 & l1 & F & [= _ <-]).
  destruct (dsp i) as [|c0 X0]; [discriminate|]. cbn [expect_non_empty] in F.
  eapply many0_each; [|exact F]. clear - IH. intros i r a. cbn [alt].
  destruct (dangling_block i) eqn:E0; try discriminate; [intros [= <- <-]; apply dangling_needs in E0; lia|].
  destruct (block d i) eqn:E1; try discriminate; [intros [= <- <-]; apply block_needs in E1; lia|].
  destruct (at_rule_with (scope_contents d) i) eqn:E2; try discriminate.
  - intros [= <- <-]. eapply at_rule_needs; eauto.
  - destruct (keyframes d i) eqn:E3; try discriminate. intros [= <- <-]. now apply keyframes_needs in E3.
Qed.

Lemma within_needs d css s : parse_within d css = Parsed s -> sheet_nesting s <= d.
Proof.
  unfold parse_within. destruct (sheet_p d css) as [r s'| | |] eqn:F; try discriminate. intros [= <-].
  unfold sheet_p in F. rewrite trimmed_eq in F. apply bind_ok in F. destruct F as (r1 & a1 & F & [= _ <-]).
  apply bind_ok in F. destruct F as (r2 & ls & F & [= _ <-]).
  assert (G : Forall (Forall (fun x => sdepth x <= d)) ls).
  { eapply many0_each; [|exact F]. intros i' r' l' E. unfold scope in E. rewrite trimmed_eq in E.
    apply bind_ok in E. destruct E as (r3 & l3 & E & [= _ <-]).
    destruct (dsp i') as [|c X]; [discriminate|]. eapply scope_needs, E. }
  unfold sheet_nesting. rewrite map_map. apply (most_each (fun x => rule_depth (rbc_of_scope x))).
  fold sdepth. clear - G. induction G; cbn; auto. now apply Forall_app.
Qed.
