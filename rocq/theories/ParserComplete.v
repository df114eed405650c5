(** * ParserComplete: every text of the grammar is parsed to what it writes (C11). *)

From Coq Require Import String Ascii List NArith Bool Arith Lia.
From Verif Require Import Str StrFacts Ast Nom CssParser SpecSays NomFacts ParserSound ParserTotal SpecGrammar ParserLex ParserTokens ParserSel ParserGrammar.
Import ListNotations.
Local Open Scope list_scope.

Ltac splits := repeat match goal with |- _ /\ _ => split end.

Definition brace (X : str) : Prop := exists X', X = ch "}" :: X'.

Lemma brace_solid X : brace X -> solid X.
Proof. intros [X' ->]. split; [cbn; intuition discriminate|]. intros E; discriminate. Qed.
Lemma brace_dsp X : brace X -> dsp X = X.
Proof. intros H. apply dsp_solid, brace_solid, H. Qed.
Lemma brace_no_decl X : brace X -> no_decl (dsp X).
Proof. intros H. rewrite brace_dsp by auto. destruct H as [X' ->]. cbn. tauto. Qed.

Lemma group_at n : In n group_names -> at_name n.
Proof. cbn. intros [<-|[<-|[<-|[]]]]; eexists; reflexivity. Qed.

Lemma at_dsp names t cond Y :
  (forall n, In n names -> at_name n) -> writes_at names t cond ->
  exists Z, dsp (t ++ Y) = ch "@" :: Z.
Proof.
  intros Hn (w & n & v & c & v' & -> & Hw & Hin & _). rewrite <- !app_assoc.
  destruct (Hn n Hin) as [r Er]. rewrite dsp_ws_solid; auto.
  - rewrite Er. cbn [app]. eauto.
  - apply at_solid. now exists r.
Qed.

Lemma at_no_decl t cond Y : writes_at group_names t cond -> no_decl (dsp (t ++ Y)).
Proof.
  intros H. destruct (at_dsp _ _ _ Y group_at H) as [Z ->]. cbn. tauto.
Qed.

Definition starts_attr (c : list rbc) : Prop := match c with CAttr _ :: _ => True | _ => False end.

Lemma content_no_decl t c X : writes_content t c -> ~ starts_attr c -> brace X -> no_decl (dsp (t ++ X)).
Proof.
  intros H Hs HX. destruct H; cbn in Hs; try tauto.
  - cbn [app]. now apply brace_no_decl.
  - rewrite <- app_assoc. eapply at_no_decl; eauto.
Qed.

Lemma semi_solid X : solid (ch ";" :: X).
Proof. split; [cbn; intuition discriminate|]. intros E; discriminate. Qed.
Lemma semi_stop X : stop_char (ch ";" :: X).
Proof. cbn. tauto. Qed.

Lemma attribute_blank w i : blank w -> attribute (w ++ i) = attribute i.
Proof. apply trimmed_blank. Qed.

(** A maximal group of declarations at the start of a content. *)
Lemma decl_group t c : writes_content t c -> starts_attr c -> forall X, brace X ->
  exists a l c' t' R R', c = CAttr a :: map CAttr l ++ c' /\ writes_content t' c' /\ ~ starts_attr c'
    /\ List.length t' < List.length t
    /\ attribute (t ++ X) = ROk R a
    /\ (forall n, List.length R < n -> sep_fuel n (tag (lit ";")) attribute R = ROk R' l)
    /\ ((R' = X /\ t' = []) \/ exists w, R' = lit ";" ++ w ++ t' ++ X /\ blank w).
Proof.
  induction 1 as [|t a Ha|t a w t' c Ha Hw Ht' IH|]; intros Hs X HX; cbn in Hs; try tauto.
  - exists a, [], [], [], X, X.
    split; [reflexivity|]. split; [constructor|]. split; [intros []|]. split.
    { apply decl_nonempty in Ha. destruct t; cbn; [easy|lia]. }
    split.
    { apply attribute_ok; auto. destruct HX as [X' ->]. cbn. tauto. }
    split; [|left; auto].
    intros n Hn. destruct n as [|n]; [lia|]. cbn [sep_fuel]. destruct HX as [X' ->].
    now rewrite (tag_err (ch ";") []) by discriminate.
  - assert (E1 : attribute ((t ++ lit ";" ++ w ++ t') ++ X) = ROk (lit ";" ++ w ++ t' ++ X) a).
    { rewrite <- !app_assoc. apply attribute_ok; auto. apply semi_stop. }
    assert (Hd : starts_attr c \/ ~ starts_attr c) by (destruct c as [|[] c]; cbn; tauto).
    destruct Hd as [Hd|Hd].
    + destruct (IH Hd X HX) as (a2 & l & c' & t2 & R & R' & -> & Hc' & Hn & Hl & E2 & Es & Hr).
      exists a, (a2 :: l), c', t2, (lit ";" ++ w ++ t' ++ X), R'. splits; auto.
      * rewrite !app_length. cbn. lia.
      * intros n Hn'. destruct n as [|n]; [lia|]. cbn [sep_fuel]. rewrite tag_ok.
        rewrite attribute_blank, E2 by auto.
        assert (L : List.length R <= List.length (t' ++ X)) by (eapply shrinks_le; [apply shrinks_attribute|exact E2]).
        replace (_ =? _) with false.
        2:{ symmetry. apply Nat.eqb_neq. rewrite !app_length. cbn. lia. }
        rewrite Es; [reflexivity|]. rewrite !app_length in *. cbn in Hn'. lia.
    + exists a, [], c, t', (lit ";" ++ w ++ t' ++ X), (lit ";" ++ w ++ t' ++ X). splits; auto.
      * rewrite !app_length. cbn. lia.
      * intros n Hn'. destruct n as [|n]; [lia|]. cbn [sep_fuel]. rewrite tag_ok.
        rewrite attribute_blank, attribute_err by (auto; now apply content_no_decl with (c := c)).
        replace (_ =? _) with false; [reflexivity|].
        symmetry. apply Nat.eqb_neq. rewrite !app_length. cbn. lia.
      * right. eauto.
Qed.

Lemma decl_dsp t a X : writes_decl t a -> exists t', writes_decl t' a /\ dsp (t ++ X) = t' ++ X /\ t' <> [].
Proof.
  intros (w0 & k & w1 & w2 & v & w3 & -> & H0 & H1 & H2 & H3 & Hk & Htk & Hv & Htv & He & ->).
  exists ([] ++ k ++ w1 ++ lit ":" ++ w2 ++ v ++ w3). split.
  - exists [], k, w1, w2, v, w3. repeat split; auto; try constructor; try apply Htv.
  - split.
    + cbn [app]. rewrite <- !app_assoc. apply dsp_ws_solid; auto. now apply name_solid.
    + destruct Hk as (c & r & -> & _). discriminate.
Qed.

Lemma attributes_false_ok t c X : writes_content t c -> starts_attr c -> brace X ->
  exists l c' t', c = map CAttr l ++ c' /\ l <> [] /\ writes_content t' c' /\ ~ starts_attr c'
    /\ List.length t' < List.length t
    /\ attributes false (t ++ X) = ROk (dsp (t' ++ X)) l.
Proof.
  intros H Hs HX.
  destruct (decl_group t c H Hs X HX) as (a & l & c' & t' & R & R' & -> & Hc' & Hn & Hl & E1 & Es & Hr).
  exists (a :: l), c', t'. splits; auto; [discriminate|].
  unfold attributes. rewrite trimmed_eq.
  assert (E1' : attribute (dsp (t ++ X)) = ROk R a) by (unfold attribute; now rewrite trimmed_dsp).
  assert (E : separated_list1 (tag (lit ";")) attribute (dsp (t ++ X)) = ROk R' (a :: l)).
  { unfold separated_list1. rewrite E1'. cbn [bind]. now rewrite Es by lia. }
  unfold expect_non_empty. destruct (dsp (t ++ X)) as [|d D] eqn:Ed.
  { unfold attribute in E1'. rewrite trimmed_nil in E1'. discriminate. }
  assert (E2 : exists o, preceded (opt sp) (opt (tag (lit ";"))) R'
                        = ROk (match R' with c :: _ => if char_eqb c (ch ";") then skipn 1 R' else R' | [] => R' end) o).
  { unfold preceded, opt. destruct (sp_dsp R') as (w & -> & _). cbn [bind].
      destruct Hr as [[-> ->]|(w' & -> & Hw')].
      - rewrite brace_dsp by auto. destruct HX as [X' ->].
        rewrite (tag_err (ch ";") []) by discriminate. eexists. reflexivity.
      - rewrite dsp_solid by apply semi_solid. rewrite tag_ok. eexists. reflexivity. }
  destruct E2 as [o E2]. erewrite terminated_ok; [|exact E|exact E2]. cbn [bind]. f_equal.
  destruct Hr as [[-> ->]|(w' & -> & Hw')].
  - destruct HX as [X' ->]. reflexivity.
  - cbn [app lit list_ascii_of_string map]. cbn [skipn]. change (char_eqb _ _) with true. cbv iota.
    now rewrite dsp_blank.
Qed.

(** ** Contents of blocks *)

Lemma many0_inv {A} (p : parser A) i r a l : many0 p i = ROk r (a :: l) -> exists r', p i = ROk r' a.
Proof.
  unfold many0. cbn [many0_fuel]. destruct (p i) as [r' a'| | |]; try discriminate.
  destruct (_ =? _); [discriminate|]. intros E. apply bind_ok in E.
  destruct E as (r2 & l2 & _ & [= _ <- _]). eauto.
Qed.

Lemma many0_dsp {A} (p : parser A) i r a l :
  shrinks p -> consumes p -> (forall i, p (dsp i) = p i) ->
  many0 p (dsp i) = ROk r (a :: l) -> many0 p i = ROk r (a :: l).
Proof.
  intros S C Hd E. destruct (many0_inv _ _ _ _ _ E) as [r' E1].
  assert (E2 := E1). rewrite Hd in E2.
  rewrite (many0_step p _ _ _ S E1) in E by (eapply C; eauto).
  rewrite (many0_step p _ _ _ S E2) by (eapply C; eauto). exact E.
Qed.

Definition item (d : nat) : parser (list rbc) :=
  alt [map_p (map CAttr) (attributes false); map_p (fun m => [m]) (rule_block_other d)].

Lemma alt_dsp {A} (ps : list (parser A)) :
  Forall (fun p : parser A => forall i, p (dsp i) = p i) ps -> forall i, alt ps (dsp i) = alt ps i.
Proof. induction 1 as [|p ps Hp _ IH]; intros i; cbn [alt]; auto. now rewrite Hp, IH. Qed.

Lemma item_dsp d i : item (S d) (dsp i) = item (S d) i.
Proof.
  apply alt_dsp. each; intros j; apply map_dsp; apply trimmed_dsp.
Qed.
Lemma shrinks_item d : shrinks (item d).
Proof.
  apply shrinks_alt. each; apply shrinks_map; [apply shrinks_attributes|apply shrinks_rule_block_other].
Qed.
Lemma consumes_rule_block_with cond rule :
  shrinks cond -> shrinks rule -> consumes (rule_block_with cond rule).
Proof.
  intros H1 H2. apply consumes_trimmed, consumes_non_empty, consumes_map.
  apply (consumes_shrinks_braced _ _ (ch "{")); auto.
  apply shrinks_terminated; [|apply shrinks_tag]. apply shrinks_non_empty. now apply shrinks_contents_loop.
Qed.
Lemma consumes_item d : consumes (item (S d)).
Proof.
  apply consumes_alt. each; apply consumes_map; [apply consumes_attributes|].
  apply consumes_rule_block_with; [apply shrinks_other_condition|apply shrinks_rule_block_other].
Qed.

Lemma item_brace d X : brace X -> item (S d) X = RErr.
Proof.
  intros H. unfold item. rewrite alt_err_cons, alt_err_cons; [reflexivity| |].
  - apply map_err. cbn [rule_block_other]. apply trimmed_err, non_empty_err, map_err, pair_err.
    apply at_condition_err. rewrite !brace_dsp by (rewrite ?brace_dsp; auto). destruct H as [X' ->]. reflexivity.
  - apply map_err, attributes_err. now apply brace_no_decl.
Qed.

(** One rule with braces. *)
Lemma rule_with_ok cond rule i cd body c Y :
  shrinks cond ->
  cond (dsp i) = ROk (lit "{" ++ body ++ lit "}" ++ Y) cd ->
  contents_loop rule (body ++ lit "}" ++ Y) = ROk (lit "}" ++ Y) c ->
  rule_block_with cond rule i = ROk (dsp Y) (CRule cd c).
Proof.
  intros S E1 E2. unfold rule_block_with. rewrite trimmed_eq. unfold expect_non_empty at 1.
  destruct (dsp i) as [|x D] eqn:Ed.
  - exfalso. apply shrinks_le in E1; auto. cbn in E1. lia.
  - erewrite map_ok.
    2:{ eapply pair_ok; [exact E1|]. erewrite preceded_ok by apply tag_ok.
        eapply terminated_ok.
        - unfold rule_block_contents. unfold expect_non_empty.
          destruct (body ++ lit "}" ++ Y) eqn:Eb; [destruct body; discriminate|]. rewrite <- Eb in *. exact E2.
        - apply tag_ok. }
    reflexivity.
Qed.

Lemma other_tags n : In n group_names ->
  tags_take [tag (lit "@container"); tag (lit "@media"); tag (lit "@supports")] n.
Proof.
  intros H i. cbn in H. destruct H as [<-|[<-|[<-|[]]]]; reflexivity.
Qed.

Lemma at_cond_ok tags names t cond X' :
  (forall n, In n names -> at_name n) -> (forall n, In n names -> tags_take tags n) ->
  writes_at names t cond ->
  at_rule_condition tags (t ++ ch "{" :: X') = ROk (ch "{" :: X') cond.
Proof.
  intros Hn Ht (w & n & v & c & v' & -> & Hw & Hin & Hv & Hv' & Hc & Htc & ->).
  rewrite <- !app_assoc. apply at_condition_ok; auto.
Qed.

Lemma at_cond_dsp tags i : at_rule_condition tags (dsp i) = at_rule_condition tags i.
Proof. apply trimmed_dsp. Qed.

Lemma content_many n : forall t c, List.length t < n -> writes_content t c ->
  forall d X, List.length t < d -> brace X ->
  exists gs, many0 (item d) (dsp (t ++ X)) = ROk X gs /\ List.concat gs = c
    /\ contents_loop (rule_block_other d) (t ++ X) = ROk X c.
Proof.
  induction n as [|n IH]; [intros; lia|]. intros t c Hn Hc d X Hd HX.
  destruct d as [|d]; [lia|].
  assert (Fin : forall gs, many0 (item (S d)) (dsp (t ++ X)) = ROk X gs -> List.concat gs = c ->
    (gs = [] -> t = []) ->
    exists gs, many0 (item (S d)) (dsp (t ++ X)) = ROk X gs /\ List.concat gs = c
    /\ contents_loop (rule_block_other (S d)) (t ++ X) = ROk X c).
  { intros gs E1 E2 E3. exists gs. splits; auto. unfold contents_loop. change (alt _) with (item (S d)).
    erewrite map_ok; [rewrite E2; reflexivity|]. destruct gs as [|g gs].
    - rewrite (E3 eq_refl) in *. cbn [app] in *. now rewrite brace_dsp in E1.
    - apply many0_dsp; auto using shrinks_item, consumes_item, item_dsp. }
  assert (Hs : starts_attr c \/ ~ starts_attr c) by (destruct c as [|[] c]; cbn; tauto).
  destruct Hs as [Hs|Hs].
  - destruct (attributes_false_ok t c X Hc Hs HX) as (l & c' & t' & -> & Hl & Hc' & Hs' & Hlen & E).
    destruct (IH t' c') with (d := S d) (X := X) as (gs & E1 & E2 & _); auto; try lia.
    apply (Fin (map CAttr l :: gs)).
    + rewrite (many0_step _ _ (dsp (t' ++ X)) (map CAttr l) (shrinks_item _)).
      * rewrite E1. reflexivity.
      * rewrite item_dsp. unfold item. apply alt_ok_cons. now apply map_ok.
      * apply (consumes_item d _ _ (map CAttr l)). rewrite item_dsp. unfold item. apply alt_ok_cons.
        apply map_ok. exact E.
    + cbn. now rewrite E2.
    + discriminate.
  - destruct Hc as [|t a Ha|t a w t' c Ha Hw Ht'|t cond body content w' t' c Hat Hb Hw' Ht']; cbn in Hs; try tauto.
    + apply (Fin []); auto. cbn [app]. rewrite brace_dsp by auto. apply many0_stop_at, item_brace, HX.
    + set (Y := w' ++ t' ++ X).
      assert (Eq : (t ++ lit "{" ++ body ++ lit "}" ++ w' ++ t') ++ X = t ++ lit "{" ++ body ++ lit "}" ++ Y)
        by (unfold Y; now rewrite <- !app_assoc).
      rewrite !app_length in Hn, Hd. cbn [List.length lit list_ascii_of_string map] in Hn, Hd.
      assert (EI : item (S d) ((t ++ lit "{" ++ body ++ lit "}" ++ w' ++ t') ++ X)
                   = ROk (dsp (t' ++ X)) [CRule cond content]).
      { rewrite Eq. unfold item. rewrite alt_err_cons.
        2:{ apply map_err, attributes_err. eapply at_no_decl; eauto. }
        apply alt_ok_cons. eapply map_ok with (f := fun m => [m]). cbn [rule_block_other].
        replace (dsp (t' ++ X)) with (dsp Y) by (unfold Y; now apply dsp_blank).
        eapply rule_with_ok with (body := body); [apply shrinks_other_condition| |].
        - unfold other_condition. rewrite at_cond_dsp. eapply at_cond_ok; eauto using group_at, other_tags.
        - destruct (IH body content) with (d := d) (X := lit "}" ++ Y) as (_ & _ & _ & E); auto; try lia.
          now exists Y. }
      destruct (IH t' c) with (d := S d) (X := X) as (gs & E1 & E2 & _); auto; try lia.
      apply (Fin ([CRule cond content] :: gs)).
      * rewrite (many0_step _ _ (dsp (t' ++ X)) [CRule cond content] (shrinks_item _)).
        -- rewrite E1. reflexivity.
        -- now rewrite item_dsp.
        -- apply (consumes_item d _ _ [CRule cond content]). rewrite item_dsp. exact EI.
      * cbn. now rewrite E2.
      * discriminate.
Qed.

(** ** Declarations outside braces *)

Lemma dangling_group t l X : writes_dangling t l -> attribute X = RErr ->
  exists a l' R w, l = a :: l' /\ attribute (t ++ X) = ROk R a /\ blank w
    /\ (forall n, List.length R < n -> sep_fuel n (tag (lit ";")) attribute R = ROk (lit ";" ++ w ++ X) l').
Proof.
  intros H HX. induction H as [t a w Ha Hw|t a w t' l Ha Hw Ht' IH].
  - exists a, [], (lit ";" ++ w ++ X), w. splits; auto.
    + rewrite <- !app_assoc. apply attribute_ok; auto. apply semi_stop.
    + intros n Hn. destruct n as [|n]; [lia|]. cbn [sep_fuel]. rewrite tag_ok.
      rewrite attribute_blank, HX by auto.
      replace (_ =? _) with false; [reflexivity|].
      symmetry. apply Nat.eqb_neq. rewrite !app_length. cbn. lia.
  - destruct IH as (a2 & l2 & R & w2 & -> & E2 & Hw2 & Es).
    exists a, (a2 :: l2), (lit ";" ++ w ++ t' ++ X), w2. splits; auto.
    + rewrite <- !app_assoc. apply attribute_ok; auto. apply semi_stop.
    + intros n Hn. destruct n as [|n]; [lia|]. cbn [sep_fuel]. rewrite tag_ok.
      rewrite attribute_blank, E2 by auto.
      assert (L : List.length R <= List.length (t' ++ X)) by (eapply shrinks_le; [apply shrinks_attribute|exact E2]).
      replace (_ =? _) with false.
      2:{ symmetry. apply Nat.eqb_neq. rewrite !app_length. cbn. lia. }
      rewrite Es; [reflexivity|]. rewrite !app_length in *. cbn in Hn. lia.
Qed.

Lemma attributes_true_ok t l X : writes_dangling t l -> attribute X = RErr ->
  attributes true (t ++ X) = ROk (dsp X) l.
Proof.
  intros H HX. destruct (dangling_group t l X H HX) as (a & l' & R & w & -> & E1 & Hw & Es).
  unfold attributes. rewrite trimmed_eq.
  assert (E1' : attribute (dsp (t ++ X)) = ROk R a) by (unfold attribute; now rewrite trimmed_dsp).
  assert (E : separated_list1 (tag (lit ";")) attribute (dsp (t ++ X)) = ROk (lit ";" ++ w ++ X) (a :: l')).
  { unfold separated_list1. rewrite E1'. cbn [bind]. now rewrite Es by lia. }
  unfold expect_non_empty. destruct (dsp (t ++ X)) as [|d D] eqn:Ed.
  { unfold attribute in E1'. rewrite trimmed_nil in E1'. discriminate. }
  erewrite terminated_ok; [|exact E|].
  2:{ unfold preceded, opt. destruct (sp_dsp (lit ";" ++ w ++ X)) as (w2 & -> & _). cbn [bind].
      rewrite dsp_solid by apply semi_solid. apply map_ok, tag_ok. }
  cbn [bind]. now rewrite dsp_blank.
Qed.

(** ** Frames *)

Lemma frame_ok d t r Z : writes_frame t r -> List.length t < d ->
  rule_block_frame d (t ++ Z) = ROk (dsp Z) r.
Proof.
  intros (w & ct & l & v & body & content & w' & -> & Hw & Hsl & Htc & Hh & Hv & Hb & Hw' & ->) Hd.
  unfold rule_block_frame. rewrite <- !app_assoc.
  replace (dsp Z) with (dsp (w' ++ Z)) by now apply dsp_blank.
  eapply rule_with_ok with (body := body); [apply shrinks_frame_condition| |].
  - rewrite dsp_ws_solid; auto.
    + eapply frame_condition_ok; eauto.
    + destruct ct as [|c ct]; [now destruct Htc|]. split.
      * apply (tight_head _ Htc).
      * intros ->. now elim Hh.
  - rewrite !app_length in Hd. cbn [List.length lit list_ascii_of_string map] in Hd.
    destruct (content_many (S (List.length body)) body content) with (d := d) (X := lit "}" ++ w' ++ Z)
      as (_ & _ & _ & E); auto; try lia. now exists (w' ++ Z).
Qed.

Lemma frame_brace d X : brace X -> rule_block_frame d X = RErr.
Proof.
  intros H. unfold rule_block_frame, rule_block_with. apply trimmed_err, non_empty_err, map_err, pair_err.
  unfold frame_condition. apply map_err, recognize_err, condition_err.
  rewrite !brace_dsp by (rewrite ?brace_dsp; auto). destruct H as [X' ->]. cbn. tauto.
Qed.

Lemma shrinks_frame d : shrinks (rule_block_frame d).
Proof.
  apply shrinks_trimmed, shrinks_non_empty, shrinks_map. apply shrinks_separated_pair.
  - apply shrinks_frame_condition.
  - apply shrinks_tag.
  - apply shrinks_terminated; [|apply shrinks_tag]. apply shrinks_non_empty, shrinks_contents_loop, shrinks_rule_block_other.
Qed.
Lemma consumes_frame d : consumes (rule_block_frame d).
Proof. apply consumes_rule_block_with; [apply shrinks_frame_condition|apply shrinks_rule_block_other]. Qed.

Lemma frames_many d t l X : star writes_frame t l -> List.length t < d -> brace X ->
  many0 (rule_block_frame d) (t ++ X) = ROk X l.
Proof.
  intros H Hd HX.
  assert (G : many0 (rule_block_frame d) (dsp (t ++ X)) = ROk X l).
  { induction H as [|t r t' l Hr Ht' IH].
    - cbn [app]. rewrite brace_dsp by auto. apply many0_stop_at. now apply frame_brace.
    - rewrite app_length in Hd.
      assert (E : rule_block_frame d (dsp ((t ++ t') ++ X)) = ROk (dsp (t' ++ X)) r).
      { unfold rule_block_frame, rule_block_with. rewrite trimmed_dsp, <- app_assoc.
        apply frame_ok; auto. lia. }
      rewrite (many0_step _ _ _ _ (shrinks_frame d) E) by (eapply consumes_frame, E).
      rewrite IH by lia. reflexivity. }
  destruct H as [|t r t' l Hr Ht'].
  - cbn [app] in *. now rewrite brace_dsp in G.
  - apply many0_dsp; auto using shrinks_frame, consumes_frame. intros i. apply trimmed_dsp.
Qed.

Lemma tag_open Y : tag (lit "{") (ch "{" :: Y) = ROk Y (lit "{").
Proof. apply (tag_ok (lit "{")). Qed.

(** ** The pieces of a scope *)

Definition scope_stop (X : str) : Prop := X = [] \/ brace X.

Lemma scope_stop_dsp X : scope_stop X -> dsp X = X.
Proof. intros [->|H]; [apply dsp_solid; exact I|now apply brace_dsp]. Qed.
Lemma scope_stop_no_decl X : scope_stop X -> no_decl (dsp X).
Proof.
  intros H. rewrite scope_stop_dsp by auto. destruct H as [->|[X' ->]]; [exact I|]. cbn. tauto.
Qed.

Lemma dangling_err X : attributes true X = RErr -> dangling_block X = RErr.
Proof.
  intros H. apply trimmed_err, non_empty_err, map_err. unfold attributes. now rewrite trimmed_dsp.
Qed.

Lemma block_err d X : no_sel (dsp X) -> block d X = RErr.
Proof.
  intros H. apply trimmed_err, non_empty_err, map_err, pair_err, condition_err. now rewrite dsp_idem.
Qed.

Lemma at_rule_err contents X :
  alt [tag (lit "@container"); tag (lit "@supports"); tag (lit "@media")] (dsp X) = RErr ->
  at_rule_with contents X = RErr.
Proof.
  intros H. apply trimmed_err, non_empty_err, map_err, pair_err, at_condition_err. now rewrite dsp_idem.
Qed.
Lemma keyframes_err d X :
  alt [tag (lit "@keyframes"); fail_p] (dsp X) = RErr -> keyframes d X = RErr.
Proof.
  intros H. apply trimmed_err, map_err, pair_err, at_condition_err. now rewrite dsp_idem.
Qed.

Lemma scope_elem_stop d X : scope_stop X -> scope_elem d X = RErr.
Proof.
  intros H. unfold scope_elem. rewrite !alt_err_cons; [reflexivity| | | |].
  - apply keyframes_err. rewrite scope_stop_dsp by auto. destruct H as [->|[X' ->]]; reflexivity.
  - apply at_rule_err. rewrite scope_stop_dsp by auto. destruct H as [->|[X' ->]]; reflexivity.
  - apply block_err. rewrite scope_stop_dsp by auto. destruct H as [->|[X' ->]]; cbn; tauto.
  - apply dangling_err, attributes_err. now apply scope_stop_no_decl.
Qed.

Lemma scope_elem_dsp d i : scope_elem d (dsp i) = scope_elem d i.
Proof. apply alt_dsp. each; intros j; apply trimmed_dsp. Qed.

Lemma non_empty_ok {A} (p : parser A) i r a :
  shrinks p -> p i = ROk r a -> r <> [] -> expect_non_empty p i = ROk r a.
Proof.
  intros S E Hr. destruct i as [|c i]; [|exact E]. apply shrinks_le in E; auto.
  destruct r; [easy|cbn in E; lia].
Qed.

Lemma dangling_ok t l X : writes_dangling t l -> attribute X = RErr ->
  dangling_block (t ++ X) = ROk (dsp X) (SBlock [] (map CAttr l)).
Proof.
  intros H HX. unfold dangling_block. rewrite trimmed_eq.
  assert (E : attributes true (dsp (t ++ X)) = ROk (dsp X) l).
  { unfold attributes. rewrite trimmed_dsp. now apply attributes_true_ok. }
  unfold expect_non_empty. destruct (dsp (t ++ X)) as [|c D] eqn:Ed.
  { unfold attributes in E. rewrite trimmed_nil in E. discriminate. }
  erewrite map_ok; [|exact E]. cbn [bind]. now rewrite dsp_idem.
Qed.

Lemma block_ok d t sels w body content Y :
  writes_sels t sels -> blank w -> writes_content body content -> List.length body < d ->
  block d (t ++ lit "{" ++ w ++ body ++ lit "}" ++ Y) = ROk (dsp Y) (SBlock sels content).
Proof.
  intros Ht Hw Hb Hd. unfold block. rewrite trimmed_eq.
  destruct (sels_dsp t sels (w ++ body ++ lit "}" ++ Y) Ht) as (t' & Ht' & Ed & _).
  change (lit "{" ++ w ++ body ++ lit "}" ++ Y) with (ch "{" :: w ++ body ++ lit "}" ++ Y).
  rewrite Ed, non_empty_app by (eapply sels_nonempty; eauto).
  erewrite map_ok.
  2:{ eapply pair_ok; [now apply condition_ok with (l := sels)|].
      unfold delimited. erewrite preceded_ok by apply tag_open.
      eapply terminated_ok; [|apply tag_ok].
      rewrite trimmed_blank by auto. rewrite trimmed_eq.
      unfold block_contents. rewrite trimmed_dsp, trimmed_eq.
      destruct (content_many (S (List.length body)) body content) with (d := d) (X := lit "}" ++ Y)
        as (gs & E1 & E2 & _); auto; try lia; [now exists Y|].
      erewrite non_empty_ok.
      - cbn [bind]. rewrite (brace_dsp (lit "}" ++ Y)) by now exists Y.
        rewrite (brace_dsp (lit "}" ++ Y)) by now exists Y. reflexivity.
      - apply shrinks_contents_loop, shrinks_rule_block_other.
      - unfold contents_loop. erewrite map_ok; [|exact E1]. rewrite E2. reflexivity.
      - discriminate. }
  reflexivity.
Qed.

Lemma keyframes_tags n : In n [lit "@keyframes"] -> tags_take [tag (lit "@keyframes"); fail_p] n.
Proof. intros [<-|[]] i. reflexivity. Qed.
Lemma keyframes_at n : In n [lit "@keyframes"] -> at_name n.
Proof. intros [<-|[]]. eexists; reflexivity. Qed.

Lemma keyframes_ok d t cond body frames Y :
  writes_at [lit "@keyframes"] t cond -> star writes_frame body frames -> List.length body < d ->
  keyframes d (t ++ lit "{" ++ body ++ lit "}" ++ Y) = ROk (dsp Y) (SRule cond frames).
Proof.
  intros Ht Hf Hd. unfold keyframes. rewrite trimmed_eq.
  erewrite map_ok.
  2:{ eapply pair_ok.
      - rewrite at_cond_dsp. eapply at_cond_ok; eauto using keyframes_at, keyframes_tags.
      - erewrite preceded_ok by apply tag_open.
        eapply terminated_ok; [|apply tag_ok]. apply frames_many; eauto. now exists Y. }
  reflexivity.
Qed.

Lemma scope_tags n : In n group_names ->
  tags_take [tag (lit "@container"); tag (lit "@supports"); tag (lit "@media")] n.
Proof. intros H i. cbn in H. destruct H as [<-|[<-|[<-|[]]]]; reflexivity. Qed.

Lemma at_rule_ok contents t cond w body content Y :
  writes_at group_names t cond ->
  contents (w ++ body ++ lit "}" ++ Y) = ROk (lit "}" ++ Y) content ->
  at_rule_with contents (t ++ lit "{" ++ w ++ body ++ lit "}" ++ Y)
  = ROk (dsp Y) (SRule cond (map rbc_of_scope content)).
Proof.
  intros Ht Hc. unfold at_rule_with. rewrite trimmed_eq.
  destruct (at_dsp _ _ _ (lit "{" ++ w ++ body ++ lit "}" ++ Y) group_at Ht) as [Z EZ].
  unfold expect_non_empty. rewrite EZ, <- EZ.
  erewrite map_ok.
  2:{ eapply pair_ok.
      - rewrite at_cond_dsp. eapply at_cond_ok; eauto using group_at, scope_tags.
      - erewrite preceded_ok by apply tag_open.
        eapply terminated_ok; [exact Hc|apply tag_ok]. }
  reflexivity.
Qed.

Lemma at_group_fails_keyframes t cond Y :
  writes_at [lit "@keyframes"] t cond ->
  alt [tag (lit "@container"); tag (lit "@supports"); tag (lit "@media")] (dsp (t ++ Y)) = RErr.
Proof.
  intros (w & n & v & c & v' & -> & Hw & [<-|[]] & _). rewrite <- !app_assoc.
  rewrite dsp_ws_solid; auto. apply at_solid. eexists; reflexivity.
Qed.

Lemma scope_no_decl t c X : writes_scope true t c -> scope_stop X -> attribute (t ++ X) = RErr.
Proof.
  intros H HX. remember true as b eqn:Hb.
  destruct H as [after|t l t' c Hd H|after t sels w body content w' t' c Ht Hno Hw Hb' Hw' H
                |after t cond w body content w' t' c Ht Hw Hb' Hw' H
                |after t cond body frames w' t' c Ht Hf Hw' H].
  - apply attribute_err. now apply scope_stop_no_decl.
  - discriminate.
  - rewrite <- app_assoc. eapply attribute_block_err; eauto.
  - rewrite <- app_assoc. apply attribute_err. eapply at_no_decl; eauto.
  - rewrite <- app_assoc. apply attribute_err. destruct (at_dsp _ _ _ ((lit "{" ++ body ++ lit "}" ++ w' ++ t') ++ X) keyframes_at Ht) as [Z ->].
    cbn. tauto.
Qed.

Lemma shrinks_scope_elem d : shrinks (scope_elem d).
Proof. eapply sound_shrinks, sound_scope_elem. Qed.

Lemma scope_step d i r a c X :
  scope_elem d i = ROk (dsp r) a -> many0 (scope_elem d) (dsp r) = ROk X c ->
  many0 (scope_elem d) (dsp i) = ROk X (a :: c).
Proof.
  intros E1 E2. rewrite <- (scope_elem_dsp d i) in E1.
  rewrite (many0_step _ _ _ _ (shrinks_scope_elem d) E1) by (eapply consumes_scope_elem, E1).
  rewrite E2. reflexivity.
Qed.

Lemma scope_many n : forall after t c, List.length t < n -> writes_scope after t c ->
  forall d X, List.length t < d -> scope_stop X ->
  many0 (scope_elem d) (dsp (t ++ X)) = ROk X c.
Proof.
  induction n as [|n IH]; [intros; lia|]. intros after t c Hn H d X Hd HX.
  destruct H as [after|t l t' c Hda H|after t sels w body content w' t' c Ht Hno Hw Hb' Hw' H
                |after t cond w body content w' t' c Ht Hw Hb' Hw' H
                |after t cond body frames w' t' c Ht Hf Hw' H];
    rewrite ?app_length in Hn, Hd; cbn [List.length lit list_ascii_of_string map] in Hn, Hd.
  - cbn [app]. rewrite scope_stop_dsp by auto. apply many0_stop_at. now apply scope_elem_stop.
  - assert (Hl : 0 < List.length t).
    { destruct t; cbn; [|lia]. exfalso.
      inversion Hda as [t2 a w Ha Hw E|t2 a w t2' l2 Ha Hw Hd2 E]; destruct t2; discriminate. }
    rewrite <- app_assoc. apply scope_step with (r := t' ++ X).
    + unfold scope_elem. apply alt_ok_cons. apply dangling_ok; auto. eapply scope_no_decl; eauto.
    + eapply IH; eauto; lia.
  - rewrite <- !app_assoc. apply scope_step with (r := t' ++ X).
    + unfold scope_elem. rewrite alt_err_cons.
      2:{ apply dangling_err. apply (attributes_block_err (w ++ body ++ lit "}" ++ w' ++ t' ++ X)).
          eapply sels_seltoks; eauto. }
      apply alt_ok_cons. replace (dsp (t' ++ X)) with (dsp (w' ++ t' ++ X)) by now apply dsp_blank.
      apply block_ok; auto. lia.
    + eapply IH; eauto; lia.
  - rewrite <- !app_assoc. apply scope_step with (r := t' ++ X).
    + destruct (at_dsp _ _ _ (lit "{" ++ w ++ body ++ lit "}" ++ w' ++ t' ++ X) group_at Ht) as [Z EZ].
      unfold scope_elem. rewrite alt_err_cons, alt_err_cons.
      2:{ apply block_err. rewrite EZ. cbn. tauto. }
      2:{ apply dangling_err, attributes_err. rewrite EZ. cbn. tauto. }
      apply alt_ok_cons. replace (dsp (t' ++ X)) with (dsp (w' ++ t' ++ X)) by now apply dsp_blank.
      apply at_rule_ok; auto. destruct d as [|d]; [lia|]. cbn [scope_contents].
      rewrite trimmed_blank by auto. rewrite trimmed_eq.
      change (alt _) with (scope_elem d).
      erewrite non_empty_ok.
      * cbn [bind]. rewrite brace_dsp by (eexists; reflexivity). reflexivity.
      * apply shrinks_many0, shrinks_scope_elem.
      * eapply IH; eauto; try lia. right. eexists. reflexivity.
      * discriminate.
    + eapply IH; eauto; lia.
  - rewrite <- !app_assoc. apply scope_step with (r := t' ++ X).
    + destruct (at_dsp _ _ _ (lit "{" ++ body ++ lit "}" ++ w' ++ t' ++ X) keyframes_at Ht) as [Z EZ].
      unfold scope_elem. rewrite alt_err_cons, alt_err_cons, alt_err_cons.
      2:{ apply at_rule_err. eapply at_group_fails_keyframes; eauto. }
      2:{ apply block_err. rewrite EZ. cbn. tauto. }
      2:{ apply dangling_err, attributes_err. rewrite EZ. cbn. tauto. }
      apply alt_ok_cons. replace (dsp (t' ++ X)) with (dsp (w' ++ t' ++ X)) by now apply dsp_blank.
      apply keyframes_ok; auto. lia.
    + eapply IH; eauto; lia.
Qed.

Lemma parse_complete t s : writes_sheet t s -> parse t = Parsed s.
Proof.
  intros (w & t' & -> & Hw & H).
  assert (G : forall d, List.length t' < d -> sheet_p (S d) (w ++ t') = ROk [] s).
  { intros d Hd. unfold sheet_p. rewrite trimmed_blank by auto. rewrite trimmed_eq.
    assert (E := scope_many (S (List.length t')) false t' s (le_n _) H d [] Hd (or_introl eq_refl)).
    rewrite app_nil_r in E.
    assert (S0 : dsp ([] : str) = []) by (apply dsp_solid; exact I).
    destruct (dsp t') as [|c D] eqn:Ed.
    - assert (s = []) as -> by (rewrite many0_stop_at in E; [congruence|apply scope_elem_stop; now left]).
      reflexivity.
    - assert (E1 : scope (S d) (c :: D) = ROk [] s).
      { unfold scope. rewrite trimmed_eq, <- Ed, dsp_idem, Ed. cbn [expect_non_empty].
        cbn [scope_contents]. change (alt _) with (scope_elem d).
        rewrite trimmed_eq, <- Ed, dsp_idem, Ed. cbn [expect_non_empty]. rewrite E. cbn [bind]. now rewrite !S0. }
      erewrite map_ok.
      2:{ erewrite many0_step; [|apply shrinks_trimmed, shrinks_non_empty, shrinks_scope_contents|exact E1|cbn; lia].
          rewrite many0_stop_at; [reflexivity|]. apply trimmed_nil. }
      cbn [bind List.concat app]. now rewrite S0, app_nil_r. }
  unfold parse. rewrite G; auto. rewrite app_length. lia.
Qed.

(** Layout does not matter. *)
Lemma layout_irrelevant t1 t2 s : writes_sheet t1 s -> writes_sheet t2 s -> parse t1 = parse t2.
Proof. intros H1 H2. now rewrite (parse_complete _ _ H1), (parse_complete _ _ H2). Qed.
