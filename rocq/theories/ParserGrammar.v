(** * ParserGrammar: every text of the grammar is parsed to what it writes (C11). *)

From Coq Require Import String Ascii List NArith Bool Arith Lia.
From Verif Require Import Str StrFacts Ast Nom CssParser SpecSays NomFacts ParserSound ParserTotal SpecGrammar ParserLex ParserTokens ParserSel.
Import ListNotations.
Local Open Scope list_scope.

(** ** The start of a block is not a group of declarations *)

(** Tokens of selector lists: no semicolon outside atoms and comments. *)
Inductive seltoks : str -> Prop :=
| tk_nil : seltoks []
| tk_plain c t : ~ In c (lit "${;}/@" ++ [34%N]) -> seltoks t -> seltoks (c :: t)
| tk_slash c t : ~ In c (lit "${;}*@" ++ [34%N]) -> seltoks t -> seltoks (ch "/" :: c :: t)
| tk_atom s t : atom s -> seltoks t -> seltoks (s ++ t)
| tk_comment body t : ~ (exists a b, body = a ++ lit "*/" ++ b) -> seltoks t ->
    seltoks (lit "/*" ++ body ++ lit "*/" ++ t).

Lemma blank_seltoks w t : blank w -> seltoks t -> seltoks (w ++ t).
Proof.
  induction 1 as [|c w Hc _ IH|body w Hb _ IH]; auto; intros Ht.
  - apply tk_plain; auto. cbn in Hc |- *. destruct Hc as [<-|[<-|[<-|[<-|[]]]]]; intuition discriminate.
  - rewrite <- !app_assoc. apply tk_comment; auto.
Qed.
Lemma sel_seltoks s t : sel_text s -> seltoks t -> seltoks (s ++ t).
Proof.
  induction 1 as [|c v Hc _ IH|c v Hc _ IH|a v Ha _ IH]; auto; intros Ht.
  - apply tk_plain; auto. intros Hin. apply Hc. cbn in Hin |- *. tauto.
  - apply tk_slash; auto. intros Hin. apply Hc. cbn in Hin |- *. tauto.
  - rewrite <- app_assoc. apply tk_atom; auto.
Qed.
Lemma sels_seltoks t l : writes_sels t l -> seltoks t.
Proof.
  induction 1 as [w s v Hw Hs Ht Hv|w s v t l Hw Hs Ht Hv H IH].
  - apply blank_seltoks, sel_seltoks; auto. rewrite <- (app_nil_r v). apply blank_seltoks; [now apply ws_blank|constructor].
  - apply blank_seltoks, sel_seltoks, blank_seltoks; auto using ws_blank.
    apply tk_plain; auto. cbn. intuition discriminate.
Qed.

Lemma seltoks_tail c t : ~ In c (lit "${;}/@" ++ [34%N]) -> seltoks (c :: t) -> seltoks t.
Proof.
  intros Hc H. inversion H as [|? ? ? ?|d t' Hd Hv E|s t' Hs Hv E|body t' Hb Ht E]; subst; auto.
  { exfalso. apply Hc. cbn. tauto. }
  - apply atom_head in Hs. destruct Hs as (x & r & -> & Hx). injection E as -> _. elim Hc.
    destruct Hx as [->| ->]; cbn; tauto.
  - elim Hc. cbn. tauto.
Qed.
Lemma seltoks_drop a t : Forall (fun c => ~ In c (lit "${;}/@" ++ [34%N])) a -> seltoks (a ++ t) -> seltoks t.
Proof. induction 1; auto. intros H'. apply IHForall. eapply seltoks_tail; eauto. Qed.

Section Brace.
  Variable X' : str.
  Let X := ch "{" :: X'.

  Lemma seltoks_dsp t : seltoks t -> exists t', seltoks t' /\ dsp (t ++ X) = t' ++ X /\ solid (t' ++ X).
  Proof.
    induction 1 as [|c t Hc Ht IH|c t Hc Ht IH|s t Hs Ht IH|body t Hb Ht IH].
    - exists []. split; [constructor|]. assert (S : solid X) by (apply sel_end_solid; cbn; tauto).
      split; [now apply dsp_solid|exact S].
    - destruct (in_dec N.eq_dec c css_ws) as [Hw|Hw].
      + destruct IH as (t' & H1 & H2 & H3). exists t'. repeat split; auto. cbn [app]. now rewrite dsp_ws.
      + exists (c :: t). split; [now apply tk_plain|].
        assert (S : solid ((c :: t) ++ X)). { split; auto. intros ->. elim Hc. cbn. tauto. }
        split; [now apply dsp_solid|exact S].
    - exists (ch "/" :: c :: t). split; [now apply tk_slash|].
      assert (S : solid ((ch "/" :: c :: t) ++ X)).
      { split; [cbn; intuition discriminate|]. intros _. cbn [app]. intros ->. apply Hc. cbn. tauto. }
      split; [now apply dsp_solid|exact S].
    - exists (s ++ t). split; [now apply tk_atom|].
      assert (S : solid ((s ++ t) ++ X)).
      { apply atom_head in Hs. destruct Hs as (c & r & -> & [->| ->]); split; cbn; intuition discriminate. }
      split; [now apply dsp_solid|exact S].
    - destruct IH as (t' & H1 & H2 & H3). exists t'. repeat split; auto.
      rewrite <- H2. replace ((lit "/*" ++ body ++ lit "*/" ++ t) ++ X)
        with ((lit "/*" ++ body ++ lit "*/" ++ []) ++ t ++ X) by now rewrite <- !app_assoc.
      apply dsp_blank. apply blank_comment; auto. constructor.
  Qed.

  Definition stays {A} (p : parser A) : Prop :=
    forall t r a, seltoks t -> p (t ++ X) = ROk r a -> exists t', seltoks t' /\ r = t' ++ X.

  Lemma stays_alt {A} (ps : list (parser A)) : Forall stays ps -> stays (alt ps).
  Proof.
    induction 1 as [|p ps Hp _ IH]; intros t r a Ht; cbn [alt]; [discriminate|].
    destruct (p (t ++ X)) eqn:E; try discriminate; [|now apply IH].
    intros [= <- <-]. eapply Hp; eauto.
  Qed.
  Lemma stays_many0 {A} (p : parser A) : shrinks p -> consumes p -> stays p -> stays (many0 p).
  Proof.
    intros S C H t. remember (List.length t) as n eqn:Hn. revert t Hn.
    induction n as [n IH] using (well_founded_induction lt_wf). intros t -> r a Ht E.
    destruct (p (t ++ X)) as [r1 a1| | |] eqn:E1.
    - destruct (H t r1 a1 Ht E1) as (t' & Ht' & ->).
      assert (L := C _ _ _ E1). rewrite !app_length in L.
      rewrite (many0_step p _ _ _ S E1) in E by (rewrite !app_length; lia).
      apply bind_ok in E. destruct E as (r2 & l & E2 & [= <- _]).
      eapply IH; [|reflexivity|exact Ht'|exact E2]. lia.
    - rewrite many0_stop_at in E by auto. injection E as <- _. eauto.
    - unfold many0 in E. cbn in E. rewrite E1 in E. discriminate.
    - unfold many0 in E. cbn in E. rewrite E1 in E. discriminate.
  Qed.
  Lemma stays_bind {A B} (p : parser A) (q : parser B) : stays p -> stays q -> stays (preceded p q).
  Proof.
    intros Hp Hq t r b Ht E. apply bind_ok in E. destruct E as (r1 & a & E1 & E2).
    destruct (Hp _ _ _ Ht E1) as (t1 & Ht1 & ->). eapply Hq; eauto.
  Qed.
  Lemma stays_pair {A B} (p : parser A) (q : parser B) : stays p -> stays q -> stays (pair_p p q).
  Proof.
    intros Hp Hq t r b Ht E. apply bind_ok in E. destruct E as (r1 & a & E1 & E2).
    destruct (Hp _ _ _ Ht E1) as (t1 & Ht1 & ->). apply bind_ok in E2.
    destruct E2 as (r2 & c & E2 & [= <- <-]). eapply Hq; eauto.
  Qed.
  Lemma stays_map {A B} (f : A -> B) p : stays p -> stays (map_p f p).
  Proof. intros H t r b Ht E. apply bind_ok in E. destruct E as (r1 & a & E1 & [= <- _]). eapply H; eauto. Qed.
  Lemma stays_recognize {A} (p : parser A) : stays p -> stays (recognize p).
  Proof. intros H t r b Ht E. apply bind_ok in E. destruct E as (r1 & a & E1 & [= <- _]). eapply H; eauto. Qed.
  Lemma stays_non_empty {A} (p : parser A) : stays p -> stays (expect_non_empty p).
  Proof. intros H t r b Ht E. eapply H; eauto. destruct (t ++ X); [discriminate|exact E]. Qed.
  Lemma stays_trimmed {A} (p : parser A) : stays p -> stays (trimmed p).
  Proof.
    intros H t r b Ht E. rewrite trimmed_eq in E. destruct (seltoks_dsp t Ht) as (t' & Ht' & Hd & _).
    rewrite Hd in E. apply bind_ok in E. destruct E as (r1 & a & E1 & [= <- _]).
    destruct (H _ _ _ Ht' E1) as (t2 & Ht2 & ->). destruct (seltoks_dsp t2 Ht2) as (t3 & Ht3 & Hd3 & _).
    eauto.
  Qed.

  (** A run of chars outside [X] and without special chars. *)
  Lemma stays_run f : f (ch "{") = false ->
    (forall c, f c = true -> ~ In c (lit "${;}/@" ++ [34%N]) ) -> stays (take_while1 f).
  Proof.
    intros H0 Hf t r a Ht E. destruct (split_run f t) as (u & v & -> & Hu & Hv).
    destruct u as [|c u].
    - unfold take_while1 in E. cbn [app] in E. destruct v as [|d v]; cbn [app span X] in E.
      + unfold X in E. cbn [span] in E. rewrite H0 in E. discriminate.
      + rewrite Hv in E. discriminate.
    - rewrite <- app_assoc, take_while1_ok in E; auto; [|discriminate|].
      + injection E as <- <-. exists v. split; auto. eapply seltoks_drop; [|exact Ht].
        eapply forallb_Forall; [|exact Hu]. exact Hf.
      + destruct v; auto.
  Qed.
  Lemma stays_tag1 c : ~ In c (lit "${;}/@" ++ [34%N]) -> stays (tag [c]).
  Proof.
    intros Hc t r a Ht E. destruct (sound_tag _ _ _ _ E) as (u & E2 & -> & ->).
    destruct t as [|d t].
    - cbn [app] in E2. injection E2 as E2 _. elim Hc. rewrite <- E2. cbn. tauto.
    - injection E2 as -> <-. exists t. split; auto. eapply seltoks_tail; eauto.
  Qed.

  Lemma name_plain c : name_char c -> ~ In c (lit "${;}/@" ++ [34%N]).
  Proof.
    intros H Hin. revert H. apply name_char_excl. cbn in Hin |- *. tauto.
  Qed.

  Lemma stays_ident : stays ident.
  Proof.
    assert (N1 : forall c, is_ascii_alnum c = true -> ~ In c (lit "${;}/@" ++ [34%N])).
    { intros c Hc. apply name_plain. unfold is_ascii_alnum in Hc. apply orb_true_iff in Hc.
      destruct Hc as [Hc|Hc]; [left; unfold name_start; tauto|now right]. }
    assert (N2 : forall c, is_ascii_alpha c = true -> ~ In c (lit "${;}/@" ++ [34%N])).
    { intros c Hc. apply N1. unfold is_ascii_alnum. now rewrite Hc. }
    assert (N3 : forall c, negb (is_ascii c) = true -> ~ In c (lit "${;}/@" ++ [34%N])).
    { intros c Hc. apply name_plain. left. right. right. right. apply negb_true_iff in Hc.
      unfold is_ascii in Hc. now apply N.ltb_ge in Hc. }
    unfold ident, alpha1, alphanumeric1.
    change (lit "-") with [ch "-"]. change (lit "_") with [ch "_"].
    assert (D1 : stays (tag [ch "-"])) by (apply stays_tag1; cbn; intuition discriminate).
    assert (D2 : stays (tag [ch "_"])) by (apply stays_tag1; cbn; intuition discriminate).
    assert (D3 : stays (take_while1 is_ascii_alpha)) by (apply stays_run; auto).
    assert (D4 : stays (take_while1 is_ascii_alnum)) by (apply stays_run; auto).
    assert (D5 : stays (take_while1 (fun c => negb (is_ascii c)))) by (apply stays_run; auto).
    apply stays_recognize, stays_bind; [apply stays_alt; each; assumption|].
    apply stays_many0; [| |apply stays_alt; each; assumption].
    - apply shrinks_alt. each; try apply shrinks_tag; apply shrinks_take_while1.
    - apply consumes_alt. each; try apply consumes_tag; intros i r a; apply take_while1_consumes.
  Qed.

  (** Atoms and comments met by the value parser. *)
  Lemma stays_atom {A} (p : parser A) :
    (forall i, p (dsp i) = p i) ->
    (forall s y r a, atom s -> p (s ++ y) = ROk r a -> r = dsp y) ->
    (forall i, match i with [] => True | c :: _ => c <> 34%N /\ c <> ch "$" end -> dsp i = i -> forall r a, p i <> ROk r a) ->
    stays p.
  Proof.
    intros Hd Ha Hn t r a Ht E. destruct (seltoks_dsp t Ht) as (t' & Ht' & Hdt & So).
    rewrite <- Hd, Hdt in E. destruct Ht' as [|c t2 Hc Ht2|c t2 Hc Ht2|s t2 Hs Ht2|body t2 Hb Ht2].
    - exfalso. eapply (Hn X); [|now apply dsp_solid|exact E]. split; discriminate.
    - exfalso. eapply (Hn ((c :: t2) ++ X)); [|now apply dsp_solid|exact E].
      split; intros ->; apply Hc; cbn; tauto.
    - exfalso. eapply (Hn ((ch "/" :: c :: t2) ++ X)); [|now apply dsp_solid|exact E].
      split; discriminate.
    - rewrite <- app_assoc in E. apply Ha in E; auto. subst r.
      destruct (seltoks_dsp t2 Ht2) as (t3 & Ht3 & Hd3 & _). eauto.
    - exfalso. cbn in So. destruct So as [_ So]. now apply So.
  Qed.

  Lemma stays_value : stays style_attr_value.
  Proof.
    assert (C : stays value_chunk).
    { unfold value_chunk. apply stays_alt. each.
      - intros t r a Ht E. destruct (split_run (fun c => negb (mem c (lit "${;}/@" ++ [34%N]))) t)
          as (u & v & -> & Hu & Hv).
        assert (Hv' : seltoks v).
        { eapply seltoks_drop; [|exact Ht]. eapply forallb_Forall; [|exact Hu].
          intros c Hc. apply negb_true_iff in Hc. now apply mem_not_In. }
        unfold is_not in E. destruct u as [|c u].
        + exfalso. rewrite take_while1_err in E; [discriminate|].
          destruct v as [|d v]; [reflexivity|]. cbn [app]. apply negb_false_iff, mem_In.
          apply negb_false_iff, mem_In in Hv. inversion Ht as [|? ? Hd ?|? ? Hd ?|s v' Hs Hv2 E2|body v' Hb Hv2 E2]; subst.
          * now elim Hd.
          * cbn. tauto.
          * apply atom_head in Hs. destruct Hs as (y & r' & -> & Hy). injection E2 as -> E2.
            destruct Hy as [->| ->]; cbn; tauto.
          * cbn. tauto.
        + rewrite <- app_assoc, take_while1_ok in E.
          * injection E as <- <-. eauto.
          * discriminate.
          * eapply Forall_forallb; [|eapply forallb_Forall; [|exact Hu]].
            -- intros x Hx. apply Hx.
            -- intros x Hx. cbn beta. apply negb_true_iff, mem_not_In. apply negb_true_iff, mem_not_In in Hx.
               intros Hin. apply Hx. cbn in Hin |- *. tauto.
          * destruct v as [|d v]; [reflexivity|]. cbn [app]. apply negb_false_iff, mem_In.
            apply negb_false_iff, mem_In in Hv. inversion Hv' as [|? ? Hd ?|? ? Hd ?|s v' Hs Hv2 E2|body v' Hb Hv2 E2]; subst.
            -- now elim Hd.
            -- cbn. tauto.
            -- apply atom_head in Hs. destruct Hs as (y & r' & -> & Hy). injection E2 as -> E2.
               destruct Hy as [->| ->]; cbn; tauto.
            -- cbn. tauto.
      - apply stays_recognize, stays_atom.
        + intros i. apply trimmed_dsp.
        + intros s y r a [Hs|Hs] E.
          * exfalso. rewrite interpolation_err in E; [discriminate|].
            destruct Hs as (b & -> & _). rewrite dsp_solid; [discriminate|]. split; cbn; intuition discriminate.
          * destruct (interpolation_ok s y Hs) as [a' E']. congruence.
        + intros i Hi Hd r a. rewrite interpolation_err; [discriminate|]. rewrite Hd. destruct i; tauto.
      - apply stays_atom.
        + intros i. apply trimmed_dsp.
        + intros s y r a [Hs|Hs] E.
          * rewrite string_p_ok in E by auto. congruence.
          * exfalso. rewrite string_p_err in E; [discriminate|].
            destruct Hs as (w & n & w' & -> & _). rewrite dsp_solid; [discriminate|]. split; cbn; intuition discriminate.
        + intros i Hi Hd r a. rewrite string_p_err; [discriminate|]. rewrite Hd. destruct i; tauto.
      - intros t r a Ht E. apply bind_ok in E. destruct E as (r1 & x & E & [= <- _]).
        apply bind_ok in E. destruct E as (r2 & y & E1 & E2).
        destruct (sound_tag _ _ _ _ E1) as (u & E3 & -> & ->).
        destruct Ht as [|c t2 Hc Ht2|c t2 Hc Ht2|s t2 Hs Ht2|body t2 Hb Ht2].
        + cbn in E3. discriminate.
        + exfalso. injection E3 as -> _. apply Hc. cbn. tauto.
        + injection E3 as <-. cbn [app none_of] in E2. destruct (mem c _); [discriminate|]. injection E2 as <- _. eauto.
        + exfalso. apply atom_head in Hs. destruct Hs as (c & r' & -> & Hc). injection E3 as -> _.
          destruct Hc; discriminate.
        + exfalso. apply (f_equal (@tl _)) in E3. cbn [tl app lit list_ascii_of_string map] in E3. rewrite <- E3 in E2.
          cbn in E2. discriminate. }
    unfold style_attr_value. apply stays_trimmed, stays_map, stays_recognize.
    change (stays (many1 value_chunk)).
    intros t r l Ht E. destruct (value_chunk (t ++ X)) as [r1 a| | |] eqn:E1.
    - rewrite (many1_many0 _ _ _ _ shrinks_value_chunk consumes_value_chunk E1) in E.
      revert E. apply stays_many0; auto; [apply shrinks_value_chunk|apply consumes_value_chunk].
    - unfold many1 in E. rewrite E1 in E. discriminate.
    - unfold many1 in E. rewrite E1 in E. discriminate.
    - unfold many1 in E. rewrite E1 in E. discriminate.
  Qed.

  Lemma stays_attribute : stays attribute.
  Proof.
    apply stays_trimmed, stays_non_empty, stays_map, stays_pair.
    - apply stays_trimmed, stays_ident.
    - apply stays_bind; [|apply stays_value]. apply (stays_tag1 (ch ":")). cbn. intuition discriminate.
  Qed.

  Lemma seltoks_no_semi t : seltoks t -> tag (lit ";") (t ++ X) = RErr.
  Proof.
    intros H. apply (tag_err (ch ";") []). destruct H as [|c t Hc Ht|c t Hc Ht|s t Hs Ht|body t Hb Ht].
    - discriminate.
    - cbn [app]. intros ->. apply Hc. cbn. tauto.
    - discriminate.
    - apply atom_head in Hs. destruct Hs as (c & r & -> & [->| ->]); discriminate.
    - discriminate.
  Qed.

  Lemma attributes_block_err t : seltoks t -> attributes true (t ++ X) = RErr.
  Proof.
    intros Ht. destruct (seltoks_dsp t Ht) as (t' & Ht' & Hd & _).
    apply trimmed_err, non_empty_err. rewrite Hd. unfold separated_list1, terminated.
    destruct (attribute (t' ++ X)) as [r a| | |] eqn:E; try reflexivity.
    - destruct (stays_attribute _ _ _ Ht' E) as (t1 & Ht1 & ->). cbn [bind sep_fuel].
      rewrite seltoks_no_semi by auto. cbn [bind]. unfold opt, preceded.
      destruct (sp_dsp (t1 ++ X)) as (w & -> & _). cbn [bind].
      destruct (seltoks_dsp t1 Ht1) as (t2 & Ht2 & -> & _).
      now rewrite map_err by now apply seltoks_no_semi.
    - destruct (safe_attribute (List.length (t' ++ X)) _ (le_n _)) as [H1 H2]. congruence.
    - destruct (safe_attribute (List.length (t' ++ X)) _ (le_n _)) as [H1 H2]. congruence.
  Qed.
End Brace.

(** ** A declaration is not taken for the start of a following block *)

Lemma like_decl_tail w v Z r : blank w -> forall s,
  sel_text s -> ws v -> sel_end Z -> s ++ v ++ Z = w ++ lit ":" ++ r ->
  exists w2 r2, s = w2 ++ lit ":" ++ r2 /\ ws w2.
Proof.
  intros Hw s Hs Hv HZ. revert s v Hs Hv.
  assert (Hno : forall v c Y, ws v -> v ++ Z = c :: Y -> In c (css_ws ++ lit ",{")).
  { intros v c Y Hv E. destruct v as [|x v].
    - destruct Z as [|z Z]; [easy|]. injection E as -> _. apply in_or_app. now right.
    - injection E as -> _. inversion Hv; subst. apply in_or_app. now left. }
  induction Hw as [|c w Hc _ IH|body w Hb _ IH]; intros s v Hs Hv E.
  - destruct s as [|x s].
    + apply Hno in E; auto. cbn in E. intuition discriminate.
    + injection E as -> _. exists [], s. split; [reflexivity|constructor].
  - destruct s as [|x s].
    + destruct v as [|x v].
      * exfalso. destruct Z as [|z Z]; [easy|]. injection E as -> _.
        cbn in HZ, Hc. destruct HZ as [<-|[<-|[]]]; intuition discriminate.
      * injection E as -> E. inversion Hv as [|? ? _ Hv']; subst.
        destruct (IH [] v (st_nil) Hv' E) as (w2 & r2 & E2 & _). destruct w2; discriminate.
    + injection E as -> E. assert (Hs' : sel_text s) by (eapply sel_text_tail; eauto using css_ws_sel).
      destruct (IH s v Hs' Hv E) as (w2 & r2 & -> & Hw2). exists (c :: w2), r2. split; auto. now constructor.
  - exfalso. destruct s as [|x s].
    + cbn [app] in E. apply (Hno v _ _ Hv) in E. cbn in E. intuition discriminate.
    + injection E as -> E. inversion Hs as [|? ? Hx ?|? ? Hx ? E2|a v' Ha Hv' E2]; subst.
      * apply Hx. cbn. tauto.
      * cbn in E. injection E as -> _. apply Hx. cbn. tauto.
      * apply atom_head in Ha. destruct Ha as (y & r' & -> & Hy). injection E2 as -> _.
        destruct Hy; discriminate.
Qed.

Lemma name_not_sel c : name_char c -> ~ In c sel_set.
Proof. intros H Hin. revert H. apply name_char_excl. cbn in Hin |- *. tauto. Qed.

Lemma name_chars k : name k -> Forall name_char k.
Proof. intros (c & r & -> & Hc & Hr). constructor; auto. now left. Qed.

Lemma like_decl s v Z k w r :
  sel_text s -> ws v -> sel_end Z -> name k -> blank w ->
  s ++ v ++ Z = k ++ w ++ lit ":" ++ r -> starts_like_decl s.
Proof.
  intros Hs Hv HZ Hk Hw E. assert (Hkc := name_chars _ Hk).
  apply app_eq_app in E. destruct E as (l & [[-> E]|[-> E]]).
  - symmetry in E. destruct (like_decl_tail w v Z r Hw l) as (w2 & r2 & -> & Hw2); auto.
    + eapply sel_text_drop; [|exact Hs]. eapply Forall_impl; [|exact Hkc]. apply name_not_sel.
    + exists k, w2, r2. repeat split; auto.
  - destruct l as [|x l].
    + exfalso. cbn [app] in E. destruct (like_decl_tail w v Z r Hw []) as (w2 & r2 & E2 & _); auto.
      * constructor.
      * destruct w2; discriminate.
    + exfalso. apply Forall_app in Hkc. destruct Hkc as [_ Hkc]. inversion Hkc as [|? ? Hx _]; subst.
      revert Hx. apply name_char_excl. destruct v as [|y v].
      * destruct Z as [|z Z]; [easy|]. injection E as -> _. cbn in HZ |- *. tauto.
      * injection E as -> _. inversion Hv; subst. apply in_or_app. now left.
Qed.

Lemma sels_head t l X' : writes_sels t l ->
  exists w s v Z, hd_error l = Some [s] /\ t ++ ch "{" :: X' = w ++ s ++ v ++ Z
    /\ blank w /\ sel_text s /\ tight s /\ ws v /\ sel_end Z.
Proof.
  intros [w s v Hw Hs Ht Hv|w s v t2 l2 Hw Hs Ht Hv H].
  - exists w, s, v, (ch "{" :: X'). rewrite <- !app_assoc. repeat split; auto; try apply Ht. cbn; tauto.
  - exists w, s, v, (lit "," ++ t2 ++ ch "{" :: X'). rewrite <- !app_assoc. repeat split; auto; try apply Ht. cbn; tauto.
Qed.

Lemma attribute_block_err t l X' : writes_sels t l ->
  (forall s, hd_error l = Some [s] -> ~ starts_like_decl s) ->
  attribute (t ++ ch "{" :: X') = RErr.
Proof.
  intros Ht Hno. destruct (sels_head t l X' Ht) as (w & s & v & Z & Hl & -> & Hw & Hs & Hts & Hv & HZ).
  set (i := w ++ s ++ v ++ Z). destruct (attribute i) as [r a| | |] eqn:E; auto.
  - exfalso. apply (Hno s Hl). unfold attribute, i in E. rewrite trimmed_blank in E by auto.
    rewrite trimmed_eq in E. apply bind_ok in E. destruct E as (r1 & a1 & E & _).
    assert (So : solid (s ++ v ++ Z)) by (apply sel_solid; auto; [now destruct Hts|now apply tight_head]).
    rewrite dsp_solid in E by auto.
    assert (E' : map_p (fun p => mk_attr (trim (fst p)) [snd p])
       (separated_pair style_attr_key (tag (lit ":")) style_attr_value) (s ++ v ++ Z) = ROk r1 a1).
    { destruct (s ++ v ++ Z); [discriminate|exact E]. }
    clear E. apply bind_ok in E'. destruct E' as (r2 & a2 & E & _).
    apply bind_ok in E. destruct E as (r3 & k & E & E2).
    apply bind_ok in E2. destruct E2 as (r4 & x & E2 & _).
    apply bind_ok in E2. destruct E2 as (r5 & y & E2 & _).
    unfold style_attr_key in E. rewrite trimmed_eq, dsp_solid in E by auto.
    apply bind_ok in E. destruct E as (r6 & k' & E & [= <- <-]).
    destruct (sound_ident _ _ _ E) as (k2 & E3 & -> & Hk).
    destruct (sound_tag _ _ _ _ E2) as (c & E4 & Hc1 & Hc2).
    destruct (sp_dsp r6) as (w' & _ & E5 & Hw'). rewrite E4 in E5. rewrite E5 in E3.
    subst. eapply (like_decl s v Z k' w' _); eauto.
  - destruct (safe_attribute (List.length i) i (le_n _)) as [H1 H2]. congruence.
  - destruct (safe_attribute (List.length i) i (le_n _)) as [H1 H2]. congruence.
Qed.
