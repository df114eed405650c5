(** * ParserDecl: when declarations before a block are swallowed by its selector (C14). *)

From Coq Require Import String Ascii List NArith Bool Arith Lia.
From Verif Require Import Str StrFacts Ast Nom CssParser SpecSays NomFacts ParserSound ParserTotal SpecGrammar ParserLex ParserTokens ParserSel ParserGrammar ParserComplete.
Import ListNotations.
Local Open Scope list_scope.

Lemma sel_value s : sel_text s -> value_text s.
Proof.
  induction 1 as [|c v Hc _ IH|c v Hc _ IH|a v Ha _ IH]; [constructor| | |now apply vt_atom].
  - apply vt_plain; auto. intros H. apply Hc. cbn in H |- *. tauto.
  - apply vt_slash; auto. intros H. apply Hc. cbn in H |- *. tauto.
Qed.

(** ** A selector that starts like a declaration is taken for one *)

Lemma value_takes r Z : sel_text r -> ~ ws r ->
  exists v, style_attr_value (r ++ ch "{" :: Z) = ROk (ch "{" :: Z) v.
Proof.
  intros Hr Hn. assert (HY : solid (ch "{" :: Z)) by (apply sel_end_solid; cbn; tauto).
  destruct (sel_dsp r _ Hr HY) as (a & b & -> & Ha & Hb & E).
  assert (Hbn : b <> []) by (intros ->; apply Hn; now rewrite app_nil_r).
  destruct (value_chunk_stop [] (ch "{" :: Z)) as [H1 H2]; [constructor|cbn; tauto|exact I|].
  destruct (value_many b (ch "{" :: Z) H2 H1 (sel_value _ Hb) Hbn (or_introl HY)) as [l El].
  exists (trim b). unfold style_attr_value. rewrite trimmed_eq, E.
  erewrite map_ok by (eapply recognize_ok, El). cbn [bind]. now rewrite dsp_solid.
Qed.

Lemma attribute_takes k w r Z : name k -> ws w -> sel_text r -> ~ ws r ->
  exists a, attribute ((k ++ w ++ lit ":" ++ r) ++ ch "{" :: Z) = ROk (ch "{" :: Z) a.
Proof.
  intros Hk Hw Hr Hn. destruct (value_takes r Z Hr Hn) as [v Ev].
  exists (mk_attr (trim k) [v]). rewrite <- !app_assoc. unfold attribute.
  rewrite trimmed_eq, dsp_solid by now apply name_solid.
  rewrite non_empty_app by (destruct Hk as (c & s & -> & _); discriminate).
  erewrite map_ok.
  2:{ eapply pair_ok.
      - unfold style_attr_key. apply trimmed_ok. rewrite dsp_solid by now apply name_solid.
        apply ident_ok; auto. cbn [lit app list_ascii_of_string map].
        apply blank_then_not_name; [now apply ws_blank|]. cbn. tauto.
      - rewrite dsp_ws_solid; auto using ws_blank.
        + erewrite preceded_ok by apply tag_ok. exact Ev.
        + split; [cbn; intuition discriminate|]. intros E; discriminate. }
  cbn [bind fst snd]. now rewrite dsp_solid by (apply sel_end_solid; cbn; tauto).
Qed.

(** The group of declarations before it then runs into the brace. *)
Lemma dangling_runs_on t l X Z a0 : writes_dangling t l -> attribute X = ROk (ch "{" :: Z) a0 ->
  exists a l' R, attribute (t ++ X) = ROk R a
    /\ (forall n, List.length R < n -> sep_fuel n (tag (lit ";")) attribute R = ROk (ch "{" :: Z) l').
Proof.
  intros H HX. induction H as [t a w Ha Hw|t a w t' l Ha Hw Ht' IH].
  - exists a, [a0], (lit ";" ++ w ++ X). splits.
    + rewrite <- !app_assoc. apply attribute_ok; auto. apply semi_stop.
    + intros n Hn. destruct n as [|n]; [lia|]. cbn [sep_fuel]. rewrite tag_ok.
      rewrite attribute_blank, HX by auto.
      assert (L : List.length (ch "{" :: Z) <= List.length X) by (eapply shrinks_le; [apply shrinks_attribute|exact HX]).
      replace (_ =? _) with false.
      2:{ symmetry. apply Nat.eqb_neq. rewrite !app_length. cbn. lia. }
      destruct n as [|n]; [rewrite !app_length in Hn; cbn in Hn, L; lia|]. reflexivity.
  - destruct IH as (a2 & l2 & R & E2 & Es).
    exists a, (a2 :: l2), (lit ";" ++ w ++ t' ++ X). splits.
    + rewrite <- !app_assoc. apply attribute_ok; auto. apply semi_stop.
    + intros n Hn. destruct n as [|n]; [lia|]. cbn [sep_fuel]. rewrite tag_ok.
      rewrite attribute_blank, E2 by auto.
      assert (L : List.length R <= List.length (t' ++ X)) by (eapply shrinks_le; [apply shrinks_attribute|exact E2]).
      replace (_ =? _) with false.
      2:{ symmetry. apply Nat.eqb_neq. rewrite !app_length. cbn. lia. }
      rewrite Es; [reflexivity|]. rewrite !app_length in *. cbn in Hn. lia.
Qed.

Lemma dangling_swallowed t l X Z a0 : writes_dangling t l -> attribute X = ROk (ch "{" :: Z) a0 ->
  dangling_block (t ++ X) = RErr.
Proof.
  intros H HX. destruct (dangling_runs_on t l X Z a0 H HX) as (a & l' & R & E1 & Es).
  apply dangling_err. unfold attributes. rewrite trimmed_eq.
  assert (E1' : attribute (dsp (t ++ X)) = ROk R a) by (unfold attribute; now rewrite trimmed_dsp).
  rewrite non_empty_err; [reflexivity|].
  unfold terminated, separated_list1. rewrite E1'. cbn [bind]. rewrite Es by lia. cbn [bind].
  unfold preceded, opt. destruct (sp_dsp (ch "{" :: Z)) as (w2 & -> & _). cbn [bind].
  rewrite dsp_solid by (apply sel_end_solid; cbn; tauto). reflexivity.
Qed.

(** ** The first thing of a sheet is what [scope_elem] read first *)

Lemma many0_nil {A} (p : parser A) i r : many0 p i = ROk r [] -> r = i.
Proof.
  unfold many0. cbn [many0_fuel]. destruct (p i) as [r' a'| | |]; try discriminate; [|congruence].
  destruct (_ =? _); [discriminate|]. intros E. apply bind_ok in E.
  destruct E as (r2 & l2 & _ & [=]).
Qed.

Lemma scope_contents_inv d i r l : scope_contents (S d) i = ROk r l ->
  match l with [] => r = dsp i | a :: _ => exists r', scope_elem d i = ROk r' a end.
Proof.
  cbn [scope_contents]. rewrite trimmed_eq. intros E. apply bind_ok in E.
  destruct E as (r1 & l1 & E & [= <- <-]).
  unfold expect_non_empty in E. destruct (dsp i) as [|c D] eqn:Ed; [discriminate|].
  rewrite <- Ed in *. destruct l1 as [|a l1].
  - apply many0_nil in E. rewrite E. now rewrite dsp_idem.
  - apply many0_inv in E. destruct E as [r' E]. exists r'. rewrite <- scope_elem_dsp. exact E.
Qed.

Lemma scope_inv d i r l : scope (S d) i = ROk r l ->
  match l with [] => r = dsp i | a :: _ => exists r', scope_elem d i = ROk r' a end.
Proof.
  unfold scope. rewrite trimmed_eq. intros E. apply bind_ok in E.
  destruct E as (r1 & l1 & E & [= <- <-]).
  unfold expect_non_empty in E. destruct (dsp i) as [|c D] eqn:Ed; [discriminate|].
  rewrite <- Ed in *. apply scope_contents_inv in E. destruct l1 as [|a l1].
  - now rewrite E, !dsp_idem.
  - now rewrite scope_elem_dsp in E.
Qed.

Lemma sheet_first d i r a c : sheet_p (S d) i = ROk r (a :: c) -> exists r', scope_elem d i = ROk r' a.
Proof.
  unfold sheet_p. rewrite trimmed_eq. intros E. apply bind_ok in E.
  destruct E as (r1 & l1 & E & [= _ ->]). unfold map_p in E. apply bind_ok in E.
  destruct E as (r2 & ls & E & E2). injection E2 as _ Ec.
  unfold many0 in E. cbn [many0_fuel] in E.
  destruct (scope (S d) (dsp i)) as [r3 l3| | |] eqn:Es; try discriminate.
  2:{ injection E as _ <-. discriminate Ec. }
  apply scope_inv in Es. destruct l3 as [|a3 l3].
  - rewrite dsp_idem in Es. rewrite Es, Nat.eqb_refl in E. discriminate.
  - destruct (_ =? _); [discriminate|]. apply bind_ok in E.
    destruct E as (r4 & l4 & _ & [= _ <-]). cbn in Ec. injection Ec as -> _.
    destruct Es as [r' Es]. exists r'. now rewrite scope_elem_dsp in Es.
Qed.

(** Only [dangling_block] makes a block without selectors. *)
Lemma parse_first_bare css l c : parse css = Parsed (SBlock [] l :: c) -> dangling_block css <> RErr.
Proof.
  unfold parse. destruct (sheet_p _ css) as [r s| | |] eqn:E; try discriminate.
  intros [= ->] D. apply sheet_first in E. destruct E as [r' E]. unfold scope_elem in E.
  rewrite alt_err_cons in E by exact D. cbn [alt] in E.
  destruct (block _ css) as [x y| | |] eqn:Eb; try discriminate.
  - injection E as _ ->. clear -Eb. unfold block in Eb. rewrite trimmed_eq in Eb. apply bind_ok in Eb.
    destruct Eb as (x1 & y & Eb & [= _ ->]). unfold expect_non_empty in Eb.
    destruct (dsp css) as [|z Z]; [discriminate|].
    unfold map_p, pair_p in Eb. apply bind_ok in Eb. destruct Eb as (x2 & [sl ct] & Eb & E3).
    apply bind_ok in Eb. destruct Eb as (x3 & sl' & Eb & E4). apply bind_ok in E4.
    destruct E4 as (x4 & ct' & _ & [= _ <- <-]). injection E3 as _ ->.
    apply sound_condition in Eb. destruct Eb as (t & _ & [Hx _]). now apply Hx.
  - clear Eb. destruct (at_rule_with _ css) as [x y| | |] eqn:Eb; try discriminate.
    + injection E as _ ->. unfold at_rule_with in Eb. rewrite trimmed_eq in Eb. apply bind_ok in Eb.
      destruct Eb as (x1 & y & Eb & [= _ ->]). unfold expect_non_empty in Eb.
      destruct (dsp css) as [|z Z]; [discriminate|]. unfold map_p in Eb. apply bind_ok in Eb.
      destruct Eb as (x2 & p & _ & [=]).
    + clear Eb. destruct (keyframes _ css) as [x y| | |] eqn:Eb; try discriminate.
      injection E as _ ->. unfold keyframes in Eb. rewrite trimmed_eq in Eb. apply bind_ok in Eb.
      destruct Eb as (x1 & y & Eb & [= _ ->]). unfold map_p in Eb. apply bind_ok in Eb.
      destruct Eb as (x2 & p & _ & [=]).
Qed.

(** What follows the colon is not blank in a selector without white space at its end. *)
Lemma tight_rest u r : tight (u ++ lit ":" ++ r) -> r <> [] -> ~ ws r.
Proof.
  intros [_ H] Hn Hw. destruct (exists_last Hn) as (r0 & c & ->).
  apply Forall_app in Hw. destruct Hw as [_ Hw]. inversion Hw as [|? ? Hc _]; subst.
  rewrite !app_assoc in H. apply trim_id_last in H. apply css_ws_uni in Hc. congruence.
Qed.

Lemma swallowed t l sel v Z : writes_dangling t l -> sel_text sel -> tight sel -> ws v ->
  starts_like_decl sel -> (forall u, sel <> u ++ lit ":") ->
  dangling_block (t ++ sel ++ v ++ ch "{" :: Z) = RErr.
Proof.
  intros Ht Hs Htt Hv (k & w & r & -> & Hk & Hw) Hno.
  assert (Hr : sel_text (r ++ v)).
  { apply sel_text_app; [|now apply ws_sel].
    apply sel_text_drop in Hs; [|eapply Forall_impl; [apply name_not_sel|now apply name_chars]].
    apply sel_text_drop in Hs; [|eapply Forall_impl; [apply css_ws_sel|exact Hw]].
    cbn [lit app list_ascii_of_string map] in Hs. apply sel_text_tail in Hs; auto. cbn. intuition discriminate. }
  assert (Hn : ~ ws (r ++ v)).
  { intros H. apply Forall_app in H. destruct H as [H _]. revert H. apply (tight_rest (k ++ w)).
    - now rewrite <- app_assoc.
    - intros ->. apply (Hno (k ++ w)). now rewrite <- app_assoc. }
  destruct (attribute_takes k w (r ++ v) Z Hk Hw Hr Hn) as [a Ea].
  eapply dangling_swallowed; eauto. rewrite <- Ea. f_equal. now rewrite <- !app_assoc.
Qed.
