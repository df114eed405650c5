(** * WFlat: declarations are read with work linear in the text. *)

From Coq Require Import String Ascii List NArith Bool Arith Lia.
From Verif Require Import Str StrFacts Ast Nom CssParser WNom WParser WFacts WBound SpecSays NomFacts ParserSound ParserTotal ParserLex ParserSel.
Import ListNotations.
Local Open Scope list_scope.
Local Open Scope N_scope.

Ltac small := vm_compute; discriminate.

Lemma tight_cmt : tight 31 w_cmt.
Proof.
  eapply tight_le; [apply tight_preceded; [apply strict_tight, strict_tag|]|].
  - apply tight_terminated; [|apply strict_tight, strict_tag]. apply tight_recognize, tight_many0.
    apply strict_or; [apply strict_while1|]. apply strict_or; [|apply strict_none]. apply strict_terminated_tag, strict_not_char.
  - small.
Qed.
Definition w_sp_item : wparser str := walt [wwhile1 (fun c => mem c sp_chars); w_cmt].
Lemma tight_sp_item : tight 36 w_sp_item.
Proof. eapply tight_le; [apply tight_or; [apply strict_while1|apply tight_single, tight_cmt]|small]. Qed.

(** A comment starts here. *)
Definition opens (x : str) : Prop := exists y, x = ch "/" :: ch "*" :: y.

Lemma many0_last {A} (p : wparser A) K : tight K p -> forall n i r l w, wmany0_fuel n p i = (ROk r l, w) ->
  len r <= len i /\ exists wl, p r = (RErr, wl) /\ w <= (2 * K + 1) * (len i - len r) + wl + 1.
Proof.
  intros H. induction n as [|n IH]; intros i r l w; cbn [wmany0_fuel]; [discriminate|].
  pcase H i; try discriminate.
  - destruct H as [L H]. destruct (Nat.eqb _ _) eqn:E; [discriminate|]. apply len_neq in E.
    destruct (wmany0_fuel n p r0) as [[r1 l1| | |] w1] eqn:E1; cbn [wbind more]; try discriminate.
    intros [= <- <- <-]. apply IH in E1 as (L' & wl & E2 & E1). split; [lia|]. exists wl. split; auto. nia.
  - intros [= <- <- <-]. split; [lia|]. exists w0. split; auto. lia.
Qed.

Lemma sp_item_err r wl : w_sp_item r = (RErr, wl) -> wl <= 8 \/ opens r.
Proof.
  unfold w_sp_item, walt, wwhile1, w_cmt, wdelimited, wpreceded, wtag. intros E.
  assert (O : opens r \/ tag (lit "/*") r = RErr).
  { destruct r as [|c [|d r]]; cbn -[char_eqb]; auto.
    - right. unfold tag. cbn -[char_eqb]. now rewrite andb_false_r.
    - unfold tag. cbn -[char_eqb]. destruct (char_eqb 47 c) eqn:E1; auto. destruct (char_eqb 42 d) eqn:E2; auto.
      apply char_eqb_eq in E1, E2. subst. left. now exists r. }
  destruct O as [O|O]; auto. rewrite O in E. unfold take_while1 in E.
  destruct (span (fun c => mem c sp_chars) r) as [[|c a] b]; cbn in E; inversion E. left. lia.
Qed.

(** The work of [sp]. *)
Definition spw (i : str) : N := snd (w_sp i).

Lemma sp_run i : exists a, w_sp i = (ROk (dsp i) a, spw i).
Proof.
  destruct (sp_dsp i) as (a & E & _). exists a. unfold spw. pose proof (wera_sp i) as H. rewrite E in H.
  destruct (w_sp i) as [x w]. cbn in *. now subst x.
Qed.
Lemma dsp_len i : len (dsp i) <= len i.
Proof. destruct (sp_dsp i) as (a & _ & E & _). rewrite E at 2. rewrite len_app. lia. Qed.
Lemma spw_lin i : spw i <= 80 * (len i + 1).
Proof.
  assert (H : lin 80 w_sp).
  { eapply lin_le; [apply lin_recognize, lin_many0, tight_sp_item|small]. }
  specialize (H i). destruct (sp_run i) as (a & E). rewrite E in H. now destruct H.
Qed.
Lemma spw_fine i : spw i <= 80 * (len i - len (dsp i) + 1) \/ opens (dsp i).
Proof.
  destruct (sp_run i) as (a & E). unfold w_sp, wrecognize, wmany0 in E. fold w_sp_item in E.
  destruct (wmany0_fuel _ w_sp_item i) as [[r l| | |] w] eqn:El; cbn [wbind] in E; try discriminate.
  pose proof (f_equal snd E) as E2. cbn [snd] in E2. apply (f_equal fst) in E. cbn [fst] in E. injection E as -> _.
  apply (many0_last _ _ tight_sp_item) in El as (L & wl & Ew & El).
  apply sp_item_err in Ew as [Ew|O]; auto. left. lia.
Qed.

Lemma trimmed_w {A} (p : wparser A) i :
  w_trimmed p i = more (spw i) (wbind (p (dsp i)) (fun r a => (ROk (dsp r) a, spw r + 1))).
Proof.
  unfold w_trimmed, wdelimited, wpreceded, wterminated. destruct (sp_run i) as (a & ->). cbn [wbind].
  destruct (p (dsp i)) as [[r b| | |] w]; cbn [wbind more]; auto.
  destruct (sp_run r) as (a2 & ->). reflexivity.
Qed.

Lemma lin_sp : lin 80 w_sp.
Proof.
  intros i. destruct (sp_run i) as (a & ->). split; [apply dsp_len|apply spw_lin].
Qed.
Lemma total_sp : total w_sp.
Proof. intros i. destruct (sp_run i) as (a & ->). cbn. eauto. Qed.
Lemma lin_trimmed {A} (p : wparser A) K : lin K p -> lin (K + 161) (w_trimmed p).
Proof.
  intros H. eapply lin_le; [apply lin_preceded; [apply lin_sp|apply lin_terminated; [exact H|apply lin_sp]]|]. lia.
Qed.
Lemma lq_trimmed {A} (p : wparser A) K : lq K p -> lq (K + 161) (w_trimmed p).
Proof.
  intros H. eapply lq_le; [apply lq_preceded; [apply lin_sp|apply lq_terminated; [exact H|apply lin_sp|apply total_sp]]|]. lia.
Qed.

(** ** Names, interpolations, strings *)

Lemma tight_ident : tight 60 w_ident.
Proof.
  eapply tight_le; [apply tight_recognize, tight_preceded; [apply strict_tight|apply tight_many0]|];
    [do 4 (apply strict_or; [first [apply strict_tag|apply strict_while1]|]); apply strict_none..|small].
Qed.
Definition w_name : wparser str :=
  wrecognize (wpreceded walpha1 (wmany0 (walt [walphanumeric1; wtag (lit "_")]))).
Lemma tight_name : tight 22 w_name.
Proof.
  eapply tight_le; [apply tight_recognize, tight_preceded; [apply strict_tight, strict_while1|apply tight_many0]|].
  - do 2 (apply strict_or; [first [apply strict_tag|apply strict_while1]|]); apply strict_none.
  - small.
Qed.

(** [interpolation] and [string] without the blank space around them *)
Definition w_ipol : wparser str :=
  w_expect_non_empty (wdelimited (wtag (lit "${")) (w_trimmed w_name) (wtag (lit "}"))).
Definition w_str : wparser str :=
  w_expect_non_empty (wrecognize (wpreceded (wtag dquote)
    (wterminated
       (wmany0 (walt [wis_not (lit "\" ++ dquote);
                    wrecognize (wpreceded (wtag (lit "\")) wanychar)]))
       (wtag dquote)))).
Lemma interpolation_ipol : w_interpolation = w_trimmed w_ipol.
Proof. reflexivity. Qed.
Lemma string_str : w_string_p = w_trimmed w_str.
Proof. reflexivity. Qed.

Lemma ok_not_open {A} (p : wparser A) x r a w : (forall y, fst (p (ch "/" :: ch "*" :: y)) = RErr) -> p x = (ROk r a, w) -> ~ opens x.
Proof. intros H E [y ->]. specialize (H y). rewrite E in H. discriminate. Qed.

Lemma tight_ipol : tight 200 w_ipol.
Proof.
  eapply tight_le; [apply tight_non_empty, tight_preceded; [apply strict_tight, strict_tag|]|].
  2:{ instantiate (1 := 190). small. }
  intros i. unfold wterminated. rewrite trimmed_w. pose proof (tight_name (dsp i)) as H. pose proof (dsp_len i) as L.
  pose proof (spw_lin i) as S1.
  destruct (w_name (dsp i)) as [[r a| | |] w] eqn:E; cbn [wbind more]; try lia.
  destruct H as [L2 H]. pose proof (strict_tag (lit "}") (dsp r)) as H3. pose proof (dsp_len r) as L3. pose proof (spw_lin r) as S2.
  destruct (wtag (lit "}") (dsp r)) as [[r2 a2| | |] w2] eqn:E2; cbn [wbind]; change (len (lit "}")) with 1 in H3; try lia.
  destruct H3 as [L4 H3]. split; [lia|].
  assert (N1 : ~ opens (dsp i)).
  { eapply ok_not_open; [|exact E]. intros y. reflexivity. }
  assert (N2 : ~ opens (dsp r)).
  { eapply ok_not_open; [|exact E2]. intros y. reflexivity. }
  destruct (spw_fine i) as [F1|]; [|easy]. destruct (spw_fine r) as [F2|]; [|easy]. lia.
Qed.
Lemma tight_str : tight 60 w_str.
Proof.
  eapply tight_le; [apply tight_non_empty, tight_recognize, tight_preceded; [apply strict_tight, strict_tag|]|].
  - apply tight_terminated; [|apply strict_tight, strict_tag]. apply tight_many0.
    apply strict_or; [apply strict_while1|]. apply strict_or; [|apply strict_none].
    apply strict_recognize, strict_preceded_tag, strict_anychar.
  - small.
Qed.

(** ** Values *)

Definition w_value_item : wparser str :=
  walt [wis_not (lit "${;}/" ++ dquote);
        wrecognize w_interpolation;
        w_string_p;
        wrecognize (wpreceded (wtag (lit "/")) (wnone_of (lit "${;}" ++ dquote ++ lit "*")))].

(** Here no more of a list of declarations is read. *)
Definition ends (x : str) : Prop :=
  match x with c :: _ => c = ch "$" \/ c = 34 \/ c = ch "/" | [] => False end.

Lemma opens_ends x : opens x -> ends x.
Proof. intros [y ->]. cbn. auto. Qed.

Lemma ipol_no x : match x with c :: _ => c <> ch "$" | [] => True end -> exists w, w_ipol x = (RErr, w) /\ w <= 4.
Proof.
  destruct x as [|c x]; intros H; [exists 1; split; [reflexivity|lia]|].
  exists 4. split; [|lia]. unfold w_ipol, w_expect_non_empty, wdelimited, wpreceded, wtag.
  rewrite (tag_err (ch "$") (lit "{")) by exact H. reflexivity.
Qed.
Lemma str_no x : match x with c :: _ => c <> 34 | [] => True end -> exists w, w_str x = (RErr, w) /\ w <= 4.
Proof.
  destruct x as [|c x]; intros H; [exists 1; split; [reflexivity|lia]|].
  exists 3. split; [|lia]. unfold w_str, w_expect_non_empty, wrecognize, wpreceded, wtag.
  rewrite (tag_err 34%N []) by exact H. reflexivity.
Qed.

Lemma item_lin : lin 1000 w_value_item.
Proof.
  eapply lin_le; [apply lin_or; [apply strict_lin, strict_while1|]|].
  - apply lin_or; [apply lin_recognize, lin_trimmed, tight_lin, tight_ipol|].
    apply lin_or; [apply lin_trimmed, tight_lin, tight_str|].
    apply lin_or; [|apply strict_lin, strict_none].
    apply strict_lin, strict_recognize, strict_preceded_tag, strict_none_of.
  - small.
Qed.

(** What an item costs that is read. *)
Lemma item_ok i r a w : w_value_item i = (ROk r a, w) ->
  w <= 1000 * (len i - len r + 1) \/ (opens r /\ dsp r = r).
Proof.
  unfold w_value_item. cbn [walt]. pose proof (strict_while1 (fun c => negb (mem c (lit "${;}/" ++ dquote))) i) as H1.
  change (wwhile1 (fun c => negb (mem c (lit "${;}/" ++ dquote)))) with (wis_not (lit "${;}/" ++ dquote)) in H1.
  destruct (wis_not (lit "${;}/" ++ dquote) i) as [[r1 a1| | |] w1]; try discriminate.
  { intros E. pose proof (f_equal snd E) as Ew. apply (f_equal fst) in E. cbn [fst snd] in E, Ew. injection E as -> _. left. lia. }
  unfold wrecognize at 1. rewrite interpolation_ipol, string_str, !trimmed_w. pose proof (dsp_len i) as L.
  pose proof (tight_ipol (dsp i)) as Hi. pose proof (tight_str (dsp i)) as Hs.
  destruct (w_ipol (dsp i)) as [[r2 a2| | |] w2] eqn:Ei; cbn [wbind more]; try discriminate.
  { intros E. pose proof (f_equal snd E) as Ew. apply (f_equal fst) in E. cbn [fst snd] in E, Ew. injection E as <- _.
    destruct Hi as [L2 Hi]. pose proof (dsp_len r2) as L3.
    assert (N1 : ~ opens (dsp i)).
    { eapply ok_not_open; [|exact Ei]. intros y. reflexivity. }
    destruct (spw_fine i) as [F1|]; [|easy]. destruct (spw_fine r2) as [F2|F2]; [left; lia|right]. split; auto. apply dsp_idem. }
  destruct (w_str (dsp i)) as [[r2 a2| | |] w3] eqn:Es; cbn [wbind more]; try discriminate.
  { intros E. pose proof (f_equal snd E) as Ew. apply (f_equal fst) in E. cbn [fst snd] in E, Ew. injection E as <- _.
    destruct Hs as [L2 Hs]. pose proof (dsp_len r2) as L3.
    assert (N1 : ~ opens (dsp i)).
    { eapply ok_not_open; [|exact Es]. intros y. reflexivity. }
    assert (W2 : w2 <= 4).
    { destruct (ipol_no (dsp i)) as (x & Ex & Hx); [|rewrite Ex in Ei; injection Ei as <-; exact Hx].
      destruct (dsp i) as [|c y]; auto. intros ->. destruct (str_no (ch "$" :: y)) as (x & Ex & _); [discriminate|].
      rewrite Ex in Es. discriminate. }
    destruct (spw_fine i) as [F1|]; [|easy]. destruct (spw_fine r2) as [F2|F2]; [left; lia|right]. split; auto. apply dsp_idem. }
  set (q := wrecognize (wpreceded (wtag (lit "/")) (wnone_of (lit "${;}" ++ dquote ++ lit "*")))) in *.
  assert (Hq : strict 5 q).
  { eapply strict_le; [apply strict_recognize, strict_preceded_tag, strict_none_of|small]. }
  specialize (Hq i). destruct (q i) as [[r4 a4| | |] w4] eqn:Eq; cbn [more]; try discriminate.
  intros E. pose proof (f_equal snd E) as Ew. apply (f_equal fst) in E. cbn [fst snd] in E, Ew. injection E as <- _.
  assert (Sl : solid i /\ exists y, i = ch "/" :: y).
  { assert (Hw : wera q (recognize (preceded (tag (lit "/")) (none_of (lit "${;}" ++ dquote ++ lit "*"))))) by (unfold q; auto 10 with wera).
    specialize (Hw i). rewrite Eq in Hw. cbn [fst] in Hw. symmetry in Hw. apply bind_ok in Hw as (r5 & b & Hw & _).
    apply bind_ok in Hw as (r6 & t & Ht & Hw). apply sound_tag in Ht as (u & -> & -> & _).
    apply sound_none_of in Hw as (u & -> & -> & Hn). cbn. split; [|eauto]. split.
    - intros [X|[X|[X|[X|X]]]]; try discriminate X. destruct X.
    - intros _ ->. apply Hn. cbn. tauto. }
  destruct Sl as [Sl [y Ey]]. apply dsp_solid in Sl. rewrite Sl in *.
  destruct (ipol_no i) as (x & Ex & Hx); [rewrite Ey; discriminate|]. rewrite Ex in Ei. injection Ei as <-.
  destruct (str_no i) as (x' & Ex' & Hx'); [rewrite Ey; discriminate|]. rewrite Ex' in Es. injection Es as <-.
  assert (N1 : ~ opens i).
  { intros [z Ez]. unfold q in Eq. rewrite Ez in Eq. discriminate. }
  destruct Hq as [L4 Hq]. destruct (spw_fine i) as [F1|F1]; rewrite Sl in F1; [|easy]. left. lia.
Qed.

(** What an item costs that is not read. *)
Lemma item_err i w : w_value_item i = (RErr, w) -> w <= 1000 * (len i - len (dsp i) + 1) \/ ends (dsp i).
Proof.
  intros E. destruct (dsp i) as [|c x] eqn:Ed.
  2: destruct (N.eq_dec c (ch "$")) as [->|N1]; [right; cbn; auto|];
     destruct (N.eq_dec c 34) as [->|N2]; [right; cbn; auto|];
     destruct (N.eq_dec c (ch "/")) as [->|N3]; [right; cbn; auto|].
  all: left; revert E; unfold w_value_item; cbn [walt];
    pose proof (strict_while1 (fun c => negb (mem c (lit "${;}/" ++ dquote))) i) as H1;
    change (wwhile1 (fun c => negb (mem c (lit "${;}/" ++ dquote)))) with (wis_not (lit "${;}/" ++ dquote)) in H1;
    destruct (wis_not (lit "${;}/" ++ dquote) i) as [[r1 a1| | |] w1]; try discriminate;
    unfold wrecognize at 1; rewrite interpolation_ipol, string_str, !trimmed_w;
    set (q := wrecognize (wpreceded (wtag (lit "/")) (wnone_of (lit "${;}" ++ dquote ++ lit "*")))) in *;
    assert (Hq : strict 5 q) by (eapply strict_le; [apply strict_recognize, strict_preceded_tag, strict_none_of|small]);
    specialize (Hq i).
  - destruct (ipol_no (dsp i)) as (x & Ex & Hx); [now rewrite Ed|]. destruct (str_no (dsp i)) as (y & Ey & Hy); [now rewrite Ed|].
    rewrite Ex, Ey. cbn [wbind more]. destruct (q i) as [[r4 a4| | |] w4]; cbn [more]; try discriminate. intros E.
    apply (f_equal snd) in E. cbn [snd] in E.
    destruct (spw_fine i) as [F|[z F]]; rewrite Ed in F; [|discriminate]. lia.
  - destruct (ipol_no (dsp i)) as (x' & Ex & Hx); [now rewrite Ed|]. destruct (str_no (dsp i)) as (y & Ey & Hy); [now rewrite Ed|].
    rewrite Ex, Ey. cbn [wbind more]. destruct (q i) as [[r4 a4| | |] w4]; cbn [more]; try discriminate. intros E.
    apply (f_equal snd) in E. cbn [snd] in E.
    destruct (spw_fine i) as [F|[z F]]; rewrite Ed in F; [|injection F as -> _; easy]. lia.
Qed.

(** At a comment without an end nothing is read. *)
Lemma item_open r : opens r -> dsp r = r -> fst (w_value_item r) = RErr.
Proof.
  intros [y Ey] D. unfold w_value_item. cbn [walt].
  replace (wis_not (lit "${;}/" ++ dquote) r) with (@RErr str, 2) by (rewrite Ey; reflexivity).
  cbv beta iota. unfold wrecognize at 1. rewrite interpolation_ipol, string_str, !trimmed_w, D.
  destruct (ipol_no r) as (x & Ex & Hx); [rewrite Ey; discriminate|].
  destruct (str_no r) as (x' & Ex' & Hx'); [rewrite Ey; discriminate|]. rewrite Ex, Ex'. cbn [wbind more].
  rewrite Ey. reflexivity.
Qed.

Lemma value_loop n : forall i, match wmany0_fuel n w_value_item i with
  | (ROk r _, w) => len r <= len i /\ w <= 2100 * (len i + 1)
                    /\ (w <= 2100 * (len i - len (dsp r) + 1) \/ ends (dsp r))
  | (_, w) => w <= 2100 * (len i + 1)
  end.
Proof.
  induction n as [|n IH]; intros i; cbn [wmany0_fuel]; [lia|].
  pose proof (item_lin i) as Hl. pose proof (item_ok i) as Ho. pose proof (item_err i) as He. pose proof (dsp_len i) as Ld.
  destruct (w_value_item i) as [[r1 a1| | |] w1] eqn:E; try lia.
  - destruct Hl as [L Hl]. destruct (Nat.eqb _ _) eqn:En; [lia|]. apply len_neq in En.
    destruct (Ho _ _ _ eq_refl) as [H|[O D]].
    + specialize (IH r1). destruct (wmany0_fuel n w_value_item r1) as [[r l| | |] w]; cbn [wbind more]; try lia.
      destruct IH as (L2 & B & C). pose proof (dsp_len r). split; [lia|]. split; [lia|]. destruct C as [C|C]; [left; lia|auto].
    + destruct n as [|n]; cbn [wmany0_fuel wbind more]; [lia|].
      pose proof (item_open r1 O D) as Hr. pose proof (item_lin r1) as Hl1.
      destruct (w_value_item r1) as [x w2]. cbn [fst] in Hr. subst x. cbn [wbind more].
      split; [lia|]. split; [lia|]. right. rewrite D. now apply opens_ends.
  - split; [lia|]. split; [lia|]. destruct (He _ eq_refl) as [H|H]; [left; lia|auto].
Qed.

(** Linear work, and work for what is read unless no more declaration can follow. *)
Definition endy K {A} (p : wparser A) : Prop := forall i,
  match p i with
  | (ROk r _, w) => len r <= len i /\ w <= K * (len i + 1) /\ dsp r = r /\ (w <= K * (len i - len r + 1) \/ ends r)
  | (_, w) => w <= K * (len i + 1)
  end.

Lemma value_many1 i : match wmany1 w_value_item i with
  | (ROk r _, w) => len r <= len i /\ w <= 5000 * (len i + 1)
                    /\ (w <= 5000 * (len i - len (dsp r) + 1) \/ ends (dsp r)) /\ (opens i -> dsp i <> i)
  | (_, w) => w <= 5000 * (len i + 1)
  end.
Proof.
  unfold wmany1. pose proof (item_lin i) as Hl. pose proof (item_ok i) as Ho. pose proof (item_open i) as Hp.
  destruct (w_value_item i) as [[r1 a1| | |] w1] eqn:E; cbn [wbind]; try lia. destruct Hl as [L Hl].
  unfold wmany0. pose proof (value_loop (S (List.length r1)) r1) as IH.
  assert (Np : opens i -> dsp i <> i) by (intros O D; specialize (Hp O D); discriminate).
  destruct (Ho _ _ _ eq_refl) as [H|[O D]].
  - destruct (wmany0_fuel _ w_value_item r1) as [[r l| | |] w]; cbn [wbind]; try lia.
    destruct IH as (L2 & B & C). pose proof (dsp_len r). split; [lia|]. split; [lia|]. split; auto. destruct C as [C|C]; [left; lia|auto].
  - clear IH. cbn [wmany0_fuel].
    pose proof (item_open r1 O D) as Hr. pose proof (item_lin r1) as Hl1.
    destruct (w_value_item r1) as [x w2]. cbn [fst] in Hr. subst x. cbn [wbind more].
    split; [lia|]. split; [lia|]. split; auto. right. rewrite D. now apply opens_ends.
Qed.

Lemma value_endy : endy 5200 w_style_attr_value.
Proof.
  intros i. unfold w_style_attr_value. fold w_value_item. rewrite trimmed_w. unfold wmap, wrecognize.
  pose proof (value_many1 (dsp i)) as H. pose proof (dsp_len i) as L. pose proof (spw_lin i) as S1.
  destruct (wmany1 w_value_item (dsp i)) as [[r l| | |] w]; cbn [wbind more]; try lia.
  destruct H as (L2 & B & C & O). pose proof (dsp_len r) as L3. pose proof (spw_lin r) as S2.
  split; [lia|]. split; [lia|]. split; [apply dsp_idem|]. rewrite dsp_idem in O.
  destruct (spw_fine i) as [F1|F1]; [|destruct (O F1); reflexivity]. destruct (spw_fine r) as [F2|F2]; [|right; now apply opens_ends].
  destruct C as [C|C]; [left; lia|auto].
Qed.

Lemma attribute_endy : endy 6000 w_attribute.
Proof.
  intros i. unfold w_attribute. rewrite trimmed_w. pose proof (dsp_len i) as L. pose proof (spw_lin i) as S1. pose proof (spw_fine i) as F1.
  pose proof (dsp_idem i) as Di. destruct (dsp i) as [|c x] eqn:Ed; cbn [w_expect_non_empty more wbind]; [lia|]. rewrite <- Ed in *. clear Ed.
  unfold wmap, wseparated_pair, wpair, w_style_attr_key. rewrite trimmed_w, Di.
  pose proof (spw_lin (dsp i)) as S2. pose proof (spw_fine (dsp i)) as F2. rewrite Di in F2.
  pose proof (tight_ident (dsp i)) as Hk. destruct (w_ident (dsp i)) as [[r1 k| | |] w1] eqn:Ek; cbn [wbind more]; try lia.
  destruct Hk as [L1 Hk].
  assert (N1 : ~ opens (dsp i)) by (eapply ok_not_open; [|exact Ek]; intros y; reflexivity).
  destruct F1 as [F1|]; [|easy]. destruct F2 as [F2|]; [|easy].
  pose proof (dsp_len r1) as L2. pose proof (spw_lin r1) as S3. unfold wpreceded.
  pose proof (strict_tag (lit ":") (dsp r1)) as Hc. change (1 + len (lit ":")) with 2 in Hc.
  destruct (wtag (lit ":") (dsp r1)) as [[r2 t| | |] w2] eqn:Et; cbn [wbind more]; try lia.
  assert (N2 : ~ opens (dsp r1)) by (eapply ok_not_open; [|exact Et]; intros y; reflexivity).
  destruct (spw_fine r1) as [F3|]; [|easy]. destruct Hc as [L3 Hc].
  pose proof (value_endy r2) as Hv. destruct (w_style_attr_value r2) as [[r3 v| | |] w3] eqn:Ev; cbn [wbind more]; try lia.
  destruct Hv as (L4 & B & D & C). rewrite D. pose proof (spw_lin r3) as S4. pose proof (spw_fine r3) as F4. rewrite D in F4.
  split; [lia|]. split; [lia|]. split; auto.
  destruct C as [C|C]; auto. destruct F4 as [F4|F4]; [left; lia|right; now apply opens_ends].
Qed.

Lemma ends_sep x : ends x -> fst (wtag (lit ";") x) = RErr.
Proof. intros H. unfold wtag. cbn [fst]. apply tag_err. destruct x as [|c x]; auto. intros ->. destruct H as [H|[H|H]]; discriminate H. Qed.

Lemma sep_lin n : forall i, match wsep_fuel n (wtag (lit ";")) w_attribute i with
  | (ROk r _, w) => len r <= len i /\ w <= 12100 * (len i + 1)
  | (_, w) => w <= 12100 * (len i + 1)
  end.
Proof.
  induction n as [|n IH]; intros i; cbn [wsep_fuel]; [lia|].
  pose proof (strict_tag (lit ";") i) as Ht. change (1 + len (lit ";")) with 2 in Ht.
  destruct (wtag (lit ";") i) as [[r1 t| | |] w1] eqn:Et; try lia. destruct Ht as [L Ht].
  destruct (Nat.eqb _ _) eqn:En; [lia|]. apply len_neq in En.
  pose proof (attribute_endy r1) as Ha. destruct (w_attribute r1) as [[r2 a| | |] w2]; try lia.
  destruct Ha as (L2 & B & D & C). destruct C as [C|C].
  - specialize (IH r2). destruct (wsep_fuel n _ w_attribute r2) as [[r l| | |] w]; cbn [wbind more]; lia.
  - destruct n as [|n]; cbn [wsep_fuel wbind more]; [lia|]. apply ends_sep in C.
    pose proof (strict_tag (lit ";") r2) as Ht2. change (1 + len (lit ";")) with 2 in Ht2.
    destruct (wtag (lit ";") r2) as [x w3]. cbn [fst] in C. subst x. cbn [wbind more]. lia.
Qed.

Lemma attributes_lin d : lin 19000 (w_attributes d).
Proof.
  eapply lin_le; [apply lin_trimmed, lin_non_empty, lin_terminated|].
  - instantiate (1 := 18200). intros i. unfold wseparated_list1. pose proof (attribute_endy i) as Ha.
    destruct (w_attribute i) as [[r1 a| | |] w1]; cbn [wbind]; try lia. destruct Ha as (L & B & _).
    pose proof (sep_lin (S (List.length r1)) r1) as Hs.
    destruct (wsep_fuel _ (wtag (lit ";")) w_attribute r1) as [[r l| | |] w]; cbn [wbind]; lia.
  - apply lin_preceded; [apply lin_opt, lin_sp|]. instantiate (1 := 3).
    destruct d; [apply (lin_map _ _ 2)|apply (lin_opt _ 2)]; apply strict_lin, strict_tag.
  - small.
Qed.
