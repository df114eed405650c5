(** * WLow: texts that do need quadratic work. *)

From Coq Require Import String Ascii List NArith Bool Arith Lia.
From Verif Require Import Str StrFacts Ast Nom CssParser ParserLex WNom WParser WFacts WBound WFlat.
Import ListNotations.
Local Open Scope list_scope.
Local Open Scope N_scope.

(** A string, and the start of a comment that never ends, [n] times *)
Definition piece : str := dquote ++ lit "x" ++ dquote ++ lit "/*".
Fixpoint hard (n : nat) : str := match n with O => [] | S n => piece ++ hard n end.

Lemma hard_len n : len (hard n) = 5 * N.of_nat n.
Proof. induction n; auto. cbn [hard]. rewrite len_app, IHn. change (len piece) with 5. lia. Qed.

(** ** A parser works at least as much as what it calls *)
Lemma bind_ge {A B} (x : res A * N) (f : str -> A -> res B * N) : snd x <= snd (wbind x f).
Proof. destruct x as [[r a| | |] w]; cbn [wbind snd]; try lia. destruct (f r a). cbn [snd]. lia. Qed.
Lemma more_ge {A} w (x : res A * N) : snd x <= snd (more w x).
Proof. destruct x. cbn [more snd]. lia. Qed.
Lemma alt_ge {A} (p : wparser A) ps i : snd (p i) <= snd (walt (p :: ps) i).
Proof. cbn [walt]. destruct (p i) as [[r a| | |] w]; cbn [snd]; try lia. destruct (walt ps i). cbn [more snd]. lia. Qed.
Lemma alt_next {A} (p : wparser A) ps i : fst (p i) = RErr -> snd (walt ps i) <= snd (walt (p :: ps) i).
Proof. cbn [walt]. destruct (p i) as [[r a| | |] w]; cbn [fst]; try discriminate. intros _. destruct (walt ps i). cbn [more snd]. lia. Qed.
Lemma many0_ge {A} (p : wparser A) i : snd (p i) <= snd (wmany0 p i).
Proof. unfold wmany0. cbn [wmany0_fuel]. destruct (p i) as [[r a| | |] w]; cbn [snd]; try lia. destruct (Nat.eqb _ _); cbn [snd]; [lia|].
  destruct (wmany0_fuel _ _ r) as [[] ?]; cbn [wbind more snd]; lia. Qed.
Lemma trimmed_ge {A} (p : wparser A) i : snd (p (dsp i)) <= snd (w_trimmed p i).
Proof. rewrite trimmed_w. destruct (p (dsp i)) as [[r a| | |] w]; cbn [wbind more snd]; lia. Qed.
Lemma non_empty_ge {A} (p : wparser A) c i : snd (p (c :: i)) <= snd (w_expect_non_empty p (c :: i)).
Proof. cbn [w_expect_non_empty]. apply more_ge. Qed.

(** ** A comment that never ends is read to the end *)
Definition cmt_item : wparser str := walt [wis_not (lit "*"); wterminated (wtag (lit "*")) (wnot (wchar (ch "/")))].
Lemma cmt_item_1 k : exists w, cmt_item (hard (S k)) = (ROk (ch "*" :: hard k) (dquote ++ lit "x" ++ dquote ++ lit "/"), w).
Proof. eexists. reflexivity. Qed.
Lemma cmt_item_2 k : exists w, cmt_item (ch "*" :: hard k) = (ROk (hard k) (lit "*"), w).
Proof. destruct k; eexists; reflexivity. Qed.
Lemma len_neq k : Nat.eqb (List.length (ch "*" :: hard k)) (List.length (hard (S k))) = false.
Proof. apply Nat.eqb_neq. cbn. lia. Qed.
Lemma len_neq2 c k : Nat.eqb (List.length (hard k)) (List.length (c :: hard k)) = false.
Proof. apply Nat.eqb_neq. cbn. lia. Qed.

Lemma cmt_loop k n : (2 * k < n)%nat -> exists l w, wmany0_fuel n cmt_item (hard k) = (ROk [] l, w).
Proof.
  revert n. induction k as [|k IH]; intros n L.
  - destruct n; [lia|]. cbn. eauto.
  - do 2 (destruct n; [lia|]). destruct (IH n ltac:(lia)) as (l & w & E).
    destruct (cmt_item_1 k) as (w1 & E1). destruct (cmt_item_2 k) as (w2 & E2).
    remember (hard (S k)) as H. cbn [wmany0_fuel]. rewrite E1. subst H. rewrite len_neq, E2, len_neq2, E.
    cbn [wbind more]. eauto.
Qed.
Lemma cmt_hard k : exists w, w_cmt (lit "/*" ++ hard k) = (RErr, w) /\ len (hard k) <= w.
Proof.
  unfold w_cmt. fold cmt_item. unfold wdelimited, wpreceded.
  change (wtag (lit "/*") (lit "/*" ++ hard k)) with (@ROk str (hard k) (lit "/*"), 3). cbn [wbind].
  unfold wterminated, wrecognize, wmany0.
  destruct (cmt_loop k (S (List.length (hard k)))) as (l & w & ->).
  { pose proof (hard_len k) as H. unfold len in H. lia. }
  cbn [wbind]. change (wtag (lit "*/") []) with (@RErr str, 3). cbn [wbind]. eexists. split; [reflexivity|].
  change (len []) with 0. lia.
Qed.
Lemma sp_hard k : dsp (lit "/*" ++ hard k) = lit "/*" ++ hard k /\ len (hard k) <= spw (lit "/*" ++ hard k).
Proof.
  destruct (cmt_hard k) as (w & E & L).
  assert (Ei : exists w', w_sp_item (lit "/*" ++ hard k) = (RErr, w') /\ len (hard k) <= w').
  { unfold w_sp_item. cbn [walt]. rewrite E.
    change (wwhile1 (fun c => mem c sp_chars) (lit "/*" ++ hard k)) with (@RErr str, 2). cbn [more]. eexists. split; [reflexivity|]. lia. }
  destruct Ei as (w' & Ei & L').
  assert (Es : exists a w2, w_sp (lit "/*" ++ hard k) = (ROk (lit "/*" ++ hard k) a, w2) /\ len (hard k) <= w2).
  { unfold w_sp. fold w_sp_item. unfold wrecognize, wmany0. cbn [wmany0_fuel]. rewrite Ei. cbn [wbind].
    do 2 eexists. split; [reflexivity|]. lia. }
  destruct Es as (a & w2 & Es & L2). destruct (sp_run (lit "/*" ++ hard k)) as (a' & Es'). rewrite Es in Es'.
  split. { apply (f_equal fst) in Es'. cbn [fst] in Es'. congruence. } apply (f_equal snd) in Es'. cbn [snd] in Es'. lia.
Qed.
Lemma dsp_quote x : dsp (34 :: x) = 34 :: x.
Proof. apply dsp_stop. reflexivity. Qed.
Lemma hard_S k : hard (S k) = 34 :: 120 :: 34 :: lit "/*" ++ hard k.
Proof. reflexivity. Qed.

(** ** Each string of a selector reads it again *)
Definition sel_item : wparser str :=
  walt [wrecognize (wpreceded (wnone_of (lit "$,}@{" ++ dquote)) (wopt (wis_not (lit "$," ++ dquote ++ lit "{"))));
        w_string_p; wrecognize w_interpolation].
Lemma string_hard k : exists a w, w_string_p (hard (S k)) = (ROk (lit "/*" ++ hard k) a, w) /\ len (hard k) <= w.
Proof.
  rewrite string_str, trimmed_w, hard_S, dsp_quote.
  assert (E : exists a w, w_str (34 :: 120 :: 34 :: lit "/*" ++ hard k) = (ROk (lit "/*" ++ hard k) a, w)).
  { unfold w_str. cbn [w_expect_non_empty]. unfold wrecognize at 1.
    set (X := lit "/*" ++ hard k). unfold wpreceded at 1. change (wtag dquote (34 :: 120 :: 34 :: X)) with (@ROk str (120 :: 34 :: X) dquote, 2).
    cbn [wbind]. unfold wterminated, wmany0. set (q := walt _).
    assert (E1 : exists w, q (120 :: 34 :: X) = (ROk (34 :: X) (lit "x"), w)) by (eexists; reflexivity).
    assert (E2 : exists w, q (34 :: X) = (RErr, w)) by (eexists; reflexivity).
    destruct E1 as (w1 & E1). destruct E2 as (w2 & E2).
    assert (N1 : Nat.eqb (List.length (34 :: X)) (List.length (120 :: 34 :: X)) = false) by (apply Nat.eqb_neq; cbn; lia).
    assert (El : exists l w, wmany0_fuel (S (List.length (120 :: 34 :: X))) q (120 :: 34 :: X) = (ROk (34 :: X) l, w)).
    { change (List.length (120 :: 34 :: X)) with (S (List.length (34 :: X))) at 1. cbn [wmany0_fuel]. rewrite E1, N1, E2. cbn [wbind more]. eauto. }
    destruct El as (l & w & ->). cbn [wbind]. change (wtag dquote (34 :: X)) with (@ROk str X dquote, 2). cbn [wbind more]. eauto. }
  destruct E as (a & w & ->). cbn [wbind more]. destruct (sp_hard k) as (-> & L). do 2 eexists. split; [reflexivity|]. lia.
Qed.
Lemma sel_item_1 k : exists a w, sel_item (hard (S k)) = (ROk (lit "/*" ++ hard k) a, w) /\ len (hard k) + 1 <= w.
Proof.
  destruct (string_hard k) as (a & w & E & L). unfold sel_item. cbn [walt]. rewrite E.
  rewrite hard_S. change (wrecognize _ (34 :: _)) with (@RErr str, 2). cbn [more]. do 2 eexists. split; [reflexivity|]. lia.
Qed.
Lemma sel_item_2 k : exists a w, sel_item (lit "/*" ++ hard k) = (ROk (hard k) a, w).
Proof.
  unfold sel_item. cbn [walt]. unfold wrecognize at 1. set (p := wpreceded _ _).
  assert (E : exists a w, p (lit "/*" ++ hard k) = (ROk (hard k) a, w)) by (destruct k; do 2 eexists; reflexivity).
  destruct E as (a & w & ->). cbn [wbind more]. eauto.
Qed.
Lemma sel_item_nil : exists w, sel_item [] = (RErr, w).
Proof. eexists. reflexivity. Qed.

Lemma sel_loop k n : (2 * k < n)%nat -> exists l w, wmany0_fuel n sel_item (hard k) = (ROk [] l, w)
  /\ N.of_nat k * N.of_nat k <= w.
Proof.
  revert n. induction k as [|k IH]; intros n L.
  - destruct n; [lia|]. destruct sel_item_nil as (w & E). cbn [wmany0_fuel hard]. rewrite E. do 2 eexists. split; [reflexivity|]. lia.
  - do 2 (destruct n; [lia|]). destruct (IH n ltac:(lia)) as (l & w & E & Lw).
    destruct (sel_item_1 k) as (a1 & w1 & E1 & L1). destruct (sel_item_2 k) as (a2 & w2 & E2).
    remember (hard (S k)) as H eqn:EH. cbn [wmany0_fuel]. rewrite E1.
    assert (N1 : Nat.eqb (List.length (lit "/*" ++ hard k)) (List.length H) = false) by (subst H; apply Nat.eqb_neq; cbn; lia).
    assert (N2 : Nat.eqb (List.length (hard k)) (List.length (lit "/*" ++ hard k)) = false) by (apply Nat.eqb_neq; cbn; lia).
    rewrite N1, E2, N2, E. cbn [wbind more]. do 2 eexists. split; [reflexivity|]. rewrite hard_len in L1. nia.
Qed.

Lemma selector_hard k : N.of_nat k * N.of_nat k <= snd (w_selector_p (hard (S k))).
Proof.
  unfold w_selector_p. fold sel_item. etransitivity; [|apply trimmed_ge]. rewrite hard_S, dsp_quote.
  etransitivity; [|apply non_empty_ge]. rewrite <- hard_S. unfold wmap. etransitivity; [|apply bind_ge].
  unfold wrecognize. etransitivity; [|apply bind_ge]. unfold wmany1.
  destruct (sel_item_1 k) as (a1 & w1 & -> & L1). cbn [wbind]. 
  destruct (sel_item_2 k) as (a2 & w2 & E2). unfold wmany0. remember (List.length (lit "/*" ++ hard k)) as m. cbn [wmany0_fuel].
  rewrite E2. assert (N2 : Nat.eqb (List.length (hard k)) (List.length (lit "/*" ++ hard k)) = false) by (apply Nat.eqb_neq; cbn; lia).
  rewrite N2. destruct (sel_loop k m) as (l & w & -> & L).
  { pose proof (hard_len k) as H. unfold len in H. subst m. rewrite app_length. cbn [lit List.length]. cbn. lia. }
  cbn [wbind more snd]. lia.
Qed.

Lemma hard_work n : N.of_nat n * N.of_nat n <= work (hard (S n)).
Proof.
  unfold work, w_parse. set (i := hard (S n)).
  assert (D : dsp i = i) by apply dsp_quote.
  assert (H : N.of_nat n * N.of_nat n <= snd (w_sheet_p (S (S (List.length i))) i)).
  { unfold w_sheet_p. etransitivity; [|apply trimmed_ge]. rewrite D. unfold wmap. etransitivity; [|apply bind_ge].
    etransitivity; [|apply many0_ge]. unfold w_scope. etransitivity; [|apply trimmed_ge]. rewrite D.
    etransitivity; [|apply non_empty_ge].
    change (34 :: _) with i. set (d := S (List.length i)).
    change (w_scope_contents (S d)) with (w_trimmed (w_expect_non_empty
        (wmany0 (walt [w_dangling_block; w_block d; w_at_rule_with (w_scope_contents d); w_keyframes d])))).
    etransitivity; [|apply trimmed_ge]. rewrite D. etransitivity; [|apply non_empty_ge]. change (34 :: _) with i.
    etransitivity; [|apply many0_ge]. etransitivity; [|apply alt_next].
    2:{ rewrite (wera_dangling i). reflexivity. }
    etransitivity; [|apply alt_ge]. unfold w_block. etransitivity; [|apply trimmed_ge]. rewrite D.
    etransitivity; [|apply non_empty_ge]. change (34 :: _) with i. unfold wmap. etransitivity; [|apply bind_ge].
    unfold wpair. etransitivity; [|apply bind_ge]. unfold w_condition. etransitivity; [|apply trimmed_ge]. rewrite D.
    etransitivity; [|apply non_empty_ge]. change (34 :: _) with i. unfold wmany1. etransitivity; [|apply bind_ge].
    unfold wterminated. etransitivity; [|apply bind_ge]. apply selector_hard. }
  destruct (w_sheet_p _ i) as [[] w]; exact H.
Qed.
