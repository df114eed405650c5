(** * ReparseWritten: sheets written in the grammar can be rendered and read back (C13). *)

From Coq Require Import String Ascii List NArith Bool Arith Lia.
From Verif Require Import ParserTokens ParserSel ParserComplete.
From Verif Require Import Str StrFacts Ast SpecSays SpecGrammar SpecReparse.
From Verif Require Import SpecRender RenderFacts Reparse.
Import ListNotations.
Local Open Scope list_scope.

Definition dollar_free (t : str) : Prop := ~ In (ch "$") t.

Lemma dollar_free_app a b : dollar_free (a ++ b) <-> dollar_free a /\ dollar_free b.
Proof. unfold dollar_free. rewrite in_app_iff. tauto. Qed.

Lemma string_body_scan b : string_body b -> forall r, sel_scan SIn (b ++ r) = sel_scan SIn r.
Proof.
  induction 1 as [|c b H1 H2 H IH|c b H IH]; intros r; [easy| |]; cbn [app sel_scan sel_step].
  - apply char_eqb_neq in H1, H2. rewrite H2. change backslash with 92%N. rewrite H1. apply IH.
  - apply IH.
Qed.

Lemma sel_text_scan s : sel_text s -> dollar_free s -> sel_scan SOut s = Some SOut.
Proof.
  induction 1 as [|c v N H IH|c v N H IH|s v A H IH]; intros D; [easy| | |].
  - cbn [sel_scan sel_step]. rewrite in_app_iff in N.
    assert (E1 : char_eqb c 34 = false) by (apply char_eqb_neq; intros ->; apply N; cbn; auto 20).
    assert (E2 : mem c (lit "$,{}@;") = false) by (apply mem_not_In; cbn in N |- *; tauto).
    assert (E3 : char_eqb c (ch "/") = false) by (apply char_eqb_neq; intros ->; apply N; cbn; auto 20).
    rewrite E1, E3, E2. apply IH. intros K. apply D. now right.
  - change (match sel_step SSlash c with Some m => sel_scan m v | None => None end = Some SOut). cbn [sel_step].
    apply mem_not_In in N. rewrite N. apply IH. intros K. apply D. right. now right.
  - apply dollar_free_app in D as [D1 D2]. destruct A as [(b & -> & B)|(w & n & w' & -> & _)].
    + rewrite <- !app_assoc. change (sel_scan SOut ([34%N] ++ b ++ [34%N] ++ v)) with (sel_scan SIn (b ++ [34%N] ++ v)).
      rewrite string_body_scan by easy. cbn [app sel_scan sel_step]. auto.
    + exfalso. apply D1. now left.
Qed.

Lemma written_sels_good t l : writes_sels t l -> dollar_free t ->
  Forall (fun s => good_selector (List.concat s)) l.
Proof.
  induction 1 as [w s v B S T V|w s v t l B S T V W IH]; intros D.
  - rewrite !dollar_free_app in D. constructor; [|constructor]. cbn [List.concat]. rewrite app_nil_r.
    split; [|easy]. now apply sel_text_scan.
  - rewrite !dollar_free_app in D. constructor; [|now apply IH]. cbn [List.concat]. rewrite app_nil_r.
    split; [|easy]. now apply sel_text_scan.
Qed.

Lemma ws_tail_unique a b v v' :
  a <> [] -> b <> [] -> ends_ok a -> ends_ok b -> ws v -> ws v' -> a ++ v = b ++ v' -> a = b.
Proof.
  intros Ha Hb Ea Eb. revert v'. induction v as [|x v IH] using rev_ind; intros v' Hv Hv' E.
  - rewrite app_nil_r in E. destruct v' as [|y v'] using rev_ind; [now rewrite app_nil_r in E|].
    exfalso. rewrite app_assoc in E. apply Forall_app in Hv' as [_ Hv']. inversion_clear Hv' as [|? ? K _].
    apply css_ws_uni in K. now rewrite (Ea _ _ E) in K.
  - apply Forall_app in Hv as [Hv Hx]. inversion_clear Hx as [|? ? K _].
    destruct v' as [|y v' _] using rev_ind.
    + exfalso. rewrite app_nil_r in E. symmetry in E. rewrite app_assoc in E. apply css_ws_uni in K.
      now rewrite (Eb _ _ E) in K.
    + rewrite !app_assoc in E. apply app_inj_tail in E as [E _]. apply Forall_app in Hv' as [Hv' _].
      now apply (IH v').
Qed.

Lemma sels_nonblank t l : writes_sels t l -> exists a u, t = a ++ u /\ a <> [] /\ ends_ok a /\ ws u
  /\ forall u', ws u' -> writes_sels (a ++ u') l.
Proof.
  induction 1 as [w s v B S T V|w s v t l B S T V W (a & u & -> & Ha & Ea & Hu & K)].
  - exists (w ++ s), v. split; [now rewrite app_assoc|]. split; [intros E; now apply app_eq_nil in E as [_ E]; destruct T|].
    split; [apply ends_ok_app; [apply T|now apply tight_ends]|]. split; [easy|].
    intros u' Hu'. rewrite <- app_assoc. now apply wsel_one.
  - exists (w ++ s ++ v ++ lit "," ++ a), u. split; [now rewrite <- !app_assoc|].
    split; [intros E; apply Ha; apply app_eq_nil in E as [_ E]; apply app_eq_nil in E as [_ E];
            apply app_eq_nil in E as [_ E]; discriminate|].
    split; [repeat rewrite app_assoc; apply ends_ok_app; easy|]. split; [easy|].
    intros u' Hu'. rewrite <- !app_assoc. apply wsel_cons; auto.
Qed.

Lemma sels_retail ct v l v' : writes_sels (ct ++ v) l -> tight ct -> ws v -> ws v' -> writes_sels (ct ++ v') l.
Proof.
  intros H T V V'. destruct (sels_nonblank _ _ H) as (a & u & E & Ha & Ea & Hu & K).
  assert (ct = a) as ->; [|auto].
  apply (ws_tail_unique ct a v u); auto; [apply T|now apply tight_ends].
Qed.

Lemma written_at_good names t cond : writes_at names t cond -> good_at names (List.concat cond).
Proof.
  intros (w & n & v & c & v' & -> & B & N & V & V' & C & T & ->). exists n, c. cbn [List.concat].
  rewrite app_nil_r, <- app_assoc. auto.
Qed.

Lemma written_decl_good t a : writes_decl t a -> good_attr a.
Proof.
  intros (w0 & k & w1 & w2 & v & w3 & -> & _ & _ & _ & _ & K1 & K2 & V1 & V2 & _ & ->).
  unfold good_attr. cbn [a_key a_value List.concat]. rewrite app_nil_r. auto.
Qed.

Lemma written_content_good t c : writes_content t c ->
  Forall good_block_content c /\ Forall good_frame_content c.
Proof.
  induction 1 as [|t a H|t a w t' c H B W [I1 I2]|t cond body content w' t' c H W [J1 J2] B W' [I1 I2]].
  - split; constructor.
  - apply written_decl_good in H. split; constructor; constructor; auto.
  - apply written_decl_good in H. split; constructor; auto; now constructor.
  - apply written_at_good in H. split; constructor; auto; now constructor.
Qed.

Lemma written_frames_good t l : star writes_frame t l -> Forall good_frame l.
Proof.
  induction 1 as [|t a t' l H W IH]; constructor; [|easy].
  destruct H as (w & ct & sl & v & body & content & w' & -> & B & S & T & Hd & V & C & B' & ->).
  constructor.
  - cbn [List.concat]. rewrite app_nil_r. split; [|easy]. exists sl. eapply sels_retail; eauto.
    constructor; [now left|constructor].
  - apply (written_content_good _ _ C).
Qed.

Lemma written_dangling_good t l : writes_dangling t l -> Forall good_attr l.
Proof.
  induction 1 as [t a w H B|t a w t' l H B W IH]; apply written_decl_good in H; constructor; auto.
Qed.

Lemma written_scope_good after t c : writes_scope after t c -> dollar_free t ->
  Forall (fun c => keyframes_say (rbc_of_scope c)) c -> Forall (fun c => good_top (rbc_of_scope c)) c.
Proof.
  induction 1 as [|t l t' c H W IH|after t sels w body content w' t' c H N B C B' W IH
    |after t cond w body content w' t' c H B C IHc B' W IH|after t cond body frames w' t' c H C B' W IH];
    intros D K; rewrite ?dollar_free_app in D; [constructor|..]; inversion_clear K as [|? ? K1 K2];
    (constructor; [|now apply IH]); cbn [rbc_of_scope] in *.
  - constructor; [constructor|]. apply written_dangling_good in H. apply Forall_map.
    eapply Forall_impl; [|exact H]. intros a Ha. now constructor.
  - constructor; [|apply (written_content_good _ _ C)]. now apply (written_sels_good t).
  - apply gt_rule; [now apply written_at_good in H|]. destruct K1 as [_ K1]. apply all_Forall in K1.
    apply Forall_map. apply IHc; [easy|]. rewrite Forall_map in K1. exact K1.
  - apply written_at_good in H. destruct K1 as [K1 _]. apply gt_keyframes; auto.
    + now apply (written_frames_good body).
    + apply K1. now apply kf_is_kf.
Qed.

(** C13 for sheets read from texts. *)
Lemma written_sheet_good t s : writes_sheet t s -> dollar_free t -> keyframes_say_something s -> good_sheet s.
Proof.
  intros (w & t' & -> & B & W) D K. apply dollar_free_app in D as [_ D]. eapply written_scope_good; eauto.
Qed.
