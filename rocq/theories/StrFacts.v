(** * StrFacts: lemmas about the string operations. *)

From Coq Require Import String Ascii List NArith Bool Arith Lia.
From Verif Require Import Str.
Import ListNotations.
Local Open Scope list_scope.

Lemma char_eqb_eq a b : char_eqb a b = true <-> a = b.
Proof. apply N.eqb_eq. Qed.
Lemma char_eqb_refl a : char_eqb a a = true.
Proof. apply N.eqb_refl. Qed.
Lemma char_eqb_neq a b : char_eqb a b = false <-> a <> b.
Proof. apply N.eqb_neq. Qed.

Lemma str_eqb_eq a b : str_eqb a b = true <-> a = b.
Proof.
  revert b; induction a as [|x a IH]; intros [|y b]; cbn; split; try easy.
  - intros [H1 H2]%andb_true_iff. apply char_eqb_eq in H1. apply IH in H2. now subst.
  - intros [= -> ->]. rewrite char_eqb_refl. now apply IH.
Qed.
Lemma str_eqb_refl a : str_eqb a a = true.
Proof. now apply str_eqb_eq. Qed.
Lemma str_eqb_neq a b : str_eqb a b = false <-> a <> b.
Proof.
  split.
  - intros H ->. now rewrite str_eqb_refl in H.
  - intros H. destruct (str_eqb a b) eqn:E; [apply str_eqb_eq in E; contradiction|easy].
Qed.

Lemma str_eq_dec (a b : str) : {a = b} + {a <> b}.
Proof.
  destruct (str_eqb a b) eqn:E; [left; now apply str_eqb_eq | right; now apply str_eqb_neq].
Defined.

Lemma mem_In c s : mem c s = true <-> In c s.
Proof.
  unfold mem. rewrite existsb_exists. split.
  - intros (x & H1 & H2). apply char_eqb_eq in H2. now subst.
  - intros H. exists c. split; [easy|apply char_eqb_refl].
Qed.
Lemma mem_not_In c s : mem c s = false <-> ~ In c s.
Proof.
  rewrite <- mem_In. destruct (mem c s); split; intros; try easy.
Qed.

Lemma starts_with_app p s : starts_with p (p ++ s) = true.
Proof. induction p; cbn; [easy|]. now rewrite char_eqb_refl. Qed.

Lemma starts_with_spec p s : starts_with p s = true <-> exists t, s = p ++ t.
Proof.
  split.
  - revert s; induction p as [|x p IH]; intros s H; cbn in *.
    + now exists s.
    + destruct s as [|y s]; [easy|]. apply andb_true_iff in H as [H1 H2].
      apply char_eqb_eq in H1. destruct (IH _ H2) as [t ->]. subst. now exists t.
  - intros [t ->]. apply starts_with_app.
Qed.

Lemma contains_str_spec p s :
  contains_str p s = true <-> exists a b, s = a ++ p ++ b.
Proof.
  split.
  - induction s as [|c s IH]; cbn; intros H.
    + rewrite orb_false_r in H. apply starts_with_spec in H as [t H]. now exists [], t.
    + apply orb_true_iff in H as [H|H].
      * apply starts_with_spec in H as [t H]. now exists [], t.
      * destruct (IH H) as (a & b & ->). now exists (c :: a), b.
  - intros (a & b & ->). induction a as [|c a IH]; cbn.
    + destruct (p ++ b) eqn:E; cbn; rewrite <- E, starts_with_app; easy.
    + rewrite IH. apply orb_true_r.
Qed.

Lemma contains_char_spec c s : contains_char c s = true <-> In c s.
Proof. apply mem_In. Qed.

Lemma replace_char_none c r s : ~ In c s -> replace_char c r s = s.
Proof.
  induction s as [|x s IH]; cbn; intros H; [easy|].
  destruct (char_eqb x c) eqn:E.
  - apply char_eqb_eq in E. subst. exfalso. apply H. now left.
  - cbn. f_equal. apply IH. tauto.
Qed.

Lemma replace_char_app c r a b : replace_char c r (a ++ b) = replace_char c r a ++ replace_char c r b.
Proof. apply flat_map_app. Qed.

Lemma spaces_app a b : spaces a ++ spaces b = spaces (a + b).
Proof. unfold spaces. now rewrite repeat_app. Qed.

Lemma trim_start_ws w s : forallb is_uni_ws w = true -> trim_start (w ++ s) = trim_start s.
Proof.
  induction w as [|c w IH]; cbn; intros H; [easy|].
  apply andb_true_iff in H as [H1 H2]. rewrite H1. auto.
Qed.

Lemma trim_start_split s : exists w, s = w ++ trim_start s /\ forallb is_uni_ws w = true.
Proof.
  induction s as [|c s (w & Hs & Hw)]; cbn.
  - now exists [].
  - destruct (is_uni_ws c) eqn:E.
    + exists (c :: w). cbn. rewrite E, Hw. split; [now f_equal|easy].
    + now exists [].
Qed.

Lemma trim_start_head s c t : trim_start s = c :: t -> is_uni_ws c = false.
Proof.
  induction s as [|x s IH]; cbn; [easy|].
  destruct (is_uni_ws x) eqn:E; [easy|]. now intros [= <- <-].
Qed.

Lemma trim_start_id s : match s with c :: _ => is_uni_ws c = false | [] => True end -> trim_start s = s.
Proof. destruct s; cbn; [easy|]. now intros ->. Qed.

Lemma trim_start_idem s : trim_start (trim_start s) = trim_start s.
Proof.
  apply trim_start_id. destruct (trim_start s) eqn:E; [easy|]. eapply trim_start_head; eauto.
Qed.

Lemma forallb_rev {A} (f : A -> bool) l : forallb f (rev l) = forallb f l.
Proof.
  induction l; cbn; [easy|]. rewrite forallb_app, IHl. cbn. rewrite andb_true_r. apply andb_comm.
Qed.

Lemma trim_end_ws s w : forallb is_uni_ws w = true -> trim_end (s ++ w) = trim_end s.
Proof.
  intros H. unfold trim_end. rewrite rev_app_distr, trim_start_ws; [easy|]. now rewrite forallb_rev.
Qed.

Lemma trim_end_split s : exists w, s = trim_end s ++ w /\ forallb is_uni_ws w = true.
Proof.
  destruct (trim_start_split (rev s)) as (w & H & Hw).
  exists (rev w). unfold trim_end. split.
  - apply (f_equal (@rev _)) in H. rewrite rev_involutive, rev_app_distr in H. exact H.
  - now rewrite forallb_rev.
Qed.

Lemma trim_start_all_ws s : forallb is_uni_ws s = true -> trim_start s = [].
Proof. intros H. rewrite <- (app_nil_r s), trim_start_ws; easy. Qed.

(** Leading and trailing white space is irrelevant to [trim]. *)
Lemma trim_start_end s : trim_start (trim_end s) = trim_end (trim_start s).
Proof.
  destruct (trim_start_split s) as (w & Hs & Hw).
  destruct (trim_start s) as [|c t] eqn:E.
  - rewrite app_nil_r in Hs. subst w. cbn.
    unfold trim_end. rewrite (trim_start_all_ws (rev s)); [easy|]. now rewrite forallb_rev.
  - assert (Hc := trim_start_head _ _ _ E).
    destruct (trim_end_split (c :: t)) as (v & Hv & Hvw).
    destruct (trim_end (c :: t)) as [|c' t'] eqn:E2.
    { exfalso. cbn in Hv. subst v. cbn in Hvw. now rewrite Hc in Hvw. }
    assert (c' = c) by (cbn in Hv; congruence). subst c'.
    assert (He : trim_end s = w ++ c :: t').
    { rewrite Hs, Hv. rewrite app_assoc, trim_end_ws by easy.
      unfold trim_end. rewrite rev_app_distr.
      unfold trim_end in E2.
      assert (Hr : exists x y, rev (c :: t') = x :: y /\ is_uni_ws x = false).
      { apply (f_equal (@rev _)) in E2. rewrite rev_involutive in E2.
        destruct (rev (c :: t')) as [|x y] eqn:Er.
        - apply (f_equal (@rev _)) in Er. rewrite rev_involutive in Er. easy.
        - exists x, y. split; [easy|]. eapply trim_start_head. exact E2. }
      destruct Hr as (x & y & Hr & Hx). rewrite Hr. cbn [app trim_start]. rewrite Hx.
      change (x :: y ++ rev w) with ((x :: y) ++ rev w). rewrite <- Hr.
      now rewrite <- rev_app_distr, rev_involutive. }
    rewrite He, trim_start_ws by easy. cbn. now rewrite Hc.
Qed.

Lemma trim_ws_l w s : forallb is_uni_ws w = true -> trim (w ++ s) = trim s.
Proof. intros H. unfold trim. now rewrite trim_start_ws. Qed.

Lemma trim_ws_r s w : forallb is_uni_ws w = true -> trim (s ++ w) = trim s.
Proof.
  intros H. unfold trim. rewrite <- !trim_start_end. now rewrite trim_end_ws.
Qed.

Lemma trim_idem s : trim (trim s) = trim s.
Proof.
  unfold trim. rewrite trim_start_end, trim_start_idem.
  unfold trim_end. now rewrite rev_involutive, trim_start_idem.
Qed.

Lemma trim_all_ws s : forallb is_uni_ws s = true -> trim s = [].
Proof. intros H. unfold trim. now rewrite trim_start_all_ws. Qed.

Lemma spaces_ws n : forallb is_uni_ws (spaces n) = true.
Proof. induction n; cbn; auto. Qed.
