(** * IdFacts: ids made from different entropy strings are different. *)

From Coq Require Import String Ascii List NArith Bool Arith Lia DecimalN.
From Verif Require Import Str StrFacts Ids.
Import ListNotations.
Local Open Scope list_scope.

Definition dash : char := ch "-".

Lemma cut_at_last_dash (x y d1 d2 : str) :
  ~ In dash d1 -> ~ In dash d2 -> x ++ dash :: d1 = y ++ dash :: d2 -> x = y /\ d1 = d2.
Proof.
  revert d1 d2. intros d1 d2 H1 H2 E.
  assert (R : rev d1 ++ dash :: rev x = rev d2 ++ dash :: rev y).
  { apply (f_equal (@rev _)) in E. rewrite !rev_app_distr in E. cbn [rev] in E.
    rewrite <- !app_assoc in E. exact E. }
  assert (G : forall a b u v : str, ~ In dash a -> ~ In dash b ->
                a ++ dash :: u = b ++ dash :: v -> a = b /\ u = v).
  { clear. induction a as [|p a IH]; intros [|q b] u v Ha Hb E; cbn [app] in E.
    - split; [reflexivity|]. now apply (f_equal (@tl _)) in E.
    - exfalso. apply Hb. left. apply (f_equal (@hd _ dash)) in E. now cbn [hd] in E.
    - exfalso. apply Ha. left. apply (f_equal (@hd _ dash)) in E. now cbn [hd] in E.
    - pose proof (f_equal (@hd _ dash) E) as E1. pose proof (f_equal (@tl _) E) as E2.
      cbn [hd tl] in E1, E2. subst q.
      destruct (IH b u v) as [-> ->]; [firstorder | firstorder | exact E2 |].
      split; reflexivity. }
  apply G in R; [|now rewrite <- in_rev|now rewrite <- in_rev].
  destruct R as [Ra Rb]. split.
  - rewrite <- (rev_involutive x), <- (rev_involutive y), Rb. reflexivity.
  - rewrite <- (rev_involutive d1), <- (rev_involutive d2), Ra. reflexivity.
Qed.

Lemma digits_no_dash d : ~ In dash (uint_digits d).
Proof.
  induction d; cbn [uint_digits]; [intros []|..]; intros [E|E];
    try (now apply IHd in E); vm_compute in E; discriminate E.
Qed.

Lemma uint_digits_inj a b : uint_digits a = uint_digits b -> a = b.
Proof.
  revert b. induction a; intros [] E; cbn [uint_digits] in E; try reflexivity;
    try (apply (f_equal (@List.length _)) in E; cbn in E; discriminate E);
    try (exfalso; apply (f_equal (@hd _ 0%N)) in E; vm_compute in E; discriminate E);
    apply (f_equal (@tl _)) in E; cbn [tl] in E; apply IHa in E; now subst.
Qed.

Lemma decimal_inj a b : decimal a = decimal b -> a = b.
Proof.
  unfold decimal. intros E. apply uint_digits_inj in E.
  rewrite <- (Unsigned.of_to a), <- (Unsigned.of_to b). now rewrite E.
Qed.

Lemma alnum_no_dash e : forallb is_ascii_alnum e = true -> ~ In dash e.
Proof.
  intros H I. rewrite forallb_forall in H. specialize (H _ I). vm_compute in H. discriminate.
Qed.
