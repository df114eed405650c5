(** * PropsWork: reading CSS takes work at most quadratic in the text (C88). *)

From Coq Require Import String Ascii List NArith Bool Arith Lia.
From Verif Require Import Str StrFacts Ast Nom CssParser WNom WParser WFacts WBound WFlat WDeep WLow.
Import ListNotations.
Local Open Scope list_scope.
Local Open Scope N_scope.

(** Counting the work changes nothing of what comes out. *)
Theorem work_changes_nothing : forall css, fst (w_parse css) = parse css.
Proof. apply w_parse_parse. Qed.
Print Assumptions work_changes_nothing.

(** Whatever the text is, how deep its blocks are nested, whether they are closed, and whether it is
    CSS at all: the work is at most quadratic in the number of chars. *)
Theorem parse_quadratic : forall css, work css <= 400000 * ((len css + 1) * (len css + 1)).
Proof.
  intros css. unfold work, w_parse. pose proof (sheet_work (S (List.length css)) css) as H.
  destruct (w_sheet_p _ css) as [[] w]; exact H.
Qed.
Print Assumptions parse_quadratic.

(** No smaller power would do: there are texts of any length that take work in the order of the square,
    namely strings with the start of a comment after each, and no end of a comment. *)
Theorem quadratic_reached : forall n,
  len (hard (S n)) = 5 * (N.of_nat n + 1) /\ N.of_nat n * N.of_nat n <= work (hard (S n)).
Proof. intros n. split; [rewrite hard_len; lia|apply hard_work]. Qed.
Print Assumptions quadratic_reached.

(** So no bound linear in the text holds. *)
Theorem not_linear : forall k, exists css, k * (len css + 1) < work css.
Proof.
  intros k. exists (hard (S (N.to_nat (6 * (k + 2))))). destruct (quadratic_reached (N.to_nat (6 * (k + 2)))) as [-> H].
  rewrite N2Nat.id in *. nia.
Qed.
Print Assumptions not_linear.

Fixpoint times (n : nat) (s : str) : str := match n with O => [] | S n => s ++ times n s end.

(** Twice as many blocks in each other, closed or not: twice the work.  *)
Example nested_work :
  let open n := times n (lit "@media print{") ++ lit "color:red;" in
  map (fun n => work (open n ++ times n (lit "}"))) [5; 10; 20]%nat = [2875; 5360; 10330]
  /\ map (fun n => work (open n)) [5; 10; 20]%nat = [1858; 3373; 6403].
Proof. vm_compute. auto. Qed.

Example hard_text : hard 2 = lit """x""/*""x""/*" /\ parse (hard 2) = Rejected.
Proof. vm_compute. auto. Qed.
