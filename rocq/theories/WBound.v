(** * WBound: how much work combinators do. *)

From Coq Require Import String Ascii List NArith Bool Arith Lia.
From Verif Require Import Str StrFacts Ast Nom CssParser WNom WParser WFacts SpecSays NomFacts ParserSound ParserTotal ParserLex ParserSel.
Import ListNotations.
Local Open Scope list_scope.
Local Open Scope N_scope.

Definition bounded {A} (ok : N -> N -> N) (bad : N -> N) (p : wparser A) : Prop := forall i,
  match p i with
  | (ROk r _, w) => len r <= len i /\ w <= ok (len i) (len i - len r)
  | (_, w) => w <= bad (len i)
  end.

(** Work for what is read only, and constant work when nothing comes out. *)
Definition strict K {A} (p : wparser A) : Prop := bounded (fun _ c => K * (c + 1)) (fun _ => K) p.
(** Work for what is read only, unless nothing comes out. *)
Definition tight K {A} (p : wparser A) : Prop := bounded (fun _ c => K * (c + 1)) (fun n => K * (n + 1)) p.
(** No more work than the whole text is long. *)
Definition lin K {A} (p : wparser A) : Prop := bounded (fun n _ => K * (n + 1)) (fun n => K * (n + 1)) p.
(** As much as the whole text is long for every char read. *)
Definition lq K {A} (p : wparser A) : Prop := bounded (fun n c => K * ((n + 1) * (c + 1))) (fun n => K * (n + 1)) p.

Ltac pcase H i := let r := fresh "r" in let a := fresh "a" in let w := fresh "w" in
  specialize (H i); match type of H with context [match ?p with _ => _ end] => destruct p as [[r a| | |] w] eqn:? end.

Lemma len_app {A} (a b : list A) : len (a ++ b) = len a + len b.
Proof. unfold len. rewrite app_length. lia. Qed.
Lemma len_cons {A} (a : A) (b : list A) : len (a :: b) = 1 + len b.
Proof. unfold len. cbn [List.length]. lia. Qed.

Lemma bounded_weaken {A} (ok ok' : N -> N -> N) bad bad' (p : wparser A) : bounded ok bad p ->
  (forall n c, c <= n -> ok n c <= ok' n c) -> (forall n, bad n <= bad' n) -> bounded ok' bad' p.
Proof.
  intros H Ho Hb i. pcase H i; try (specialize (Hb (len i)); lia).
  destruct H as [L H]. split; auto. specialize (Ho (len i) (len i - len r)). lia.
Qed.
Lemma strict_tight {A} K (p : wparser A) : strict K p -> tight K p.
Proof. intros H. eapply bounded_weaken; [exact H|..]; cbv beta; intros; nia. Qed.
Lemma tight_lin {A} K (p : wparser A) : tight K p -> lin K p.
Proof. intros H. eapply bounded_weaken; [exact H|..]; cbv beta; intros; nia. Qed.
Lemma strict_lin {A} K (p : wparser A) : strict K p -> lin K p.
Proof. intros H. now apply tight_lin, strict_tight. Qed.
Lemma lin_lq {A} K (p : wparser A) : lin K p -> lq K p.
Proof. intros H. eapply bounded_weaken; [exact H|..]; cbv beta; intros; nia. Qed.
Lemma strict_le {A} K K' (p : wparser A) : strict K p -> K <= K' -> strict K' p.
Proof. intros H L. eapply bounded_weaken; [exact H|..]; cbv beta; intros; nia. Qed.
Lemma tight_le {A} K K' (p : wparser A) : tight K p -> K <= K' -> tight K' p.
Proof. intros H L. eapply bounded_weaken; [exact H|..]; cbv beta; intros; nia. Qed.
Lemma lin_le {A} K K' (p : wparser A) : lin K p -> K <= K' -> lin K' p.
Proof. intros H L. eapply bounded_weaken; [exact H|..]; cbv beta; intros; nia. Qed.
Lemma lq_le {A} K K' (p : wparser A) : lq K p -> K <= K' -> lq K' p.
Proof. intros H L. eapply bounded_weaken; [exact H|..]; cbv beta; intros; now apply N.mul_le_mono_r. Qed.

(** ** Parts *)

Lemma strict_tag t : strict (1 + len t) (wtag t).
Proof.
  intros i. unfold wtag. destruct (tag t i) as [r a| | |] eqn:E; try lia.
  apply sound_tag in E as (u & -> & -> & ->). rewrite len_app. split; [lia|]. nia.
Qed.
Lemma strict_while1 f : strict 2 (wwhile1 f).
Proof.
  intros i. unfold wwhile1, take_while1. destruct (span f i) as [a b] eqn:E.
  apply span_spec in E as (-> & _ & _). destruct a as [|c a]; cbn [fst]; [cbv; discriminate|].
  rewrite len_app. split; [lia|]. lia.
Qed.
Lemma strict_none_of s : strict 2 (wnone_of s).
Proof.
  intros i. unfold wnone_of. destruct (none_of s i) as [r a| | |] eqn:E; try lia.
  apply sound_none_of in E as (u & -> & -> & _). cbn [app]. rewrite len_cons. lia.
Qed.
Lemma strict_anychar : strict 2 wanychar.
Proof.
  intros i. unfold wanychar. destruct (anychar i) as [r a| | |] eqn:E; try lia.
  apply sound_anychar in E as (u & -> & ->). cbn [app]. rewrite len_cons. lia.
Qed.
Lemma strict_not_char x : strict 3 (wnot (wchar x)).
Proof.
  intros i. unfold wnot, wchar. destruct (char_p x i) as [r a| | |]; try lia.
Qed.
Lemma strict_fail {A} : strict 1 (@wfail A).
Proof. intros i. cbn. lia. Qed.

(** ** [map], [recognize], [opt], [expect_non_empty] *)

Lemma strict_map {A B} (f : A -> B) p K : strict K p -> strict (K + 1) (wmap f p).
Proof. intros H i. unfold wmap. pcase H i; cbn [wbind]; solve [nia|destruct H; split; [lia|nia]]. Qed.
Lemma tight_map {A B} (f : A -> B) p K : tight K p -> tight (K + 1) (wmap f p).
Proof. intros H i. unfold wmap. pcase H i; cbn [wbind]; solve [nia|destruct H; split; [lia|nia]]. Qed.
Lemma lin_map {A B} (f : A -> B) p K : lin K p -> lin (K + 1) (wmap f p).
Proof. intros H i. unfold wmap. pcase H i; cbn [wbind]; solve [nia|destruct H; split; [lia|nia]]. Qed.
Lemma lq_map {A B} (f : A -> B) p K : lq K p -> lq (K + 1) (wmap f p).
Proof. intros H i. unfold wmap. pcase H i; cbn [wbind]; solve [nia|destruct H; split; [lia|nia]]. Qed.
Lemma strict_recognize {A} (p : wparser A) K : strict K p -> strict (K + 1) (wrecognize p).
Proof. intros H i. unfold wrecognize. pcase H i; cbn [wbind]; solve [nia|destruct H; split; [lia|nia]]. Qed.
Lemma tight_recognize {A} (p : wparser A) K : tight K p -> tight (K + 1) (wrecognize p).
Proof. intros H i. unfold wrecognize. pcase H i; cbn [wbind]; solve [nia|destruct H; split; [lia|nia]]. Qed.
Lemma lin_recognize {A} (p : wparser A) K : lin K p -> lin (K + 1) (wrecognize p).
Proof. intros H i. unfold wrecognize. pcase H i; cbn [wbind]; solve [nia|destruct H; split; [lia|nia]]. Qed.
Lemma lq_recognize {A} (p : wparser A) K : lq K p -> lq (K + 1) (wrecognize p).
Proof. intros H i. unfold wrecognize. pcase H i; cbn [wbind]; solve [nia|destruct H; split; [lia|nia]]. Qed.
Lemma lin_opt {A} (p : wparser A) K : lin K p -> lin (K + 1) (wopt p).
Proof. intros H i. unfold wopt. pcase H i; solve [nia|destruct H; split; [lia|nia]]. Qed.
Lemma strict_opt {A} (p : wparser A) K : strict K p -> strict (K + 1) (wopt p).
Proof. intros H i. unfold wopt. pcase H i; solve [nia|destruct H; split; [lia|nia]]. Qed.
Lemma strict_non_empty {A} (p : wparser A) K : strict K p -> strict (K + 1) (w_expect_non_empty p).
Proof. intros H i. destruct i as [|c i]; cbn [w_expect_non_empty]; [lia|]. pcase H (c :: i); cbn [more]; solve [nia|destruct H; split; [lia|nia]]. Qed.
Lemma tight_non_empty {A} (p : wparser A) K : tight K p -> tight (K + 1) (w_expect_non_empty p).
Proof. intros H i. destruct i as [|c i]; cbn [w_expect_non_empty]; [nia|]. pcase H (c :: i); cbn [more]; solve [nia|destruct H; split; [lia|nia]]. Qed.
Lemma lin_non_empty {A} (p : wparser A) K : lin K p -> lin (K + 1) (w_expect_non_empty p).
Proof. intros H i. destruct i as [|c i]; cbn [w_expect_non_empty]; [nia|]. pcase H (c :: i); cbn [more]; solve [nia|destruct H; split; [lia|nia]]. Qed.
Lemma lq_non_empty {A} (p : wparser A) K : lq K p -> lq (K + 1) (w_expect_non_empty p).
Proof. intros H i. destruct i as [|c i]; cbn [w_expect_non_empty]; [nia|]. pcase H (c :: i); cbn [more]; solve [nia|destruct H; split; [lia|nia]]. Qed.

(** ** [alt] *)

Lemma strict_none {A} : strict 1 (@walt A []).
Proof. intros i. cbn. lia. Qed.
Lemma strict_or {A} (p : wparser A) ps K K' : strict K p -> strict K' (walt ps) -> strict (K + K' + 1) (walt (p :: ps)).
Proof.
  intros H H' i. cbn [walt]. pcase H i; try solve [nia|destruct H; split; [lia|nia]].
  pcase H' i; cbn [more]; solve [nia|destruct H'; split; [lia|nia]].
Qed.
Lemma tight_or {A} (p : wparser A) ps K K' : strict K p -> tight K' (walt ps) -> tight (K + K' + 1) (walt (p :: ps)).
Proof.
  intros H H' i. cbn [walt]. pcase H i; try solve [nia|destruct H; split; [lia|nia]].
  pcase H' i; cbn [more]; solve [nia|destruct H'; split; [lia|nia]].
Qed.
Lemma tight_single {A} (p : wparser A) K : tight K p -> tight (K + 2) (walt [p]).
Proof. intros H i. cbn [walt]. pcase H i; cbn [more]; solve [nia|destruct H; split; [lia|nia]]. Qed.
Lemma lin_or {A} (p : wparser A) ps K K' : lin K p -> lin K' (walt ps) -> lin (K + K' + 1) (walt (p :: ps)).
Proof.
  intros H H' i. cbn [walt]. pcase H i; try solve [nia|destruct H; split; [lia|nia]].
  pcase H' i; cbn [more]; solve [nia|destruct H'; split; [lia|nia]].
Qed.

(** ** Sequences *)

Lemma strict_preceded_tag {B} t (q : wparser B) K : strict K q -> strict (K + (1 + len t)) (wpreceded (wtag t) q).
Proof.
  intros H i. unfold wpreceded. pose proof (strict_tag t i) as Ht. unfold wtag in *.
  destruct (tag t i) as [r a| | |]; cbn [wbind]; try lia. destruct Ht as [L _].
  pcase H r; cbn [wbind]; solve [nia|destruct H; split; [lia|nia]].
Qed.
Lemma strict_terminated_tag {B} t (q : wparser B) K : strict K q -> strict (K + (2 + len t)) (wterminated (wtag t) q).
Proof.
  intros H i. unfold wterminated. pose proof (strict_tag t i) as Ht. unfold wtag in *.
  destruct (tag t i) as [r a| | |]; cbn [wbind]; try lia. destruct Ht as [L _].
  pcase H r; cbn [wbind]; solve [nia|destruct H; split; [lia|nia]].
Qed.
Lemma tight_preceded {A B} (p : wparser A) (q : wparser B) K K' : tight K p -> tight K' q -> tight (K + K') (wpreceded p q).
Proof.
  intros H H' i. unfold wpreceded. pcase H i; cbn [wbind]; try nia. destruct H as [L H].
  pcase H' r; cbn [wbind]; solve [nia|destruct H' as [L' H']; split; [lia|nia]].
Qed.
Lemma tight_terminated {A B} (p : wparser A) (q : wparser B) K K' : tight K p -> tight K' q -> tight (K + K' + 1) (wterminated p q).
Proof.
  intros H H' i. unfold wterminated. pcase H i; cbn [wbind]; try nia. destruct H as [L H].
  pcase H' r; cbn [wbind]; solve [nia|destruct H' as [L' H']; split; [lia|nia]].
Qed.
Lemma lin_preceded {A B} (p : wparser A) (q : wparser B) K K' : lin K p -> lin K' q -> lin (K + K') (wpreceded p q).
Proof.
  intros H H' i. unfold wpreceded. pcase H i; cbn [wbind]; try nia. destruct H as [L H].
  pcase H' r; cbn [wbind]; solve [nia|destruct H' as [L' H']; split; [lia|nia]].
Qed.
Lemma lin_terminated {A B} (p : wparser A) (q : wparser B) K K' : lin K p -> lin K' q -> lin (K + K' + 1) (wterminated p q).
Proof.
  intros H H' i. unfold wterminated. pcase H i; cbn [wbind]; try nia. destruct H as [L H].
  pcase H' r; cbn [wbind]; solve [nia|destruct H' as [L' H']; split; [lia|nia]].
Qed.
Lemma lin_pair {A B} (p : wparser A) (q : wparser B) K K' : lin K p -> lin K' q -> lin (K + K' + 1) (wpair p q).
Proof.
  intros H H' i. unfold wpair. pcase H i; cbn [wbind]; try nia. destruct H as [L H].
  pcase H' r; cbn [wbind]; solve [nia|destruct H' as [L' H']; split; [lia|nia]].
Qed.
Lemma lq_preceded {A B} (p : wparser A) (q : wparser B) K K' : lin K p -> lq K' q -> lq (K + K') (wpreceded p q).
Proof.
  intros H H' i. unfold wpreceded. pcase H i; cbn [wbind]; try nia. destruct H as [L H].
  pcase H' r; cbn [wbind]; nia.
Qed.
Lemma lq_pair {A B} (p : wparser A) (q : wparser B) K K' : lin K p -> lq K' q -> lq (K + K' + 1) (wpair p q).
Proof.
  intros H H' i. unfold wpair. pcase H i; cbn [wbind]; try nia. destruct H as [L H].
  pcase H' r; cbn [wbind]; nia.
Qed.

(** Parsers that always give something. *)
Definition total {A} (p : wparser A) : Prop := forall i, exists r a, fst (p i) = ROk r a.

Lemma lq_terminated {A B} (p : wparser A) (q : wparser B) K K' :
  lq K p -> lin K' q -> total q -> lq (K + K' + 1) (wterminated p q).
Proof.
  intros H H' T i. unfold wterminated. pcase H i; cbn [wbind]; try nia. destruct H as [L H].
  destruct (T r) as (r2 & b & E). pcase H' r; try discriminate. injection E as -> ->. cbn [wbind].
  destruct H' as [L' H']; split; [lia|].
  assert (K * ((len i + 1) * (len i - len r + 1)) <= K * ((len i + 1) * (len i - len r2 + 1))) by nia.
  assert (K' * (len r + 1) <= K' * ((len i + 1) * (len i - len r2 + 1))) by nia. nia.
Qed.

(** ** Loops *)

Lemma len_neq {A B} (a : list A) (b : list B) : Nat.eqb (List.length a) (List.length b) = false -> len a <> len b.
Proof. intros H E. apply Nat.eqb_neq in H. unfold len in E. lia. Qed.

Lemma tight_many0 {A} (p : wparser A) K : strict K p -> tight (2 * K + 1) (wmany0 p).
Proof.
  intros H i. unfold wmany0. generalize (S (List.length i)). intros n. revert i.
  induction n as [|n IH]; intros i; cbn [wmany0_fuel]; [lia|].
  pcase H i; try (rewrite ?N.sub_diag; nia).
  destruct H as [L H]. destruct (Nat.eqb _ _) eqn:E; [nia|]. apply len_neq in E.
  pcase IH r; cbn [wbind more]; solve [nia|destruct IH as [L' IH]; split; [lia|nia]].
Qed.
Lemma lin_many0 {A} (p : wparser A) K : tight K p -> lin (2 * K + 1) (wmany0 p).
Proof.
  intros H i. unfold wmany0. generalize (S (List.length i)). intros n. revert i.
  induction n as [|n IH]; intros i; cbn [wmany0_fuel]; [lia|].
  pcase H i; try (rewrite ?N.sub_diag; nia).
  destruct H as [L H]. destruct (Nat.eqb _ _) eqn:E; [nia|]. apply len_neq in E.
  pcase IH r; cbn [wbind more]; solve [nia|destruct IH as [L' IH]; split; [lia|nia]].
Qed.

Lemma many0_total {A} (p : parser A) : consumes p -> shrinks p -> (forall n, safe n p) ->
  forall i, exists r l, many0 p i = ROk r l.
Proof.
  intros C S Sf i. pose proof (many0_no_err p (Datatypes.S (List.length i)) i C) as N.
  destruct (safe_many0 (List.length i) p S (Sf _) i (le_n _)) as [F1 F2]. unfold many0 in *.
  destruct (many0_fuel _ p i) as [r l| | |]; try easy. eauto.
Qed.
Lemma total_many0 {A} (p : wparser A) q : wera p q -> consumes q -> shrinks q -> (forall n, safe n q) -> total (wmany0 p).
Proof. intros E C S Sf i. rewrite (wera_many0 _ _ E). now apply many0_total. Qed.

Lemma lq_many0_ok {A} (p : wparser A) K : lq K p ->
  forall n i r l w, wmany0_fuel n p i = (ROk r l, w) ->
    len r <= len i /\ w <= (2 * K + 1) * ((len i + 1) * (len i - len r + 1)).
Proof.
  intros H. induction n as [|n IH]; intros i r l w; cbn [wmany0_fuel]; [discriminate|].
  pcase H i; try discriminate.
  - destruct H as [L H]. destruct (Nat.eqb _ _) eqn:E; [discriminate|]. apply len_neq in E.
    destruct (wmany0_fuel n p r0) as [[r1 l1| | |] w1] eqn:E1; cbn [wbind more]; try discriminate.
    intros [= <- <- <-]. apply IH in E1 as [L' E1]. split; [lia|].
    assert (X : (2 * K + 1) * ((len r0 + 1) * (len r0 - len r1 + 1)) <= (2 * K + 1) * ((len i + 1) * (len r0 - len r1 + 1))) by nia.
    replace (len i - len r1 + 1) with ((len i - len r0) + (len r0 - len r1 + 1)) by lia.
    assert (Y : K * ((len i + 1) * (len i - len r0 + 1)) + 1 <= (2 * K + 1) * ((len i + 1) * (len i - len r0))).
    { assert (K * ((len i + 1) * (len i - len r0 + 1)) <= K * ((len i + 1) * (2 * (len i - len r0)))) by nia. nia. }
    nia.
  - intros [= <- <- <-]. split; [lia|]. rewrite N.sub_diag. nia.
Qed.
Lemma lq_many1 {A} (p : wparser A) q K : lq K p -> wera p q -> consumes q -> shrinks q -> (forall n, safe n q) ->
  lq (3 * K + 2) (wmany1 p).
Proof.
  intros H E C S Sf i. unfold wmany1. pose proof H as H0. pcase H i; cbn [wbind]; try nia. destruct H as [L H].
  destruct (total_many0 p q E C S Sf r) as (r2 & l & E2). unfold wmany0 in *.
  destruct (wmany0_fuel _ p r) as [x w2] eqn:E3. cbn [fst] in E2. subst x. cbn [wbind].
  apply (lq_many0_ok p K H0) in E3 as [L2 E3]. split; [lia|].
  assert (K * ((len i + 1) * (len i - len r + 1)) <= K * ((len i + 1) * (len i - len r2 + 1))) by nia.
  assert ((2 * K + 1) * ((len r + 1) * (len r - len r2 + 1)) <= (2 * K + 1) * ((len i + 1) * (len i - len r2 + 1))) by nia.
  nia.
Qed.
