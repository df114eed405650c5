(** * JoinFacts: texts of the grammar after each other (for C84). *)

From Coq Require Import String Ascii List NArith Bool Arith Lia.
From Verif Require Import Str Ast SpecSays SpecGrammar SpecJoin ParserSound.
Import ListNotations.
Local Open Scope list_scope.

Lemma lead_decl w t a : blank w -> writes_decl t a -> writes_decl (w ++ t) a.
Proof.
  intros B (w0 & k & w1 & w2 & v & w3 & -> & B0 & H). exists (w ++ w0), k, w1, w2, v, w3.
  rewrite <- app_assoc. split; [reflexivity|]. split; [now apply blank_app|exact H].
Qed.
Lemma lead_dangling w t l : blank w -> writes_dangling t l -> writes_dangling (w ++ t) l.
Proof.
  intros B H. destruct H; rewrite app_assoc; constructor; auto using lead_decl.
Qed.
Lemma lead_sels w t l : blank w -> writes_sels t l -> writes_sels (w ++ t) l.
Proof.
  intros B H. destruct H; rewrite app_assoc; constructor; auto using blank_app.
Qed.
Lemma lead_at w names t l : blank w -> writes_at names t l -> writes_at names (w ++ t) l.
Proof.
  intros B (w0 & n & v & c & v' & -> & B0 & H). exists (w ++ w0), n, v, c, v'.
  rewrite <- app_assoc. split; [reflexivity|]. split; [now apply blank_app|exact H].
Qed.

(** Blank space in front of the first item, and after the last one. *)
Lemma lead_scope w b t s : blank w -> writes_scope b t s -> s <> [] -> writes_scope b (w ++ t) s.
Proof.
  intros B H N. destruct H; [easy| | | |]; rewrite app_assoc.
  - constructor; auto using lead_dangling.
  - constructor; auto using lead_sels.
  - constructor; auto using lead_at.
  - constructor; auto using lead_at.
Qed.

Lemma trail_dangling w t l : blank w -> writes_dangling t l -> writes_dangling (t ++ w) l.
Proof.
  intros B. induction 1; rewrite <- !app_assoc.
  - constructor; auto using blank_app.
  - apply wd_cons; auto.
Qed.

Lemma scope_nil b t : writes_scope b t [] -> t = [].
Proof. inversion 1. reflexivity. Qed.

Lemma trail_scope w b t s : blank w -> writes_scope b t s -> s <> [] -> writes_scope b (t ++ w) s.
Proof.
  intros B H. induction H; intros N; [easy| | | |].
  - destruct c as [|x c].
    + apply scope_nil in H0. subst t'. rewrite app_nil_r, <- (app_nil_r (t ++ w)).
      constructor; [now apply trail_dangling|constructor].
    + rewrite <- app_assoc. constructor; [assumption|]. apply IHwrites_scope. discriminate.
  - destruct c as [|x c].
    + apply scope_nil in H4. subst t'. rewrite !app_nil_r, <- !app_assoc.
      rewrite <- (app_nil_r (w' ++ w)). constructor; auto using blank_app. constructor.
    + rewrite <- !app_assoc. constructor; auto. apply IHwrites_scope. discriminate.
  - destruct c as [|x c].
    + apply scope_nil in H3. subst t'. rewrite !app_nil_r, <- !app_assoc.
      rewrite <- (app_nil_r (w' ++ w)). constructor; auto using blank_app. constructor.
    + rewrite <- !app_assoc. constructor; auto. apply IHwrites_scope2. discriminate.
  - destruct c as [|x c].
    + apply scope_nil in H2. subst t'. rewrite !app_nil_r, <- !app_assoc.
      rewrite <- (app_nil_r (w' ++ w)). apply wsc_keyframes; auto using blank_app. constructor.
    + rewrite <- !app_assoc. apply wsc_keyframes; auto. apply IHwrites_scope. discriminate.
Qed.

(** Whether declarations outside braces come directly before the end. *)
Fixpoint ends (after : bool) (s : sheet) : bool :=
  match s with
  | [] => after
  | SBlock [] _ :: s' => ends true s'
  | _ :: s' => ends false s'
  end.

Lemma sels_cons t l : writes_sels t l -> exists s l', l = s :: l'.
Proof. destruct 1; eauto. Qed.

Lemma append_scope after t s : writes_scope after t s -> forall t2 s2,
  writes_scope (ends after s) t2 s2 -> writes_scope after (t ++ t2) (s ++ s2).
Proof.
  induction 1; intros u s2 H2'; cbn [ends] in *.
  - exact H2'.
  - rewrite <- app_assoc. cbn [List.app]. constructor; auto.
  - destruct (sels_cons _ _ H) as (x & l' & ->). cbn [ends] in *.
    rewrite <- !app_assoc. cbn [List.app]. constructor; auto.
  - rewrite <- !app_assoc. cbn [List.app]. constructor; auto.
  - rewrite <- !app_assoc. cbn [List.app]. apply wsc_keyframes; auto.
Qed.

Lemma ends_last after s x : ends after (s ++ [x]) = match x with SBlock [] _ => true | _ => false end.
Proof.
  revert after. induction s as [|y s IH]; intros after; cbn [List.app ends].
  - destruct x as [[|] |]; reflexivity.
  - destruct y as [[|] |]; apply IH.
Qed.

Lemma ends_closed s : ~ ends_bare s -> ends false s = false.
Proof.
  intros N. destruct s as [|x s] using rev_ind; [reflexivity|]. rewrite ends_last.
  destruct x as [[|sel sels] l|]; try reflexivity. elim N. exists s, (SBlock [] l). split; [reflexivity|]. now exists l.
Qed.

(** A scope whose first item stands apart can follow declarations. *)
Lemma apart_scope after t x s : apart x -> writes_scope false t (x :: s) -> writes_scope after t (x :: s).
Proof.
  intros A H. inversion H; subst; try (constructor; auto; fail).
  - cbn [apart] in A. easy.
  - match goal with W : writes_sels _ sels |- _ => destruct (sels_cons _ _ W) as (s0 & l' & ->) end. cbn [apart] in A. constructor; auto.
    intros _ s1 E. cbn in E. apply A. congruence.
Qed.

Lemma dangling_app t l t' l' : writes_dangling t l -> writes_dangling t' l' -> writes_dangling (t ++ t') (l ++ l').
Proof.
  induction 1; intros H'; rewrite <- !app_assoc; cbn [List.app]; apply wd_cons; auto.
Qed.

(** Two groups of declarations become one. *)
Lemma group_scope after t s l : writes_scope after t (s ++ [SBlock [] l]) -> forall t2 l2 s2,
  writes_scope false t2 (SBlock [] l2 :: s2) -> writes_scope after (t ++ t2) (s ++ SBlock [] (l ++ l2) :: s2).
Proof.
  revert after t. induction s as [|x s IH]; intros after t H t2 l2 s2 H2; cbn [List.app] in *.
  - inversion H; subst; try (match goal with W : writes_sels _ [] |- _ => inversion W end).
    match goal with W : writes_scope _ _ [] |- _ => apply scope_nil in W; subst end.
    inversion H2; subst; try (match goal with W : writes_sels _ [] |- _ => inversion W end).
    rewrite app_nil_r, <- map_app, app_assoc. constructor; auto using dangling_app.
  - inversion H; subst; rewrite <- !app_assoc.
    + constructor; auto.
    + constructor; auto.
    + constructor; auto.
    + apply wsc_keyframes; auto.
Qed.

(** After declarations, more of them would belong to the same group. *)
Theorem joined_text t1 s1 t2 s2 s :
  writes_sheet t1 s1 -> writes_sheet t2 s2 -> joins s1 s2 s -> writes_sheet (t1 ++ t2) s.
Proof.
  intros (w1 & u1 & -> & B1 & H1) (w2 & u2 & -> & B2 & H2) J.
  destruct s2 as [|y s2].
  { assert (E : s = s1) by (inversion J; subst; rewrite ?app_nil_r; reflexivity). subst s.
    apply scope_nil in H2. subst u2. rewrite app_nil_r.
    destruct s1 as [|x s1].
    - apply scope_nil in H1. subst u1. exists (w1 ++ w2), []. rewrite !app_nil_r.
      split; [reflexivity|]. split; [now apply blank_app|constructor].
    - exists w1, (u1 ++ w2). rewrite app_assoc. split; [reflexivity|]. split; [exact B1|].
      apply trail_scope; auto. discriminate. }
  exists w1, (u1 ++ w2 ++ u2). split; [now rewrite !app_assoc|]. split; [exact B1|].
  assert (L : writes_scope false (w2 ++ u2) (y :: s2)) by (apply lead_scope; auto; discriminate).
  inversion J; subst.
  - apply append_scope; [exact H1|]. rewrite ends_closed; auto.
  - apply append_scope; [exact H1|]. now apply apart_scope.
  - now apply group_scope.
Qed.
