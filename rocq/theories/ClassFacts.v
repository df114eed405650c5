(** * ClassFacts: reading class selectors and class attributes. *)

From Coq Require Import String Ascii List NArith Bool Arith Lia.
From Verif Require Import Str Ids SpecClass.
Import ListNotations.
Local Open Scope list_scope.
Local Open Scope N_scope.

Definition named (s : str) : Prop := Forall (fun c => name_char c = true) s.

Ltac bools := rewrite <- ?not_true_iff_false in *;
  rewrite ?orb_true_iff, ?andb_true_iff, ?N.leb_le, ?N.eqb_eq in *.

Lemma name_char_plain c : name_char c = true -> c <> 92 /\ c <> 0 /\ c <> 13 /\ c <> 12 /\ html_blank c = false.
Proof. unfold name_char, name_start, letter, digit, html_blank. intros H. bools. lia. Qed.

Lemma preprocess_cons c s : c <> 13 -> c <> 12 -> c <> 0 -> surrogate c = false -> preprocess (c :: s) = c :: preprocess s.
Proof.
  intros A B C D. cbn [preprocess].
  destruct (N.eqb_spec c 13); [easy|]. destruct (N.eqb_spec c 12); [easy|]. destruct (N.eqb_spec c 0); [easy|]. now rewrite D.
Qed.
Lemma preprocess_named x : forall s, named x -> scalar x -> preprocess (x ++ s) = x ++ preprocess s.
Proof.
  induction x as [|c x IH]; intros s N S; [reflexivity|]. inversion_clear N. inversion_clear S.
  destruct (name_char_plain c) as (_ & ? & ? & ? & _); auto. cbn [app]. rewrite preprocess_cons by auto. now rewrite IH.
Qed.

Lemma escape_not s : match s with [] => True | c :: _ => c <> 92 end -> escape_ok s = false.
Proof. destruct s as [|c s]; [reflexivity|]. cbn. intros H. now destruct (N.eqb_spec c 92). Qed.

Lemma name_of_named x : forall n s, named x -> ends_name s -> (List.length x <= n)%nat -> name_of n (x ++ s) = (x, s).
Proof.
  induction x as [|c x IH]; intros n s N E L.
  - cbn [app]. destruct n; [now destruct s|]. destruct s as [|c s]; [reflexivity|]. destruct E as [E1 E2].
    cbn [name_of]. now rewrite E1, E2.
  - destruct n as [|n]; [cbn in L; lia|]. inversion_clear N. cbn [app name_of]. rewrite H, IH; auto. cbn in L. lia.
Qed.

Lemma hexes_len n : forall a s, (List.length (snd (hexes n a s)) <= List.length s)%nat.
Proof.
  induction n as [|n IH]; intros a s; cbn [hexes]; [destruct s; apply le_n|]. destruct s as [|c s]; [apply le_n|]. destruct (hex c); cbn [List.length snd]; [|lia].
  specialize (IH (16 * a + n0) s). lia.
Qed.
Lemma skip_len s : (List.length (skip_blank s) <= List.length s)%nat.
Proof. destruct s as [|c s]; cbn; [lia|]. destruct (_ || _); cbn; lia. Qed.
Lemma unescape_len s : (List.length (snd (unescape s)) <= List.length s - 1)%nat.
Proof.
  destruct s as [|c s]; cbn [unescape]; [cbn; lia|]. destruct (hex c) as [v|]; cbn [snd List.length]; [|lia].
  pose proof (hexes_len 5 v s) as L. destruct (hexes 5 v s) as [y r]. cbn [snd] in *. pose proof (skip_len r). lia.
Qed.
Lemma name_of_len n : forall s, (List.length (fst (name_of n s)) + List.length (snd (name_of n s)) <= List.length s)%nat.
Proof.
  induction n as [|n IH]; intros s; cbn [name_of]; [cbn; lia|]. destruct s as [|c s]; [cbn; lia|].
  destruct (name_char c).
  - specialize (IH s). destruct (name_of n s). cbn in *. lia.
  - destruct (escape_ok (c :: s)); [|cbn; lia]. pose proof (unescape_len s). destruct (unescape s) as [v r]. cbn [snd] in *.
    specialize (IH r). destruct (name_of n r). cbn in *. lia.
Qed.

(** A name as long as its text is its text, unless a backslash ends it. *)
Lemma name_of_exact n : forall s x, name_of n s = (x, []) -> List.length x = List.length s ->
  (x = s /\ named s) \/ exists y, s = y ++ [92] /\ x = y ++ [replacement].
Proof.
  induction n as [|n IH]; intros s x E L; cbn [name_of] in E.
  - injection E as <- ->. left. split; constructor.
  - destruct s as [|c s]; [injection E as <-; left; split; constructor|]. destruct (name_char c) eqn:C.
    + destruct (name_of n s) as [x' r] eqn:E'. injection E as <- ->. cbn in L.
      destruct (IH _ _ E') as [[-> N]|(y & -> & ->)]; [lia| |].
      * left. split; auto. constructor; auto.
      * right. exists (c :: y). split; reflexivity.
    + destruct (escape_ok (c :: s)) eqn:X; [|discriminate]. cbn in X. apply andb_prop in X as [X _]. apply N.eqb_eq in X. subst c.
      destruct s as [|d s].
      * cbn [unescape] in E. destruct n; injection E as <-; right; exists []; split; reflexivity.
      * pose proof (unescape_len (d :: s)) as U. destruct (unescape (d :: s)) as [v r]. cbn [snd] in U.
        pose proof (name_of_len n r) as W. destruct (name_of n r) as [x' r']. injection E as <- ->. cbn in *. lia.
Qed.

Definition pre1 (c : char) : char :=
  if (c =? 13) || (c =? 12) then 10 else if (c =? 0) || surrogate c then replacement else c.
Lemma preprocess_len s : (List.length (preprocess s) <= List.length s)%nat
  /\ (List.length (preprocess s) = List.length s -> preprocess s = map pre1 s).
Proof.
  assert (X : forall n s, (List.length s <= n)%nat -> (List.length (preprocess s) <= List.length s)%nat
     /\ (List.length (preprocess s) = List.length s -> preprocess s = map pre1 s)); [|now apply (X (List.length s))].
  clear s. induction n as [|n IH]; intros s L; (destruct s as [|c s]; [split; [apply le_n|reflexivity]|]); cbn in L; [lia|].
  destruct (IH s ltac:(lia)) as [A B]. cbn [preprocess map]. unfold pre1 at 1.
  destruct (N.eqb_spec c 13).
  - destruct s as [|d s]; [split; [apply le_n|reflexivity]|]. destruct (N.eqb_spec d 10).
    + cbn [List.length] in L. destruct (IH s ltac:(lia)) as [C _]. cbn [List.length]. split; lia.
    + cbn [orb List.length] in *. split; [lia|]. intros E. f_equal. apply B. lia.
  - destruct (N.eqb_spec c 12); cbn [orb]; [cbn [List.length]; split; [lia|intros E; f_equal; apply B; lia]|].
    destruct ((c =? 0) || surrogate c); cbn [List.length]; (split; [lia|intros E; f_equal; apply B; lia]).
Qed.

Lemma starts_named x s : starts_name x = true -> named x -> starts_name (x ++ s) = true.
Proof.
  destruct x as [|c x]; [discriminate|]. cbn [starts_name app]. intros H N. inversion_clear N.
  destruct (c =? 45).
  - destruct x as [|d x]; [discriminate|]. cbn [app]. inversion_clear H1.
    rewrite escape_not in H by (now apply name_char_plain). rewrite orb_false_r in H. now rewrite H.
  - rewrite escape_not in H by (now apply name_char_plain). rewrite orb_false_r in H. now rewrite H.
Qed.

Lemma selected_iff x : scalar x -> selected x <-> named x /\ starts_name x = true.
Proof.
  intros S. unfold selected, class_selector. rewrite preprocess_cons by (easy || reflexivity). rewrite N.eqb_refl, andb_true_l.
  split.
  - destruct (starts_name (preprocess x)) eqn:St; [|discriminate]. intros E. injection E as E.
    pose proof (name_of_len (List.length (preprocess x)) (preprocess x)) as W. rewrite E in W. cbn [fst snd List.length] in W.
    destruct (preprocess_len x) as [P Q].
    destruct (name_of_exact _ _ _ E ltac:(lia)) as [[F N]|(y & F1 & F2)].
    + rewrite <- F in *. auto.
    + rewrite Q in F1 by lia. rewrite F2, map_app in F1. apply app_inj_tail in F1 as [_ F1]. discriminate.
  - intros [N T]. assert (P : preprocess x = x).
    { pose proof (preprocess_named x [] N S) as P. now rewrite !app_nil_r in P. }
    rewrite P, T.
    f_equal. pose proof (name_of_named x (List.length x) [] N I (le_n _)) as E. now rewrite app_nil_r in E.
Qed.

(** ** Attributes *)
Lemma tokens_named x : forall cur s, named x -> tokens cur (x ++ s) = tokens (cur ++ x) s.
Proof.
  induction x as [|c x IH]; intros cur s N; [now rewrite app_nil_r|]. inversion_clear N.
  destruct (name_char_plain c H) as (_ & _ & _ & _ & B). cbn [app tokens]. rewrite B, IH by auto.
  now rewrite <- app_assoc.
Qed.
Lemma tokens_split s : forall cur t, tokens cur (s ++ 32 :: t) = tokens cur s ++ tokens [] t.
Proof.
  induction s as [|c s IH]; intros cur t; cbn [app tokens]; [reflexivity|].
  destruct (html_blank c); [now rewrite IH, app_assoc|apply IH].
Qed.
Lemma one_named x : x <> [] -> named x -> one_class x.
Proof.
  intros Ne N before after. unfold classes. cbn [app]. rewrite tokens_split, tokens_named by auto. cbn [app].
  f_equal. change (32 :: after) with ([] ++ 32 :: after). rewrite tokens_split. destruct x; [easy|reflexivity].
Qed.

(** ** Names *)
Lemma alnum_name c : is_ascii_alnum c = true -> name_char c = true /\ (name_start c = true -> letter c = true) /\ c <> 45 /\ surrogate c = false.
Proof.
  unfold is_ascii_alnum, is_ascii_alpha, is_ascii_digit, name_char, name_start, letter, digit, surrogate.
  intros H. bools. lia.
Qed.

(** The suffixes that are generated *)
Definition suffix_ok (s : str) : Prop := rand_entropy s \/ exists n, s = counter_entropy n.

Lemma digits_named d : named (uint_digits d).
Proof. induction d; cbn [uint_digits]; constructor; auto. Qed.
Lemma digits_scalar d : scalar (uint_digits d).
Proof. induction d; cbn [uint_digits]; constructor; auto. Qed.

Lemma suffix_named s : suffix_ok s ->
  named s /\ scalar s /\ exists c r, s = c :: r /\ c <> 45 /\ (name_start c = true -> letter c = true).
Proof.
  intros [[L A]|[n ->]].
  - rewrite forallb_forall in A. split; [|split].
    + apply Forall_forall. intros c I. now apply alnum_name, A.
    + apply Forall_forall. intros c I. now apply alnum_name, A.
    + destruct s as [|c s]; [discriminate|]. destruct (alnum_name c (A c (or_introl eq_refl))) as (_ & ? & ? & _). eauto.
  - unfold counter_entropy, decimal. split; [|split].
    + apply Forall_app. split; [|apply digits_named]. repeat constructor.
    + apply Forall_app. split; [|apply digits_scalar]. repeat constructor.
    + eexists _, _. split; [reflexivity|]. split; [discriminate|reflexivity].
Qed.

Lemma letter_start c : letter c = true -> name_start c = true.
Proof. unfold name_start. intros ->. reflexivity. Qed.

Lemma scoped_selected_iff p suffix : suffix_ok suffix -> scalar p ->
  selected (new_scoped p suffix) <-> fit_prefix p suffix.
Proof.
  intros Su Sp. destruct (suffix_named _ Su) as (N & S & c & r & -> & Nd & Le).
  assert (Sc : scalar (new_scoped p (c :: r))).
  { unfold new_scoped, scalar. rewrite !Forall_app. repeat split; auto. repeat constructor. }
  rewrite selected_iff by exact Sc. unfold fit_prefix.
  assert (Na : named (new_scoped p (c :: r)) <-> named p).
  { unfold new_scoped, named. rewrite !Forall_app. split; [tauto|]. intros H. repeat split; auto. repeat constructor. }
  rewrite Na. split; intros [H1 H2]; (split; [exact H1|]).
  - unfold new_scoped in H2. destruct p as [|x p].
    + exists c, r. split; auto. cbn [app lit] in H2.
      change (name_start c || (c =? 45) || escape_ok (c :: r) = true) in H2.
      rewrite escape_not, orb_false_r in H2 by (inversion_clear N; now apply name_char_plain).
      destruct (N.eqb_spec c 45); [easy|]. rewrite orb_false_r in H2. auto.
    + cbn [app starts_name] in H2. inversion H1 as [|? ? X1 X2]; subst.
      destruct (N.eqb_spec x 45).
      * destruct p as [|y p]; [exact I|]. inversion X2 as [|? ? Y1 Y2]; subst. cbn [app] in H2.
        rewrite escape_not, orb_false_r in H2 by (now apply name_char_plain).
        apply orb_prop in H2 as [H2|H2]; auto. right. now apply N.eqb_eq.
      * rewrite escape_not, orb_false_r in H2 by (now apply name_char_plain). exact H2.
  - unfold new_scoped. destruct p as [|x p].
    + destruct H2 as (c' & r' & E & H2). injection E as <- <-.
      change (name_start c || (c =? 45) || escape_ok (c :: r) = true). now rewrite (letter_start c H2).
    + cbn [app starts_name]. destruct (N.eqb_spec x 45).
      * destruct p as [|y p]; [reflexivity|]. cbn [app]. destruct H2 as [H2|H2]; rewrite H2; reflexivity.
      * now rewrite H2.
Qed.

Lemma name_of_app x : forall n s, named x ->
  name_of (List.length x + n) (x ++ s) = (x ++ fst (name_of n s), snd (name_of n s)).
Proof.
  induction x as [|c x IH]; intros n s N; cbn [app List.length plus]; [now destruct (name_of n s)|].
  inversion_clear N. cbn [name_of]. now rewrite H, IH.
Qed.

(** In a selector, before any text. *)
Lemma class_read x s : scalar x -> selected x ->
  class_selector (46 :: x ++ s) = Some (x, preprocess s) <-> ends_name (preprocess s).
Proof.
  intros S H. apply (selected_iff x S) in H as [N T].
  unfold class_selector. rewrite preprocess_cons by (easy || reflexivity). rewrite preprocess_named by auto.
  rewrite N.eqb_refl, starts_named by auto. cbn [andb]. split.
  - intros E. injection E as E. rewrite app_length, name_of_app in E by auto. injection E as E1 _.
    rewrite <- (app_nil_r x) in E1 at 2. apply app_inv_head in E1.
    destruct (preprocess s) as [|c r]; [exact I|]. cbn [List.length name_of] in E1. cbn [ends_name].
    destruct (name_char c); [destruct (name_of _ _); discriminate|]. split; [reflexivity|].
    destruct (escape_ok (c :: r)); [|reflexivity].
    destruct (unescape r) as [v r']. destruct (name_of _ r'). discriminate.
  - intros E. f_equal. apply name_of_named; auto. rewrite app_length. lia.
Qed.
