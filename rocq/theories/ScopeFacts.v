(** * ScopeFacts: proofs about selector scoping. *)

From Coq Require Import String Ascii List NArith Bool Arith Lia.
From Verif Require Import Str StrFacts Ast Render SpecRender RenderFacts RenderRead.
Import ListNotations.
Local Open Scope list_scope.

Definition root_lit : str := lit ":root".

(** No occurrence of [:root] starts inside [a] when followed by [b]. *)
Definition quiet (a b : str) : Prop :=
  forall a1 a2, a = a1 ++ a2 -> a2 <> [] -> starts_with root_lit (a2 ++ b) = false.

Lemma replace_quiet r a b : quiet a b -> replace_str root_lit r (a ++ b) = a ++ replace_str root_lit r b.
Proof.
  unfold replace_str. induction a as [|x a IH]; intros Q; [easy|].
  assert (Q0 := Q [] (x :: a) eq_refl ltac:(easy)). cbn [app] in Q0.
  cbn [app replace_aux]. rewrite Q0. f_equal. apply IH.
  intros a1 a2 -> Hn. now apply (Q (x :: a1) a2).
Qed.

Definition no_root (p : str) : Prop := ~ exists a b, p = a ++ root_lit ++ b.

Definition rot (c : char) : bool := mem c (lit "rot").

Lemma quiet_plain p b :
  no_root p -> match b with [] => True | c :: _ => rot c = false end -> quiet p b.
Proof.
  intros Hp Hb p1 p2 -> Hn. destruct (starts_with root_lit (p2 ++ b)) eqn:E; [|easy]. exfalso.
  apply starts_with_spec in E as [t Ht].
  destruct (le_lt_dec (List.length root_lit) (List.length p2)) as [L|L].
  - symmetry in Ht. destruct (app_split _ _ _ _ Ht L) as [q ->]. apply Hp. now exists p1, q.
  - (* p2 is a proper, non-empty prefix of :root, so b starts with r, o or t *)
    destruct p2 as [|c0 p2]; [easy|]. cbn in Ht. injection Ht as -> Ht.
    destruct p2 as [|c1 p2]; [destruct b as [|x b]; [easy|]; cbn in Ht; injection Ht as -> ?; easy|].
    cbn in Ht. injection Ht as -> Ht.
    destruct p2 as [|c2 p2]; [destruct b as [|x b]; [easy|]; cbn in Ht; injection Ht as -> ?; easy|].
    cbn in Ht. injection Ht as -> Ht.
    destruct p2 as [|c3 p2]; [destruct b as [|x b]; [easy|]; cbn in Ht; injection Ht as -> ?; easy|].
    cbn in Ht. injection Ht as -> Ht.
    destruct p2 as [|c4 p2]; [destruct b as [|x b]; [easy|]; cbn in Ht; injection Ht as -> ?; easy|].
    cbn in L. lia.
Qed.

Lemma no_root_no_colon p : ~ In (ch ":") p -> no_root p.
Proof. intros H (a & b & ->). apply H. apply in_or_app. right. now left. Qed.

(** In a text without colon no [:root] can start. *)
Lemma quiet_no_colon p b : ~ In (ch ":") p -> quiet p b.
Proof.
  intros H p1 p2 -> Hn. destruct p2 as [|c p2]; [easy|].
  change (starts_with root_lit ((c :: p2) ++ b)) with (char_eqb (ch ":") c && starts_with (lit "root") (p2 ++ b)).
  destruct (char_eqb (ch ":") c) eqn:E; [|easy]. apply char_eqb_eq in E. subst c.
  exfalso. apply H. apply in_or_app. right. now left.
Qed.

Lemma replace_root_head r b : replace_str root_lit r (root_lit ++ b) = r ++ replace_str root_lit r b.
Proof.
  unfold replace_str. change (root_lit ++ b) with (ch ":" :: lit "root" ++ b).
  cbn [replace_aux]. change (starts_with root_lit (ch ":" :: lit "root" ++ b)) with (starts_with root_lit (root_lit ++ b)).
  rewrite starts_with_app, replace_aux_skip. reflexivity.
Qed.

(** Replacing both markers. *)
Definition both (c s : str) : str :=
  replace_str root_lit (lit "." ++ c) (replace_char (ch "&") (lit "." ++ c) s).

Lemma replace_char_root r : replace_char (ch "&") r root_lit = root_lit.
Proof. reflexivity. Qed.

Lemma weave_head pieces last :
  Forall (fun pm => marker (snd pm)) pieces ->
  forall c, ~ In (ch ":") c ->
  Forall (fun pm => plain_piece (fst pm)) pieces -> plain_piece last ->
  both c (weave pieces last) = weave (map (fun pm => (fst pm, lit "." ++ c)) pieces) last.
Proof.
  intros Hm c Hc Hp Hl.
  assert (Hcls : ~ In (ch ":") (lit "." ++ c)) by (intros [X|X]; [discriminate|easy]).
  unfold both. induction pieces as [|[p m] pieces IH]; cbn [weave map].
  - rewrite replace_char_none by apply Hl.
    rewrite <- (app_nil_r last) at 1. rewrite replace_quiet; [now rewrite app_nil_r|].
    apply quiet_plain; [apply Hl|exact I].
  - inversion_clear Hm as [|? ? M1 M2]. inversion_clear Hp as [|? ? P1 P2].
    cbn [fst snd] in *. specialize (IH M2 P2). destruct P1 as [P1 P1'].
    rewrite !replace_char_app. rewrite (replace_char_none _ _ p) by easy.
    destruct M1 as [-> | ->].
    + change (replace_char (ch "&") (lit "." ++ c) (lit "&")) with ((lit "." ++ c) ++ []).
      rewrite app_nil_r. rewrite replace_quiet; [|now apply quiet_plain].
      rewrite replace_quiet by now apply quiet_no_colon. now rewrite IH.
    + rewrite replace_char_root. rewrite replace_quiet; [|now apply quiet_plain].
      rewrite replace_root_head. now rewrite IH.
Qed.

Lemma weave_has_marker pieces last :
  pieces <> [] -> Forall (fun pm => marker (snd pm)) pieces ->
  contains_char (ch "&") (weave pieces last) || contains_str (lit ":root") (weave pieces last) = true.
Proof.
  intros Hn Hm. destruct pieces as [|[p m] pieces]; [easy|]. inversion_clear Hm as [|? ? M1 M2].
  cbn [snd weave] in *. apply orb_true_iff. destruct M1 as [-> | ->].
  - left. apply contains_char_spec. apply in_or_app. right. now left.
  - right. apply contains_str_spec. now exists p, (weave pieces last).
Qed.

(** C05, markers *)
Lemma scoped_markers c pieces last sel :
  ~ In (ch ":") c -> pieces <> [] ->
  Forall (fun pm => plain_piece (fst pm) /\ marker (snd pm)) pieces -> plain_piece last ->
  List.concat sel = weave pieces last ->
  write_selector (Some c) sel = weave (map (fun pm => (fst pm, lit "." ++ c)) pieces) last.
Proof.
  intros Hc Hn Hp Hl E. rewrite write_selector_scoped. unfold scoped. rewrite E.
  rewrite weave_has_marker; [|easy|].
  - apply weave_head; auto; eapply Forall_impl; try exact Hp; now intros ? [? ?].
  - eapply Forall_impl; [|exact Hp]. now intros ? [? ?].
Qed.

(** C05, no markers *)
Lemma scoped_plain c sel :
  plain_piece (List.concat sel) ->
  write_selector (Some c) sel =
  lit "." ++ c ++ (if starts_with (lit ":") (List.concat sel) then [] else lit " ") ++ List.concat sel.
Proof.
  intros [H1 H2]. rewrite write_selector_scoped. unfold scoped.
  destruct (contains_char _ _) eqn:E1; [now apply contains_char_spec in E1|].
  destruct (contains_str _ _) eqn:E2; [now apply contains_str_spec in E2|].
  cbn [orb]. now destruct (starts_with _ _).
Qed.

(** Every text is a weave of plain pieces and markers. *)
Lemma weave_exists s :
  exists pieces last, s = weave pieces last
    /\ Forall (fun pm => plain_piece (fst pm) /\ marker (snd pm)) pieces /\ plain_piece last.
Proof.
  remember (List.length s) as n eqn:En. assert (L : List.length s <= n) by lia. clear En.
  revert s L; induction n as [|n IH]; intros s L.
  - destruct s; [|cbn in L; lia]. exists [], []. repeat split; auto.
    intros (a & b & H). symmetry in H. apply app_eq_nil in H as [_ H]. discriminate.
  - (* find the first marker *)
    assert (F : plain_piece s \/ exists p m t, s = p ++ m ++ t /\ plain_piece p /\ marker m).
    { clear IH L. induction s as [|x s IHs].
      - left. split; [easy|]. intros (a & b & H). symmetry in H. apply app_eq_nil in H as [_ H]. discriminate.
      - destruct (char_eqb x (ch "&")) eqn:Ex.
        { apply char_eqb_eq in Ex. subst. right. exists [], (lit "&"), s. repeat split; try easy; [|now left].
          intros (a & b & H). symmetry in H. apply app_eq_nil in H as [_ H]. discriminate. }
        destruct (starts_with root_lit (x :: s)) eqn:Er.
        { apply starts_with_spec in Er as [t ->]. right. exists [], root_lit, t. repeat split; try easy; [|now right].
          intros (a & b & H). symmetry in H. apply app_eq_nil in H as [_ H]. discriminate. }
        apply char_eqb_neq in Ex.
        assert (Add : forall p rest, s = p ++ rest -> plain_piece p -> plain_piece (x :: p)).
        { intros p rest Hs [P1 P2]. split; [intros [|]; auto|].
          intros (a & b & H). destruct a as [|y a].
          - cbn [app] in H. assert (starts_with root_lit (x :: s) = true); [|congruence].
            apply starts_with_spec. exists (b ++ rest). rewrite Hs.
            change (x :: p ++ rest) with ((x :: p) ++ rest). rewrite H. cbn. now rewrite <- ?app_assoc.
          - cbn [app] in H. injection H as -> ->. apply P2. now exists a, b. }
        destruct IHs as [Hp|(p & m & t & Hs & Hp & Hm)].
        + left. apply (Add s []); [now rewrite app_nil_r|easy].
        + right. exists (x :: p), m, t. split; [now rewrite Hs|]. split; [|easy]. eapply Add; eauto. }
    destruct F as [Hp|(p & m & t & -> & Hp & Hm)].
    + exists [], s. repeat split; auto; apply Hp.
    + destruct (IH t) as (pieces & last & -> & H1 & H2).
      { rewrite !app_length in L. destruct Hm as [-> | ->]; cbn in L; lia. }
      exists ((p, m) :: pieces), last. split; [easy|]. split; [|easy]. constructor; [now split|easy].
Qed.

Lemma sub_text_contains c s : sub_text c s <-> contains_str c s = true.
Proof. symmetry. apply contains_str_spec. Qed.

Lemma sub_text_app_r c a b : sub_text c b -> sub_text c (a ++ b).
Proof. intros (x & y & ->). exists (a ++ x), y. now rewrite <- app_assoc. Qed.
Lemma sub_text_app_l c a b : sub_text c a -> sub_text c (a ++ b).
Proof. intros (x & y & ->). exists x, (y ++ b). now rewrite <- !app_assoc. Qed.

(** C05, the class is always mentioned *)
Lemma scoped_mentions_class c sel :
  ~ In (ch ":") c -> sub_text (lit "." ++ c) (write_selector (Some c) sel).
Proof.
  intros Hc. destruct (weave_exists (List.concat sel)) as (pieces & last & E & Hp & Hl).
  destruct pieces as [|[p m] pieces].
  - cbn in E. rewrite scoped_plain by now rewrite E. rewrite app_assoc. apply sub_text_app_l.
    exists [], []. now rewrite app_nil_r.
  - erewrite (scoped_markers c ((p, m) :: pieces) last); eauto; [|easy].
    cbn [map weave fst]. apply sub_text_app_r. apply sub_text_app_l. exists [], []. now rewrite app_nil_r.
Qed.

(** C06 *)
Lemma global_selector sel : write_selector None sel = replace_char (ch "&") (lit ":root") (List.concat sel).
Proof. apply write_selector_scoped. Qed.

(** ** Quoted text *)

Lemma replace_str_keeps_quoted r q n : forall a b,
  List.length a <= n -> no_root q -> ~ In 34%N root_lit ->
  exists a' b', replace_str root_lit r (a ++ quoted q ++ b) = a' ++ quoted q ++ b'.
Proof.
  induction n as [|n IH]; intros a b L Hq H34.
  - destruct a; [|cbn in L; lia]. cbn [app].
    exists [], (replace_str root_lit r b). cbn [app].
    assert (Q : no_root (quoted q)).
    { intros (x & y & E). unfold quoted in E. destruct x as [|x0 x]; [discriminate|].
      apply (f_equal (@tl _)) in E. change (q ++ [34%N] = x ++ root_lit ++ y) in E. apply Hq.
      (* the occurrence lies inside q: its last char is not the closing quote *)
      destruct y as [|y0 y _] using rev_ind.
      - rewrite app_nil_r in E. apply (f_equal (@rev _)) in E. rewrite !rev_app_distr in E. discriminate.
      - exists x, y. rewrite !app_assoc in E. apply app_inj_tail in E as [E _]. now rewrite <- app_assoc in E. }
    assert (Qt : quiet (quoted q) b).
    { intros q1 q2 E Hn. destruct (starts_with root_lit (q2 ++ b)) eqn:Es; [|easy]. exfalso.
      apply starts_with_spec in Es as [t Ht].
      destruct (le_lt_dec (List.length root_lit) (List.length q2)) as [L'|L'].
      - symmetry in Ht. destruct (app_split _ _ _ _ Ht L') as [u ->]. apply Q. now exists q1, u.
      - (* q2 is a proper prefix of :root ending in a quote *)
        assert (Lt : In 34%N q2).
        { destruct q2 as [|z q2 _] using rev_ind; [easy|]. unfold quoted in E.
          rewrite !app_assoc in E. apply app_inj_tail in E as [_ <-]. apply in_or_app. right. now left. }
        destruct (app_split _ _ _ _ Ht (Nat.lt_le_incl _ _ L')) as [u Hu].
        apply H34. rewrite Hu. apply in_or_app. now left. }
    now rewrite replace_quiet.
  - destruct a as [|x a]; [apply IH; auto; cbn; lia|].
    destruct (starts_with root_lit ((x :: a) ++ quoted q ++ b)) eqn:Es.
    + apply starts_with_spec in Es as [t Ht].
      destruct (le_lt_dec (List.length root_lit) (List.length (x :: a))) as [L'|L'].
      * symmetry in Ht. destruct (app_split _ _ _ _ Ht L') as [u Hu]. rewrite Hu, <- app_assoc, replace_root_head.
        destruct (IH u b) as (a' & b' & ->); auto.
        { apply (f_equal (@List.length _)) in Hu. rewrite app_length in Hu. cbn in *. lia. }
        exists (r ++ a'), b'. now rewrite <- app_assoc.
      * exfalso. destruct (app_split _ _ _ _ Ht (Nat.lt_le_incl _ _ L')) as [u Hu].
        destruct u as [|u0 u]; [rewrite app_nil_r in Hu; rewrite Hu in L'; lia|].
        rewrite Hu in Ht. rewrite <- app_assoc in Ht. apply app_inv_head in Ht.
        unfold quoted in Ht. cbn [app] in Ht. injection Ht as <- _.
        apply H34. rewrite Hu. apply in_or_app. right. now left.
    + destruct (IH a b) as (a' & b' & E); auto; [cbn in L; lia|].
      exists (x :: a'), b'. unfold replace_str in *. cbn [app replace_aux].
      cbn [app] in Es. rewrite Es. now rewrite E.
Qed.

Lemma quoted_text_kept class a body b sel :
  ~ In (ch "&") body -> no_root body ->
  List.concat sel = a ++ quoted body ++ b ->
  sub_text (quoted body) (write_selector class sel).
Proof.
  intros H1 H2 E. rewrite write_selector_scoped. unfold scoped. rewrite E.
  assert (R : forall r, replace_char (ch "&") r (a ++ quoted body ++ b) =
                        replace_char (ch "&") r a ++ quoted body ++ replace_char (ch "&") r b).
  { intros r. rewrite !replace_char_app. do 2 f_equal. apply replace_char_none.
    unfold quoted. intros X. apply in_app_or in X as [[X|[]]|X]; [discriminate|].
    apply in_app_or in X as [X|[X|[]]]; [easy|discriminate]. }
  destruct class as [c|].
  - destruct (_ || _).
    + rewrite R. change (lit ":root") with root_lit. destruct (replace_str_keeps_quoted (lit "." ++ c) body _ (replace_char (ch "&") (lit "." ++ c) a)
                             (replace_char (ch "&") (lit "." ++ c) b) (Nat.le_refl _) H2) as (a' & b' & ->).
      { cbn. intuition discriminate. }
      now exists a', b'.
    + destruct (starts_with _ _).
      * do 2 apply sub_text_app_r. now exists a, b.
      * do 3 apply sub_text_app_r. now exists a, b.
  - rewrite R. eexists. eexists. reflexivity.
Qed.

(** ** Declarations never escape the class *)

Lemma sub_text_join c sep l : l <> [] -> Forall (sub_text c) l -> sub_text c (join sep l).
Proof.
  destruct l as [|x [|y l]]; intros Hn H; inversion_clear H as [|? ? H1 H2]; [easy| |].
  - exact H1.
  - cbn [join]. now apply sub_text_app_l.
Qed.

Lemma block_sel_mentions c sel cond :
  ~ In (ch ":") c -> Forall (sub_text (lit "." ++ c)) (opt_list sel) ->
  sub_text (lit "." ++ c) (block_sel (Some c) sel cond).
Proof.
  intros Hc Hs. unfold block_sel. destruct cond as [|s cond].
  - destruct sel as [s|]; [now inversion_clear Hs|]. exists [], []. cbn. now rewrite app_nil_r.
  - apply sub_text_join; [easy|]. apply Forall_map. apply Forall_forall. intros x _.
    rewrite <- write_selector_scoped. now apply scoped_mentions_class.
Qed.

Lemma decls_mention c d : ~ In (ch ":") c -> forall rules sel,
  (sel = None -> in_blocks d = true) ->
  Forall (sub_text (lit "." ++ c)) (opt_list sel) ->
  Forall (fun i => exists p s, item_path i = p ++ [s] /\ sub_text (lit "." ++ c) s)
         (decls_of (Some c) rules sel d).
Proof.
  intros Hc. induction d as [a|cond content IH|cond content IH| |d l IHd IHl] using rbc_ind2 with
    (Q := fun l => forall rules sel,
       (sel = None -> forallb in_blocks l = true) ->
       Forall (sub_text (lit "." ++ c)) (opt_list sel) ->
       Forall (fun i => exists p s, item_path i = p ++ [s] /\ sub_text (lit "." ++ c) s)
         (flat_map (decls_of (Some c) rules sel) l)).
  - intros rules sel Hb Hs. destruct sel as [s|]; [|now specialize (Hb eq_refl)].
    constructor; [|constructor]. exists rules, s. split; [easy|]. now inversion_clear Hs.
  - intros rules sel Hb Hs. cbn [decls_of]. now apply IH.
  - intros rules sel Hb Hs. cbn [decls_of]. apply IH; [easy|].
    constructor; [|constructor]. now apply block_sel_mentions.
  - constructor.
  - intros rules sel Hb Hs. cbn [flat_map]. apply Forall_app. split.
    + apply IHd; [|easy]. intros E. specialize (Hb E). cbn in Hb. now apply andb_true_iff in Hb.
    + apply IHl; [|easy]. intros E. specialize (Hb E). cbn in Hb. now apply andb_true_iff in Hb.
Qed.

(** ** Dangling declarations *)
Lemma decls_wrap class conds c rules sel :
  decls_of class rules sel (wrap_rules conds c) = decls_of class (rules ++ map (@List.concat _) conds) sel c.
Proof.
  revert rules; induction conds as [|cond conds IH]; intros rules; cbn [wrap_rules decls_of map].
  - now rewrite app_nil_r.
  - cbn [flat_map]. rewrite app_nil_r, IH. now rewrite <- app_assoc.
Qed.
