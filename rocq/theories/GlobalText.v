(** * GlobalText: when a sheet reads the same with a class and without one. *)

From Coq Require Import String Ascii List NArith Bool Arith Lia.
From Verif Require Import Str StrFacts Ast Manager Render SpecRender RenderFacts SpecGlobalText.
Import ListNotations.
Local Open Scope list_scope.

(** ** Texts that differ whatever follows *)

Definition apart (a b : str) : Prop := forall s t, a ++ s <> b ++ t.

Lemma apart_after x a b : apart a b -> apart (x ++ a) (x ++ b).
Proof. intros H s t E. rewrite <- !app_assoc in E. apply app_inv_head in E. exact (H _ _ E). Qed.
Lemma apart_before a b u v : apart a b -> apart (a ++ u) (b ++ v).
Proof. intros H s t E. rewrite <- !app_assoc in E. exact (H _ _ E). Qed.
Lemma apart_head x y a b : x <> y -> apart (x :: a) (y :: b).
Proof. intros H s t E. cbn in E. congruence. Qed.
Lemma apart_cons x a b : apart a b -> apart (x :: a) (x :: b).
Proof. intros H s t E. cbn in E. injection E as E. exact (H _ _ E). Qed.
Lemma apart_neq a b : apart a b -> a <> b.
Proof. intros H E. apply (H [] []). now rewrite E. Qed.

Lemma app_split_or {A} (a b u v : list A) : a ++ u = b ++ v ->
  (exists q, b = a ++ q) \/ (exists q, a = b ++ q).
Proof.
  revert b. induction a as [|x a IH]; intros b E; [left; now exists b|].
  destruct b as [|y b]; [right; now exists (x :: a)|]. cbn in E. injection E as -> E.
  destruct (IH b E) as [[q ->]|[q ->]]; [left|right]; now exists q.
Qed.

(** ** Selectors *)

Section Class.
  Variable c : str.
  Hypothesis plain : forallb ident_char c = true.

  Lemma starts_replace p j : ~ In (ch "&") p -> ~ In (ch ".") p ->
    starts_with p (replace_char (ch "&") (lit "." ++ c) j) = starts_with p j.
  Proof.
    revert j. induction p as [|x p IH]; intros j H1 H2; [reflexivity|]. destruct j as [|y j]; [reflexivity|].
    cbn [replace_char flat_map]. destruct (char_eqb y (ch "&")) eqn:E.
    - apply char_eqb_eq in E. subst y. cbn [starts_with app lit map list_ascii_of_string].
      assert (E1 : char_eqb x (N_of_ascii ".") = false).
      { apply char_eqb_neq. intros ->. apply H2. now left. }
      assert (E2 : char_eqb x (ch "&") = false).
      { apply char_eqb_neq. intros ->. apply H1. now left. }
      now rewrite E1, E2.
    - cbn [app starts_with]. f_equal. apply IH; intros K; [apply H1|apply H2]; now right.
  Qed.

  Lemma marked_apart j :
    contains_char (ch "&") j || contains_str (lit ":root") j = true ->
    apart (replace_str (lit ":root") (lit "." ++ c) (replace_char (ch "&") (lit "." ++ c) j))
          (replace_char (ch "&") (lit ":root") j).
  Proof.
    induction j as [|x j IH]; intros H; [discriminate|].
    destruct (char_eqb x (ch "&")) eqn:E.
    - apply char_eqb_eq in E. subst x. now apply apart_head.
    - assert (N1 : ~ In (ch "&") (lit ":root")).
      { cbv. intros K. repeat (destruct K as [K|K]; [discriminate|]). exact K. }
      assert (N2 : ~ In (ch ".") (lit ":root")).
      { cbv. intros K. repeat (destruct K as [K|K]; [discriminate|]). exact K. }
      destruct (starts_with (lit ":root") (x :: j)) eqn:S.
      + assert (S' := S). rewrite <- (starts_replace _ _ N1 N2) in S'.
        apply starts_with_spec in S as [t ->]. unfold replace_str.
        rewrite (replace_char_app _ _ (lit ":root") t), (replace_char_app _ (lit ":root") (lit ":root") t).
        now apply apart_head.
      + assert (S' := S). rewrite <- (starts_replace _ _ N1 N2) in S'.
        assert (H' : contains_char (ch "&") j || contains_str (lit ":root") j = true).
        { apply orb_true_iff in H as [H|H]; apply orb_true_iff; [left|right].
          - apply contains_char_spec in H. apply contains_char_spec.
            destruct H as [->|H]; [now rewrite char_eqb_refl in E|exact H].
          - change (starts_with (lit ":root") (x :: j) || contains_str (lit ":root") j = true) in H.
            now rewrite S in H. }
        specialize (IH H').
        assert (R : forall r, replace_char (ch "&") r (x :: j) = x :: replace_char (ch "&") r j).
        { intros r. unfold replace_char at 1. cbn [flat_map]. now rewrite E. }
        rewrite R in S'. rewrite !R. unfold replace_str in *.
        cbn [replace_aux]. rewrite S'. now apply apart_cons.
  Qed.

  (** A selector without a marker: the class goes in front, however often it stands there. *)
  Lemma in_front_apart x j s t : In x [lit ", "; lit " {"] ->
    (lit "." ++ c ++ lit " ") ++ j ++ s <> j ++ x ++ t.
  Proof.
    intros Hx. remember (List.length j) as n eqn:En. revert j En.
    induction n as [n IH] using lt_wf_ind. intros j -> E.
    set (p := lit "." ++ c ++ lit " ") in *.
    destruct (app_split_or p j (j ++ s) (x ++ t) E) as [[q Hq]|[q Hq]].
    - (* the class again *)
      rewrite Hq in E. rewrite <- !app_assoc in E. apply app_inv_head in E.
      refine (IH (List.length q) _ q eq_refl E). rewrite Hq, app_length.
      unfold p. cbn. lia.
    - rewrite Hq in E. rewrite <- app_assoc in E. apply app_inv_head in E.
      destruct j as [|j0 j].
      + cbn [app] in Hq. subst q. destruct Hx as [<-|[<-|[]]]; discriminate.
      + unfold p in Hq. cbn [app lit map list_ascii_of_string] in Hq. injection Hq as <- Hq.
        assert (K : exists d, q = d ++ lit " " /\ c = j ++ d \/ q = []).
        { destruct (app_split_or c j (lit " ") q Hq) as [[d Hd]|[d Hd]].
          - rewrite Hd, <- app_assoc in Hq. apply app_inv_head in Hq. destruct d as [|d0 d].
            + exists []. left. rewrite app_nil_r in Hd. split; [exact (eq_sym Hq)|now rewrite app_nil_r].
            + exists []. right. injection Hq as _ Hq. destruct d; [now destruct q|discriminate].
          - exists d. left. rewrite Hd, <- app_assoc in Hq. apply app_inv_head in Hq. split; [exact (eq_sym Hq)|exact Hd]. }
        destruct K as [d [[-> Hd]| ->]].
        * destruct d as [|d0 d].
          -- destruct Hx as [<-|[<-|[]]]; discriminate.
          -- assert (I : ident_char d0 = true).
             { rewrite Hd, forallb_app in plain. apply andb_true_iff in plain as [_ P]. cbn in P.
               now apply andb_true_iff in P. }
             destruct Hx as [<-|[<-|[]]]; cbn in E; injection E as E0 _; subst d0; discriminate I.
        * cbn [app] in E. destruct Hx as [<-|[<-|[]]]; discriminate.
  Qed.

  Lemma selector_apart sel x u v : In x [lit ", "; lit " {"] ->
    apart (write_selector (Some c) sel ++ u) (write_selector None sel ++ x ++ v).
  Proof.
    intros Hx. unfold write_selector.
    destruct (contains_char (ch "&") (List.concat sel) || contains_str (lit ":root") (List.concat sel)) eqn:M.
    - assert (E : (if contains_char (ch "&") (List.concat sel)
                   then replace_char (ch "&") (lit ":root") (List.concat sel) else List.concat sel)
                  = replace_char (ch "&") (lit ":root") (List.concat sel)).
      { destruct (contains_char (ch "&") (List.concat sel)) eqn:A; [reflexivity|].
        rewrite replace_char_none; [reflexivity|]. intros K. apply contains_char_spec in K. congruence. }
      rewrite E. apply apart_before. now apply marked_apart.
    - apply orb_false_iff in M as [M _]. rewrite M. intros s t E. rewrite <- !app_assoc in E.
      destruct (starts_with (lit ":") (List.concat sel)) eqn:S.
      + apply starts_with_spec in S as [r Hr]. rewrite Hr in E. discriminate.
      + refine (in_front_apart x (List.concat sel) (u ++ s) (v ++ t) Hx _).
        rewrite <- !app_assoc. exact E.
  Qed.

  (** The selectors of a block, with the class and without. *)
  Definition sels_apart (a b : str) : Prop := apart (a ++ lit " {") (b ++ lit " {").

  Lemma block_selectors_apart f g cond :
    (f_sel f = None /\ f_sel g = None
     \/ exists a b, f_sel f = Some a /\ f_sel g = Some b /\ sels_apart a b) ->
    sels_apart (block_selector (Some c) f (cond_str (Some c) cond))
               (block_selector None g (cond_str None cond)).
  Proof.
    intros H. unfold block_selector, cond_str. destruct cond as [|sel cond].
    - destruct H as [[-> ->]|(a & b & -> & -> & H)]; [|exact H]. now apply apart_head.
    - unfold sels_apart. cbn [map]. destruct cond as [|sel2 cond].
      + cbn [map join]. rewrite <- (app_nil_r (lit " {")) at 2. apply selector_apart. right. now left.
      + cbn [map join]. rewrite <- !app_assoc. apply selector_apart. now left.
  Qed.

  (** ** Contexts *)

  Lemma start_closed self ps : f_open self = false -> prefix (parent_conditions ps) (f_rules self) ->
    exists r, f_rules self = parent_conditions ps ++ r
      /\ start self ps = (set_open true self, ps,
           open_lines (List.length (parent_conditions ps)) 0
             (r ++ match f_sel self with Some s => [s] | None => [] end)).
  Proof.
    intros O [r Hr]. exists r. split; [exact Hr|].
    assert (P : conditions self = parent_conditions ps
                  ++ (r ++ match f_sel self with Some s => [s] | None => [] end)).
    { unfold conditions. now rewrite Hr, <- app_assoc. }
    assert (C : close_until_common_parent self ps = (ps, [])).
    { clear Hr O. revert P. generalize (r ++ match f_sel self with Some s => [s] | None => [] end).
      intros u. induction ps as [|m ps IH]; intros P; [reflexivity|]. cbn [close_until_common_parent].
      destruct (f_open m) eqn:Em.
      - assert (E : differ_conditions self (m :: ps) = []).
        { unfold differ_conditions, common_count. rewrite P.
          rewrite count_equal_prefix by apply prefix_app. now rewrite skipn_all. }
        now rewrite E.
      - rewrite parent_conditions_closed in P by exact Em. now rewrite (IH P). }
    unfold start. rewrite O, C. unfold unique_conditions, common_count. rewrite P.
    rewrite count_equal_prefix by apply prefix_app. now rewrite skipn_prefix.
  Qed.

  Lemma open_lines_last n i r s :
    open_lines n i (r ++ [s]) = open_lines n i r ++ padding n ++ padding (i + List.length r) ++ (s ++ lit " {") ++ nl.
  Proof.
    revert i. induction r as [|x r IH]; intros i; cbn [app open_lines List.length].
    - rewrite Nat.add_0_r, app_nil_r. now rewrite <- !app_assoc.
    - rewrite IH. rewrite <- !app_assoc. now rewrite Nat.add_succ_r.
  Qed.

  Definition text (x : frame * chain * str) : str := snd x.

  (** Contexts of a block, in the two renderings. *)
  Definition twins (f g : frame) (ps qs : chain) : Prop :=
    f_rules f = f_rules g /\ f_open f = false /\ f_open g = false
    /\ (exists a b, f_sel f = Some a /\ f_sel g = Some b /\ sels_apart a b)
    /\ parent_conditions ps = parent_conditions qs /\ prefix (parent_conditions ps) (f_rules f).

  Lemma twins_start f g ps qs : twins f g ps qs ->
    apart (text (start f ps)) (text (start g qs)).
  Proof.
    intros (R & Of & Og & (a & b & Sf & Sg & Ap) & Q & P).
    destruct (start_closed f ps Of P) as (r & Hr & ->).
    rewrite R, Q in P. destruct (start_closed g qs Og P) as (r' & Hr' & ->).
    rewrite R, Hr', Q in Hr. apply app_inv_head in Hr. subst r'.
    cbn [text snd]. rewrite Sf, Sg, Q, !open_lines_last. do 3 apply apart_after. now apply apart_before.
  Qed.

  Lemma twins_rule f g ps qs cond : twins f g ps qs ->
    twins (with_rule_condition f cond) (with_rule_condition g cond) (f :: ps) (g :: qs).
  Proof.
    intros (R & Of & Og & S & Q & P). unfold twins. cbn [with_rule_condition f_rules f_open f_sel].
    rewrite !parent_conditions_closed by assumption. rewrite R. repeat split; auto.
    rewrite <- R. destruct P as [t ->]. exists (t ++ [cond]). now rewrite app_assoc.
  Qed.
  Lemma twins_block f g ps qs cond : twins f g ps qs ->
    twins (with_block_condition (Some c) f (cond_str (Some c) cond))
          (with_block_condition None g (cond_str None cond)) (f :: ps) (g :: qs).
  Proof.
    intros (R & Of & Og & S & Q & P). unfold twins. cbn [with_block_condition f_rules f_open f_sel].
    rewrite !parent_conditions_closed by assumption. repeat split; auto.
    eexists. eexists. split; [reflexivity|]. split; [reflexivity|]. apply block_selectors_apart. now right.
  Qed.

  (** ** What writes nothing *)

  Fixpoint showsb (x : rbc) : bool :=
    match x with
    | CAttr _ => true
    | CRule cond l => starts_with (lit "@keyframes") (List.concat cond) || existsb showsb l
    | CBlock _ l => existsb showsb l
    end.
  Fixpoint shownb (x : rbc) : bool :=
    match x with
    | CAttr _ => false
    | CRule _ l => existsb shownb l
    | CBlock _ l => existsb showsb l
    end.

  Lemma finish_closed f ps : f_open f = false -> snd (finish f ps) = [].
  Proof. intros H. unfold finish. now rewrite H. Qed.

  Lemma silent class x : showsb x = false -> forall self ps, write_rbc class x self ps = (self, ps, []).
  Proof.
    induction x as [a|cond l IH|cond l IH| |x l IHx IHl] using rbc_ind2 with
      (Q := fun l => existsb showsb l = false ->
         forall self ps, write_all (write_rbc class) l self ps = (self, ps, [])).
    - discriminate.
    - intros H self ps. cbn [showsb] in H. apply orb_false_iff in H as [H1 H2]. cbn [write_rbc].
      rewrite H1, (IH H2). cbn [fst snd]. reflexivity.
    - intros H self ps. cbn [showsb] in H. cbn [write_rbc]. rewrite (IH H). reflexivity.
    - reflexivity.
    - intros H self ps. cbn [existsb] in H. apply orb_false_iff in H as [H1 H2]. cbn [write_all].
      now rewrite (IHx H1), (IHl H2).
  Qed.

  (** In a block, the first text differs. *)
  Lemma block_text_apart x : showsb x = true -> forall f g ps qs, twins f g ps qs ->
    apart (text (write_rbc (Some c) x f ps)) (text (write_rbc None x g qs)).
  Proof.
    induction x as [a|cond l IH|cond l IH| |x l IHx IHl] using rbc_ind2 with
      (Q := fun l => existsb showsb l = true -> forall f g ps qs, twins f g ps qs ->
         apart (text (write_all (write_rbc (Some c)) l f ps)) (text (write_all (write_rbc None) l g qs))).
    - intros _ f g ps qs T. apply twins_start in T. cbn [write_rbc]. unfold write_attr.
      destruct (start f ps) as [[f1 ps1] w1]. destruct (start g qs) as [[g1 qs1] w2].
      cbn [text snd] in *. now apply apart_before.
    - intros H f g ps qs T. cbn [write_rbc]. apply (twins_rule _ _ _ _ (List.concat cond)) in T.
      cbn [showsb] in H. destruct (starts_with (lit "@keyframes") (List.concat cond)).
      + apply twins_start in T.
        destruct (start (with_rule_condition f (List.concat cond)) (f :: ps)) as [[f1 ps1] w1].
        destruct (start (with_rule_condition g (List.concat cond)) (g :: qs)) as [[g1 qs1] w2].
        cbn [text snd] in T.
        destruct (write_all (write_rbc (Some c)) l f1 ps1) as [[f2 ps2] w3].
        destruct (write_all (write_rbc None) l g1 qs1) as [[g2 qs2] w4].
        destruct (finish f2 ps2) as [? w5]. destruct (finish g2 qs2) as [? w6].
        destruct ps2, qs2; cbn [text snd]; now apply apart_before.
      + specialize (IH H _ _ _ _ T).
        destruct (write_all (write_rbc (Some c)) l (with_rule_condition f (List.concat cond)) (f :: ps)) as [[f2 ps2] w3].
        destruct (write_all (write_rbc None) l (with_rule_condition g (List.concat cond)) (g :: qs)) as [[g2 qs2] w4].
        cbn [text snd] in IH.
        destruct (finish f2 ps2) as [? w5]. destruct (finish g2 qs2) as [? w6].
        destruct ps2, qs2; cbn [text snd app]; now apply apart_before.
    - intros H f g ps qs T. cbn [write_rbc]. apply (twins_block _ _ _ _ cond) in T.
      specialize (IH H _ _ _ _ T). cbv zeta.
      destruct (write_all (write_rbc (Some c)) l _ (f :: ps)) as [[f2 ps2] w3].
      destruct (write_all (write_rbc None) l _ (g :: qs)) as [[g2 qs2] w4].
      cbn [text snd] in IH.
      destruct (finish f2 ps2) as [? w5]. destruct (finish g2 qs2) as [? w6].
      destruct ps2, qs2; cbn [text snd app]; now apply apart_before.
    - discriminate.
    - intros H f g ps qs T. cbn [write_all]. destruct (showsb x) eqn:E.
      + specialize (IHx eq_refl _ _ _ _ T).
        destruct (write_rbc (Some c) x f ps) as [[f1 ps1] w1]. destruct (write_rbc None x g qs) as [[g1 qs1] w2].
        destruct (write_all (write_rbc (Some c)) l f1 ps1) as [[f2 ps2] w3].
        destruct (write_all (write_rbc None) l g1 qs1) as [[g2 qs2] w4].
        cbn [text snd] in *. now apply apart_before.
      + rewrite !(silent _ x E). cbn [existsb] in H. rewrite E in H. specialize (IHl H _ _ _ _ T).
        destruct (write_all (write_rbc (Some c)) l f ps) as [[f2 ps2] w3].
        destruct (write_all (write_rbc None) l g qs) as [[g2 qs2] w4].
        cbn [text snd app] in *. exact IHl.
  Qed.

  (** ** Under at-rules only *)

  Definition bare (self : frame) (ps : chain) : Prop :=
    f_sel self = None /\ Forall (fun m => f_sel m = None /\ prefix (f_rules m) (f_rules self)) ps.

  Lemma bare_parent self ps : bare self ps -> prefix (parent_conditions ps) (f_rules self).
  Proof.
    intros [_ H]. induction H as [|m ps [H1 H2] _ IH]; [apply prefix_nil|].
    destruct (f_open m) eqn:E.
    - rewrite parent_conditions_open by exact E. unfold conditions. now rewrite H1, app_nil_r.
    - now rewrite parent_conditions_closed by exact E.
  Qed.
  Lemma bare_same self ps self' ps' : same (self :: ps) (self' :: ps') -> bare self ps -> bare self' ps'.
  Proof.
    intros S [H1 H2]. apply same_tail in S as [S1 S2]. unfold shape in S1. injection S1 as E1 E2.
    split; [congruence|]. rewrite <- E1. clear E1 E2 H1. revert ps' S2.
    induction H2 as [|m ps [H1 H2] _ IH]; intros [|m' ps'] S2; try discriminate; constructor.
    - unfold same in S2. cbn [map] in S2. injection S2 as E1 E2 _. split; congruence.
    - apply IH. now apply (same_tail m ps m' ps').
  Qed.
  Lemma bare_rule self ps cond : bare self ps -> bare (with_rule_condition self cond) (self :: ps).
  Proof.
    intros [H1 H2]. split; [exact H1|]. cbn [with_rule_condition f_rules]. constructor.
    - split; [exact H1|]. apply prefix_app.
    - eapply Forall_impl; [|exact H2]. intros m [A [t B]]. split; [exact A|]. rewrite B.
      exists (t ++ [cond]). now rewrite app_assoc.
  Qed.
  Lemma bare_block self ps cond : bare self ps ->
    twins (with_block_condition (Some c) self (cond_str (Some c) cond))
          (with_block_condition None self (cond_str None cond)) (self :: ps) (self :: ps).
  Proof.
    intros B. assert (P : prefix (parent_conditions (self :: ps)) (f_rules self)).
    { destruct (f_open self) eqn:O.
      - rewrite parent_conditions_open by exact O. unfold conditions. rewrite (proj1 B), app_nil_r. apply prefix_refl.
      - rewrite parent_conditions_closed by exact O. now apply bare_parent. }
    unfold twins. cbn [with_block_condition f_rules f_open f_sel]. repeat split; auto.
    eexists. eexists. split; [reflexivity|]. split; [reflexivity|]. apply block_selectors_apart. left.
    split; apply B.
  Qed.

  (** Writing changes nothing of the contexts but the open flags. *)
  Definition keeps (self : frame) (ps : chain) (r : frame * chain * str) : Prop :=
    same (self :: ps) (fst (fst r) :: snd (fst r)).

  Lemma close_until_same self ps : same ps (fst (close_until_common_parent self ps)).
  Proof.
    induction ps as [|m ps IH]; [reflexivity|]. cbn [close_until_common_parent]. destruct (f_open m).
    - destruct (differ_conditions self (m :: ps)); [reflexivity|]. cbn [finish].
      destruct (close_until_common_parent self ps) as [ps' w]. unfold same in *. cbn in *. now rewrite IH.
    - destruct (close_until_common_parent self ps) as [ps' w]. unfold same in *. cbn in *. now rewrite IH.
  Qed.
  Lemma start_same self ps : keeps self ps (start self ps).
  Proof.
    unfold start. destruct (f_open self); [reflexivity|].
    pose proof (close_until_same self ps) as H. destruct (close_until_common_parent self ps) as [ps' w].
    unfold keeps, same in *. cbn in *. now rewrite H.
  Qed.
  Lemma write_same class x : forall self ps, keeps self ps (write_rbc class x self ps).
  Proof.
    induction x as [a|cond l IH|cond l IH| |x l IHx IHl] using rbc_ind2 with
      (Q := fun l => forall self ps, keeps self ps (write_all (write_rbc class) l self ps)).
    - intros self ps. cbn [write_rbc]. unfold write_attr. pose proof (start_same self ps) as H.
      destruct (start self ps) as [[f1 ps1] w1]. exact H.
    - intros self ps. cbn [write_rbc]. cbv zeta.
      set (r := with_rule_condition self (List.concat cond)).
      assert (K : keeps r (self :: ps) (if starts_with (lit "@keyframes") (List.concat cond)
                    then start r (self :: ps) else (r, self :: ps, []))).
      { destruct (starts_with _ _); [apply start_same|reflexivity]. }
      destruct (if starts_with (lit "@keyframes") (List.concat cond) then _ else _) as [[f0 ps0] w0].
      specialize (IH f0 ps0). destruct (write_all (write_rbc class) l f0 ps0) as [[f1 ps1] w1].
      unfold keeps in K, IH. cbn [fst snd] in K, IH. apply same_tail in K as [_ K]. apply same_tail in IH as [_ IH].
      destruct (finish f1 ps1) as [f2 w2].
      destruct ps1 as [|self' ps']; [reflexivity|]. unfold keeps, same in *. cbn [fst snd]. congruence.
    - intros self ps. cbn [write_rbc]. cbv zeta. specialize (IH (with_block_condition class self (cond_str class cond)) (self :: ps)).
      destruct (write_all (write_rbc class) l _ (self :: ps)) as [[f1 ps1] w1].
      unfold keeps in IH. cbn [fst snd] in IH. apply same_tail in IH as [_ IH].
      destruct (finish f1 ps1) as [f2 w2].
      destruct ps1 as [|self' ps']; [reflexivity|]. unfold keeps, same in *. cbn [fst snd]. congruence.
    - reflexivity.
    - intros self ps. cbn [write_all]. specialize (IHx self ps).
      destruct (write_rbc class x self ps) as [[f1 ps1] w1]. specialize (IHl f1 ps1).
      destruct (write_all (write_rbc class) l f1 ps1) as [[f2 ps2] w2].
      unfold keeps, same in *. cbn [fst snd] in *. congruence.
  Qed.

  Definition agree_or_apart (b : bool) (r s : frame * chain * str) : Prop :=
    if b then apart (text r) (text s) else r = s.

  Lemma bare_text x : forall self ps, bare self ps ->
    agree_or_apart (shownb x) (write_rbc (Some c) x self ps) (write_rbc None x self ps).
  Proof.
    induction x as [a|cond l IH|cond l IH| |x l IHx IHl] using rbc_ind2 with
      (Q := fun l => forall self ps, bare self ps ->
         agree_or_apart (existsb shownb l) (write_all (write_rbc (Some c)) l self ps)
           (write_all (write_rbc None) l self ps)).
    - reflexivity.
    - intros self ps B. cbn [write_rbc shownb]. cbv zeta.
      set (r := with_rule_condition self (List.concat cond)).
      assert (B0 : bare r (self :: ps)) by now apply bare_rule.
      assert (K : keeps r (self :: ps) (if starts_with (lit "@keyframes") (List.concat cond)
                    then start r (self :: ps) else (r, self :: ps, []))).
      { destruct (starts_with _ _); [apply start_same|reflexivity]. }
      destruct (if starts_with (lit "@keyframes") (List.concat cond) then _ else _) as [[f0 ps0] w0].
      apply (bare_same _ _ _ _ K) in B0. cbn [fst snd] in B0. specialize (IH f0 ps0 B0).
      unfold agree_or_apart in *. destruct (existsb shownb l).
      + destruct (write_all (write_rbc (Some c)) l f0 ps0) as [[f2 ps2] w3].
        destruct (write_all (write_rbc None) l f0 ps0) as [[g2 qs2] w4].
        cbn [text snd] in IH.
        destruct (finish f2 ps2) as [? w5]. destruct (finish g2 qs2) as [? w6].
        destruct ps2, qs2; cbn [text snd app]; apply apart_after; now apply apart_before.
      + now rewrite IH.
    - intros self ps B. cbn [shownb]. unfold agree_or_apart. destruct (existsb showsb l) eqn:E.
      + cbn [write_rbc]. apply (bare_block _ _ cond) in B. cbv zeta.
        assert (T : apart (text (write_all (write_rbc (Some c)) l
                       (with_block_condition (Some c) self (cond_str (Some c) cond)) (self :: ps)))
                     (text (write_all (write_rbc None) l
                       (with_block_condition None self (cond_str None cond)) (self :: ps)))).
        { clear IH. revert B. generalize (with_block_condition (Some c) self (cond_str (Some c) cond))
            (with_block_condition None self (cond_str None cond)). intros f g B.
          clear -E B plain. revert E. induction l as [|x l IHl]; [discriminate|].
          cbn [existsb write_all]. intros E. destruct (showsb x) eqn:Ex.
          - pose proof (block_text_apart x Ex _ _ _ _ B) as A.
            destruct (write_rbc (Some c) x f (self :: ps)) as [[f1 ps1] w1].
            destruct (write_rbc None x g (self :: ps)) as [[g1 qs1] w2].
            destruct (write_all (write_rbc (Some c)) l f1 ps1) as [[f2 ps2] w3].
            destruct (write_all (write_rbc None) l g1 qs1) as [[g2 qs2] w4].
            cbn [text snd] in *. now apply apart_before.
          - rewrite !(silent _ x Ex). specialize (IHl E).
            destruct (write_all (write_rbc (Some c)) l f (self :: ps)) as [[f2 ps2] w3].
            destruct (write_all (write_rbc None) l g (self :: ps)) as [[g2 qs2] w4].
            cbn [text snd app] in *. exact IHl. }
        destruct (write_all (write_rbc (Some c)) l _ (self :: ps)) as [[f2 ps2] w3].
        destruct (write_all (write_rbc None) l _ (self :: ps)) as [[g2 qs2] w4].
        cbn [text snd] in T.
        destruct (finish f2 ps2) as [? w5]. destruct (finish g2 qs2) as [? w6].
        destruct ps2, qs2; cbn [text snd app]; now apply apart_before.
      + rewrite !(silent _ (CBlock cond l) E). reflexivity.
    - reflexivity.
    - intros self ps B. cbn [existsb write_all]. specialize (IHx self ps B). unfold agree_or_apart in *.
      pose proof (write_same (Some c) x self ps) as K. destruct (shownb x) eqn:E.
      + cbn [orb]. destruct (write_rbc (Some c) x self ps) as [[f1 ps1] w1].
        destruct (write_rbc None x self ps) as [[g1 qs1] w2].
        destruct (write_all (write_rbc (Some c)) l f1 ps1) as [[f2 ps2] w3].
        destruct (write_all (write_rbc None) l g1 qs1) as [[g2 qs2] w4].
        cbn [text snd] in *. now apply apart_before.
      + rewrite <- IHx. destruct (write_rbc (Some c) x self ps) as [[f1 ps1] w1].
        apply (bare_same _ _ _ _ K) in B. cbn [fst snd] in B. specialize (IHl f1 ps1 B).
        cbn [orb]. destruct (existsb shownb l).
        * destruct (write_all (write_rbc (Some c)) l f1 ps1) as [[f2 ps2] w3].
          destruct (write_all (write_rbc None) l f1 ps1) as [[g2 qs2] w4].
          cbn [text snd] in *. now apply apart_after.
        * now rewrite IHl.
  Qed.

  Lemma showsb_spec x : showsb x = true <-> shows x.
  Proof.
    induction x as [a|cond l IH|cond l IH| |x l IHx IHl] using rbc_ind2 with
      (Q := fun l => existsb showsb l = true <-> exists x, In x l /\ shows x).
    - split; [constructor|reflexivity].
    - cbn [showsb]. rewrite orb_true_iff, IH, starts_with_spec. split.
      + intros [[t E]|(x & I & S)]; [econstructor; exact E|econstructor; eassumption].
      + intros S. inversion S; subst; [left; now exists t|right; now exists x].
    - cbn [showsb]. rewrite IH. split.
      + intros (x & I & S). econstructor; eassumption.
      + intros S. inversion S; subst. now exists x.
    - split; [discriminate|now intros (x & [] & _)].
    - cbn [existsb]. rewrite orb_true_iff, IHx, IHl. split.
      + intros [S|(y & I & S)]; [exists x|exists y]; (split; [|exact S]); [now left|now right].
      + intros (y & [<-|I] & S); [now left|right; now exists y].
  Qed.
  Lemma existsb_shows l : existsb showsb l = true <-> exists x, In x l /\ shows x.
  Proof.
    rewrite existsb_exists. split; intros (x & I & S); exists x; (split; [exact I|now apply showsb_spec]).
  Qed.
  Lemma shownb_spec x : shownb x = true <-> has_shown_block x.
  Proof.
    induction x as [a|cond l IH|cond l IH| |x l IHx IHl] using rbc_ind2 with
      (Q := fun l => existsb shownb l = true <-> exists x, In x l /\ has_shown_block x).
    - split; [discriminate|intros S; inversion S].
    - cbn [shownb]. rewrite IH. split.
      + intros (x & I & S). econstructor; eassumption.
      + intros S. inversion S; subst. now exists x.
    - cbn [shownb]. rewrite existsb_shows. split.
      + intros (x & I & S). econstructor; eassumption.
      + intros S. inversion S; subst. now exists x.
    - split; [discriminate|now intros (x & [] & _)].
    - cbn [existsb]. rewrite orb_true_iff, IHx, IHl. split.
      + intros [S|(y & I & S)]; [exists x|exists y]; (split; [|exact S]); [now left|now right].
      + intros (y & [<-|I] & S); [now left|right; now exists y].
  Qed.

  Theorem same_text_iff s : to_style_str (Some c) s = to_style_str None s <-> ~ shown_block s.
  Proof.
    assert (B : bare new_frame []) by (split; [reflexivity|constructor]).
    assert (H : agree_or_apart (existsb shownb (map rbc_of_scope s))
                  (write_sheet (Some c) s new_frame []) (write_sheet None s new_frame [])).
    { unfold write_sheet. revert B. generalize new_frame (@nil frame).
      induction (map rbc_of_scope s) as [|x l IHl]; [reflexivity|].
      intros self ps B.
      cbn [existsb write_all]. pose proof (bare_text x self ps B) as IHx. unfold agree_or_apart in *.
      pose proof (write_same (Some c) x self ps) as K. destruct (shownb x) eqn:E.
      + cbn [orb]. destruct (write_rbc (Some c) x self ps) as [[f1 ps1] w1].
        destruct (write_rbc None x self ps) as [[g1 qs1] w2].
        destruct (write_all (write_rbc (Some c)) l f1 ps1) as [[f2 ps2] w3].
        destruct (write_all (write_rbc None) l g1 qs1) as [[g2 qs2] w4].
        cbn [text snd] in *. now apply apart_before.
      + rewrite <- IHx. destruct (write_rbc (Some c) x self ps) as [[f1 ps1] w1].
        apply (bare_same _ _ _ _ K) in B. cbn [fst snd] in B. specialize (IHl f1 ps1 B).
        cbn [orb]. destruct (existsb shownb l).
        * destruct (write_all (write_rbc (Some c)) l f1 ps1) as [[f2 ps2] w3].
          destruct (write_all (write_rbc None) l f1 ps1) as [[g2 qs2] w4].
          cbn [text snd] in *. now apply apart_after.
        * now rewrite IHl. }
    assert (X : existsb shownb (map rbc_of_scope s) = true <-> shown_block s).
    { rewrite existsb_exists. unfold shown_block. split.
      - intros (x & I & S). apply in_map_iff in I as (y & <- & I). exists y. split; [exact I|now apply shownb_spec].
      - intros (y & I & S). exists (rbc_of_scope y). split; [now apply in_map|now apply shownb_spec]. }
    unfold to_style_str. unfold agree_or_apart in H. destruct (existsb shownb (map rbc_of_scope s)).
    - apply apart_neq in H. split; [|intros N; elim N; now apply X]. intros E. elim H.
      destruct (write_sheet (Some c) s new_frame []) as [[f1 ps1] w1].
      destruct (write_sheet None s new_frame []) as [[f2 ps2] w2]. exact E.
    - rewrite H. split; [|reflexivity]. intros _ K. apply X in K. discriminate.
  Qed.
End Class.
