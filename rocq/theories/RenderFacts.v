(** * RenderFacts: proofs about the renderer. *)

From Coq Require Import String Ascii List NArith Bool Arith Lia.
From Verif Require Import Str StrFacts Ast Render SpecRender.
Import ListNotations.
Local Open Scope list_scope.

(** ** Prefixes and [count_equal] *)

Definition prefix {A} (a b : list A) : Prop := exists t, b = a ++ t.

Lemma prefix_nil {A} (b : list A) : prefix [] b.
Proof. now exists b. Qed.
Lemma prefix_refl {A} (b : list A) : prefix b b.
Proof. exists []. now rewrite app_nil_r. Qed.
Lemma prefix_app {A} (a b : list A) : prefix a (a ++ b).
Proof. now exists b. Qed.

Lemma count_equal_le_l a b : count_equal a b <= List.length a.
Proof.
  revert b; induction a as [|x a IH]; intros [|y b]; cbn; try lia.
  specialize (IH b). destruct (str_eqb x y); lia.
Qed.

Lemma count_equal_prefix a b : prefix a b -> count_equal a b = List.length a.
Proof.
  intros [t ->]. induction a; cbn; [easy|]. rewrite str_eqb_refl, IHa. lia.
Qed.

Lemma count_equal_full a b : skipn (count_equal a b) a = [] -> prefix a b.
Proof.
  intros H. assert (L : List.length a <= count_equal a b).
  { apply (f_equal (@List.length _)) in H. rewrite skipn_length in H. cbn in H. lia. }
  clear H. revert b L; induction a as [|x a IH]; intros [|y b] L; cbn in *.
  - apply prefix_nil.
  - apply prefix_nil.
  - lia.
  - pose proof (count_equal_le_l a b). destruct (str_eqb x y) eqn:E; [|lia].
    apply str_eqb_eq in E; subst. destruct (IH b) as [t ->]; [lia|].
    now exists t.
Qed.

Lemma skipn_prefix {A} (a b : list A) : skipn (List.length a) (a ++ b) = b.
Proof. induction a; cbn; auto. Qed.

(** ** Running line lists *)

Lemma run_app st l1 l2 st1 i1 :
  run st l1 = Some (st1, i1) ->
  run st (l1 ++ l2) =
  match run st1 l2 with Some (st2, i2) => Some (st2, i1 ++ i2) | None => None end.
Proof.
  revert st st1 i1; induction l1 as [|l l1 IH]; intros st st1 i1 H; cbn in *.
  - injection H as <- <-. destruct (run st l2) as [[? ?]|]; easy.
  - destruct l.
    + destruct (run (st ++ [cond]) l1) as [[s i]|] eqn:E; [|easy].
      injection H as <- <-. rewrite (IH _ _ _ E).
      destruct (run s l2) as [[? ?]|]; easy.
    + destruct st; [easy|]. now apply IH.
    + destruct (run st l1) as [[s i]|] eqn:E; [|easy].
      injection H as <- <-. rewrite (IH _ _ _ E).
      destruct (run s l2) as [[? ?]|]; easy.
Qed.

Lemma length_removelast {A} (l : list A) : List.length (removelast l) = List.length l - 1.
Proof.
  induction l as [|x [|y l] IH]; cbn in *; lia.
Qed.

Lemma layout_app st l1 l2 st1 i1 :
  run st l1 = Some (st1, i1) ->
  layout (List.length st) (l1 ++ l2) = layout (List.length st) l1 ++ layout (List.length st1) l2.
Proof.
  revert st st1 i1; induction l1 as [|l l1 IH]; intros st st1 i1 H; cbn [layout run app] in *.
  - now injection H as <- <-.
  - destruct l; cbn [layout run app] in *.
    + destruct (run (st ++ [cond]) l1) as [[s i]|] eqn:E; [|easy].
      injection H as <- <-. specialize (IH _ _ _ E).
      rewrite app_length in IH. cbn [List.length] in IH. rewrite Nat.add_1_r in IH. rewrite IH.
      now rewrite <- !app_assoc.
    + destruct st as [|x st]; [easy|]. specialize (IH _ _ _ H).
      rewrite length_removelast in IH.
      rewrite IH. now rewrite <- !app_assoc.
    + destruct (run st l1) as [[s i]|] eqn:E; [|easy].
      injection H as <- <-. rewrite (IH _ _ _ E). now rewrite <- !app_assoc.
Qed.

Ltac splits := repeat match goal with |- _ /\ _ => split end.

(** ** What the writer emits

    [P] is a predicate on the opened conditions, [D] one on the written declarations; they
    are instantiated by [True], by lexical closedness and by brace-freeness.  [Q] is a
    predicate on the paths of open conditions, closed under prefixes. *)
Section Emits.
Variable P : str -> Prop.
Variable D : str -> str -> Prop.
Variable Q : list str -> Prop.
Hypothesis Qp : forall a b, Q (a ++ b) -> Q a.

Definition line_ok (l : line) : Prop :=
  match l with LOpen c => P c | LClose => True | LDecl k v => D k v end.

Definition item_ok (i : item) : Prop :=
  match i with IOpen p => Q p | IDecl p _ _ => Q p end.

(** [w] is the canonical text of some lines that take the stack [st] to [st'] and are read
    as [items]. *)
Definition emits (st : list str) (w : str) (st' : list str) (items : list item) : Prop :=
  exists ls, w = layout (List.length st) ls /\ run st ls = Some (st', items) /\ Forall line_ok ls
             /\ Forall item_ok items.

Lemma emits_nil st : emits st [] st [].
Proof. exists []. repeat split; constructor. Qed.

Lemma emits_app st w1 st1 i1 w2 st2 i2 :
  emits st w1 st1 i1 -> emits st1 w2 st2 i2 -> emits st (w1 ++ w2) st2 (i1 ++ i2).
Proof.
  intros (l1 & -> & H1 & F1 & G1) (l2 & -> & H2 & F2 & G2). exists (l1 ++ l2). split; [|split; [|split]].
  - symmetry. eapply layout_app; eauto.
  - erewrite run_app by eassumption. now rewrite H2.
  - apply Forall_app. now split.
  - apply Forall_app. now split.
Qed.

Lemma emits_app' st w1 st1 i1 w2 st2 i2 i :
  emits st w1 st1 i1 -> emits st1 w2 st2 i2 -> i = i1 ++ i2 -> emits st (w1 ++ w2) st2 i.
Proof. intros. subst. eapply emits_app; eauto. Qed.

Lemma padding_spaces n : padding n = spaces (4 * n).
Proof.
  induction n; [easy|]. cbn [padding]. rewrite IHn.
  change (lit "    ") with (spaces 4). rewrite spaces_app. f_equal. lia.
Qed.

Lemma removelast_snoc {A} (l : list A) x : removelast (l ++ [x]) = l.
Proof. rewrite removelast_app by easy. cbn. apply app_nil_r. Qed.

Lemma emits_close st extra :
  emits (st ++ extra) (close_lines (List.length st) (List.length extra)) st [].
Proof.
  induction extra as [|x extra IH] using rev_ind.
  - rewrite app_nil_r. apply emits_nil.
  - rewrite app_length. cbn [List.length]. rewrite Nat.add_1_r. cbn [close_lines].
    destruct IH as (ls & Hw & Hr & Hf & Hi). exists (LClose :: ls). split; [|split; [|split]].
    + cbn [layout]. rewrite !padding_spaces.
      rewrite !app_length in *. cbn [List.length].
      rewrite Hw.
      replace (List.length st + (List.length extra + 1) - 1) with (List.length st + List.length extra) by lia.
      rewrite (app_assoc (spaces _)), spaces_app.
      now replace (4 * List.length st + 4 * List.length extra) with (4 * (List.length st + List.length extra)) by lia.
    + cbn [run]. rewrite app_assoc.
      destruct ((st ++ extra) ++ [x]) eqn:E; [now apply app_eq_nil in E as [? ?]|].
      rewrite <- E, removelast_snoc. exact Hr.
    + now constructor.
    + exact Hi.
Qed.

(** The blocks entered when [conds] are opened on top of [st]. *)
Fixpoint opens (st conds : list str) : list item :=
  match conds with
  | [] => []
  | c :: conds' => IOpen (st ++ [c]) :: opens (st ++ [c]) conds'
  end.

(** [i] is directly inside the block with path [p]. *)
Definition under (p : list str) (i : item) : Prop :=
  match i with IOpen q => exists c, q = p ++ [c] | IDecl q _ _ => q = p end.

(** No block is closed right after it was opened. *)
Fixpoint nested (items : list item) : Prop :=
  match items with
  | [] => True
  | IDecl _ _ _ :: rest => nested rest
  | IOpen p :: rest => match rest with i :: _ => under p i | [] => False end /\ nested rest
  end.

Lemma nested_app a b : nested a -> nested b -> nested (a ++ b).
Proof.
  induction a as [|i a IH]; intros Ha Hb; [easy|]. destruct i as [p|p k v]; cbn [app nested] in *.
  - destruct Ha as [H1 H2]. split; [|auto]. destruct a; easy.
  - auto.
Qed.

Definition first_under (p : list str) (items : list item) : Prop :=
  match items with i :: _ => under p i | [] => True end.

Lemma first_under_opens st conds rest :
  first_under (st ++ conds) rest -> first_under st (opens st conds ++ rest).
Proof.
  destruct conds as [|c conds]; cbn [opens app].
  - now rewrite app_nil_r.
  - intros _. now exists c.
Qed.

Lemma nested_opens st conds rest :
  nested rest -> first_under (st ++ conds) rest -> rest <> [] -> nested (opens st conds ++ rest).
Proof.
  intros Hn Hf Hr. revert st Hf; induction conds as [|c conds IH]; intros st Hf; [easy|].
  cbn [opens app nested]. assert (E : st ++ c :: conds = (st ++ [c]) ++ conds) by now rewrite <- app_assoc.
  rewrite E in Hf. split; [|auto]. apply first_under_opens in Hf.
  destruct (opens (st ++ [c]) conds ++ rest) eqn:Eo; [now apply app_eq_nil in Eo|exact Hf].
Qed.

Lemma emits_open st pre conds :
  Forall P conds -> Q (st ++ pre ++ conds) ->
  emits (st ++ pre) (open_lines (List.length st) (List.length pre) conds) (st ++ pre ++ conds)
        (opens (st ++ pre) conds).
Proof.
  intros HP. revert pre; induction conds as [|c conds IH]; intros pre HQ; cbn [open_lines opens].
  - rewrite app_nil_r. apply emits_nil.
  - inversion_clear HP as [|? ? Hc Hcs].
    assert (HQ' : Q (st ++ (pre ++ [c]) ++ conds)) by (rewrite <- app_assoc; exact HQ).
    specialize (IH Hcs (pre ++ [c]) HQ'). rewrite app_length in IH. cbn [List.length] in IH.
    rewrite Nat.add_1_r in IH. destruct IH as (ls & Hw & Hr & Hf & Hi).
    exists (LOpen c :: ls). split; [|split; [|split]].
    + cbn [layout]. rewrite Hw, !padding_spaces. rewrite (app_assoc (spaces _)), spaces_app.
      rewrite !app_length. cbn [List.length].
      replace (4 * List.length st + 4 * List.length pre) with (4 * (List.length st + List.length pre)) by lia.
      replace (List.length st + (List.length pre + 1)) with (S (List.length st + List.length pre)) by lia.
      reflexivity.
    + cbn [run]. rewrite <- app_assoc. rewrite Hr. rewrite <- !app_assoc. reflexivity.
    + now constructor.
    + constructor.
      * cbn. apply (Qp _ conds). rewrite <- !app_assoc. exact HQ.
      * rewrite <- ?app_assoc in *. exact Hi.
Qed.

Lemma decls_opens st conds : decls (opens st conds) = [].
Proof. revert st; induction conds; intros; cbn; auto. Qed.

Lemma opens_In st conds pre suf : conds = pre ++ suf -> pre <> [] -> In (IOpen (st ++ pre)) (opens st conds).
Proof.
  intros -> Hp. revert st; induction pre as [|c pre IH]; intros st; [easy|]. cbn [app opens].
  destruct pre as [|c' pre'].
  - now left.
  - right. specialize (IH ltac:(easy) (st ++ [c])). now rewrite <- app_assoc in IH.
Qed.

(** ** The chain invariant *)

(** An open context has the conditions of its nearest open parent as a prefix. *)
Fixpoint chain_ok (ps : chain) : Prop :=
  match ps with
  | [] => True
  | f :: ps' => (f_open f = true -> prefix (parent_conditions ps') (conditions f)) /\ chain_ok ps'
  end.

(** Two chains of the same contexts, up to the open flags. *)
Definition shape (f : frame) := (f_rules f, f_sel f).
Definition same (ps ps' : chain) : Prop := map shape ps = map shape ps'.

Lemma same_conditions f f' : shape f = shape f' -> conditions f = conditions f'.
Proof. unfold shape, conditions. now intros [= -> ->]. Qed.

Lemma conditions_set_open b f : conditions (set_open b f) = conditions f.
Proof. easy. Qed.

Lemma parent_conditions_closed f ps : f_open f = false -> parent_conditions (f :: ps) = parent_conditions ps.
Proof. unfold parent_conditions. cbn. now intros ->. Qed.
Lemma parent_conditions_open f ps : f_open f = true -> parent_conditions (f :: ps) = conditions f.
Proof. unfold parent_conditions. cbn. now intros ->. Qed.

(** [finish] closes exactly what the context has open. *)
Lemma finish_spec f ps :
  chain_ok (f :: ps) ->
  emits (parent_conditions (f :: ps)) (snd (finish f ps)) (parent_conditions ps) [].
Proof.
  intros [H1 H2]. cbn. destruct (f_open f) eqn:E.
  - rewrite parent_conditions_open by easy. destruct (H1 eq_refl) as [t Ht].
    unfold common_count, unique_conditions, common_count. rewrite Ht.
    rewrite count_equal_prefix by apply prefix_app. rewrite skipn_prefix. apply emits_close.
  - rewrite parent_conditions_closed by easy. apply emits_nil.
Qed.

Lemma close_until_spec self ps :
  chain_ok ps ->
  let '(ps', w) := close_until_common_parent self ps in
  chain_ok ps' /\ same ps ps'
  /\ prefix (parent_conditions ps') (conditions self)
  /\ emits (parent_conditions ps) w (parent_conditions ps') [].
Proof.
  induction ps as [|m ps IH]; cbn [close_until_common_parent]; intros H.
  - repeat split; try apply prefix_nil. apply emits_nil.
  - destruct (f_open m) eqn:Em.
    + destruct (differ_conditions self (m :: ps)) eqn:Ed.
      * split; [easy|]. split; [easy|]. split; [|apply emits_nil].
        now apply count_equal_full.
      * assert (Hf := finish_spec m ps H). unfold finish in *. cbn [fst snd] in Hf.
        destruct H as [Hm Hps]. specialize (IH Hps).
        destruct (close_until_common_parent self ps) as [ps'' w2].
        destruct IH as (I1 & I2 & I3 & I4).
        split; [cbn; split; [easy|exact I1]|].
        split; [unfold same in *; cbn; now rewrite I2|].
        rewrite (parent_conditions_closed (set_open false m)) by easy.
        split; [exact I3|].
        eapply emits_app'; [exact Hf | exact I4 | easy].
    + destruct H as [Hm Hps]. specialize (IH Hps).
      destruct (close_until_common_parent self ps) as [ps'' w2].
      destruct IH as (I1 & I2 & I3 & I4).
      split; [cbn; split; [congruence|exact I1]|].
      split; [unfold same in *; cbn; now rewrite I2|].
      rewrite !(parent_conditions_closed m) by easy. now split.
Qed.

Lemma parent_conditions_length ps n :
  Forall (fun f => List.length (conditions f) < n) ps -> 0 < n -> List.length (parent_conditions ps) < n.
Proof.
  intros H Hn. induction H as [|f ps H1 H2 IH]; [easy|].
  unfold parent_conditions in *. cbn. now destruct (f_open f).
Qed.

Lemma Forall_shape n ps ps' :
  same ps ps' -> Forall (fun f => List.length (conditions f) < n) ps ->
  Forall (fun f => List.length (conditions f) < n) ps'.
Proof.
  unfold same. revert ps'; induction ps as [|f ps IH]; intros [|f' ps'] S H; try easy.
  cbn [map] in S. inversion_clear H as [|? ? H1 H2].
  assert (S1 := f_equal (hd (shape f)) S). assert (S2 := f_equal (@tl _) S). cbn [hd tl] in S1, S2.
  constructor; [|now apply IH]. now rewrite <- (same_conditions _ _ S1).
Qed.

Lemma app_split {A} (a b c d : list A) :
  a ++ b = c ++ d -> List.length a <= List.length c -> exists q, c = a ++ q.
Proof.
  revert c; induction a as [|x a IH]; intros c H L; cbn in *.
  - now exists c.
  - destruct c as [|y c]; cbn in *; [lia|]. injection H as -> H.
    destruct (IH c H) as [q ->]; [lia|]. now exists q.
Qed.

(** Nothing is closed if the open conditions are all among the own ones. *)
Lemma close_until_calm self ps :
  prefix (parent_conditions ps) (conditions self) -> fst (close_until_common_parent self ps) = ps.
Proof.
  induction ps as [|m ps IH]; intros H; [easy|]. cbn [close_until_common_parent].
  destruct (f_open m) eqn:Em.
  - assert (E : differ_conditions self (m :: ps) = []).
    { destruct H as [t Ht]. unfold differ_conditions, common_count. rewrite Ht.
      rewrite count_equal_prefix by apply prefix_app. now rewrite skipn_all. }
    now rewrite E.
  - rewrite parent_conditions_closed in H by easy. specialize (IH H).
    destruct (close_until_common_parent self ps) as [ps' w]. cbn [fst] in *. now rewrite IH.
Qed.

Lemma start_spec self ps :
  chain_ok (self :: ps) -> Forall P (conditions self) -> Q (conditions self) ->
  let '(self', ps', w) := start self ps in
  chain_ok (self' :: ps') /\ same (self :: ps) (self' :: ps') /\ f_open self' = true
  /\ exists items, emits (parent_conditions (self :: ps)) w (conditions self) items
                   /\ decls items = []
                   /\ (f_open self = false -> forall pre suf, conditions self = pre ++ suf ->
                       Forall (fun f => List.length (conditions f) < List.length pre) ps ->
                       pre <> [] -> In (IOpen pre) items)
                   /\ exists base t, items = opens base t /\ conditions self = base ++ t
                      /\ (prefix (parent_conditions (self :: ps)) (conditions self) ->
                          base = parent_conditions (self :: ps)).
Proof.
  intros H HP HQ. unfold start. destruct (f_open self) eqn:E.
  - split; [split; [intros _; now apply H | apply H]|]. split; [easy|]. split; [easy|].
    exists []. split; [|split; [easy|split; [easy|]]].
    + rewrite parent_conditions_open by easy. apply emits_nil.
    + exists (conditions self), []. rewrite app_nil_r. split; [easy|]. split; [easy|].
      now rewrite parent_conditions_open by easy.
  - destruct H as [_ H]. assert (Hcalm := close_until_calm self ps). assert (C := close_until_spec self ps H).
    destruct (close_until_common_parent self ps) as [ps' w1].
    destruct C as (C1 & C2 & C3 & C4).
    split; [split; [easy|exact C1]|].
    split; [unfold same in *; cbn; now rewrite C2|]. split; [easy|].
    destruct C3 as [t Ht].
    exists (opens (parent_conditions ps') t). split; [|split; [apply decls_opens|split]].
    + rewrite parent_conditions_closed by easy.
      eapply emits_app'; [exact C4| |reflexivity].
      unfold unique_conditions, common_count. rewrite Ht.
      rewrite count_equal_prefix by apply prefix_app. rewrite skipn_prefix.
      rewrite Ht in HP. apply Forall_app in HP as [_ HP].
      rewrite Ht in HQ.
      pose proof (emits_open (parent_conditions ps') [] t HP HQ) as O. rewrite !app_nil_r in O. exact O.
    + intros _ pre suf Hp Hlen Hne.
      assert (L : List.length (parent_conditions ps') < List.length pre).
      { apply (Forall_shape _ _ _ C2) in Hlen. apply parent_conditions_length; [easy|]. destruct pre; cbn; [easy|lia]. }
      rewrite Ht in Hp. destruct (app_split _ _ _ _ Hp (Nat.lt_le_incl _ _ L)) as [q ->].
      rewrite <- app_assoc in Hp. apply app_inv_head in Hp.
      eapply opens_In; [exact Hp|]. intros ->. rewrite app_nil_r in L. lia.
    + exists (parent_conditions ps'), t. split; [easy|]. split; [easy|].
      rewrite (parent_conditions_closed self) by easy. intros Hpre.
      cbn [fst] in Hcalm. now rewrite (Hcalm Hpre).
Qed.

Lemma write_selector_scoped class sel : write_selector class sel = scoped class (List.concat sel).
Proof.
  unfold write_selector, scoped. destruct class as [c|].
  - destruct (_ || _); [easy|]. destruct (starts_with _ _); cbn [app]; now rewrite <- ?app_assoc.
  - destruct (contains_char (ch "&") (List.concat sel)) eqn:E; [easy|].
    rewrite replace_char_none; [easy|]. intros H. apply contains_char_spec in H. congruence.
Qed.

Lemma block_selector_spec class self cond :
  block_selector class self (cond_str class cond) = block_sel class (f_sel self) cond.
Proof.
  unfold block_selector, block_sel, cond_str. destruct cond as [|s cond].
  - destruct (f_sel self); [easy|]. now destruct class.
  - f_equal. apply map_ext. intros. apply write_selector_scoped.
Qed.

(** A child context is pushed closed, its contents are written, and it is finished. *)
Lemma pop_spec self ps self1 ps1 :
  chain_ok (self1 :: ps1) -> same (self :: ps) ps1 ->
  exists self' ps', ps1 = self' :: ps' /\ chain_ok (self' :: ps') /\ same (self :: ps) (self' :: ps').
Proof.
  intros H S. destruct ps1 as [|self' ps']; [easy|]. exists self', ps'.
  split; [easy|]. split; [apply H|easy].
Qed.

Lemma same_tail f ps f' ps' : same (f :: ps) (f' :: ps') -> shape f = shape f' /\ same ps ps'.
Proof.
  unfold same. cbn [map]. intros H. assert (H1 := f_equal (hd (shape f)) H).
  assert (H2 := f_equal (@tl _) H). now split.
Qed.

(** Every condition opened for [c], written with selector [sel] in force, satisfies [P],
    every declaration [D]. *)
Fixpoint pieces_ok (class : option str) (sel : option str) (c : rbc) : Prop :=
  match c with
  | CAttr a => D (a_key a) (List.concat (a_value a))
  | CRule cond content =>
      P (List.concat cond)
      /\ (fix all l := match l with [] => True | c :: l' => pieces_ok class sel c /\ all l' end) content
  | CBlock cond content =>
      P (block_sel class sel cond)
      /\ (fix all l := match l with
                       | [] => True
                       | c :: l' => pieces_ok class (Some (block_sel class sel cond)) c /\ all l'
                       end) content
  end.

Lemma all_Forall {A} (F : A -> Prop) l :
  (fix all l := match l with [] => True | c :: l' => F c /\ all l' end) l <-> Forall F l.
Proof.
  induction l as [|c l IH]; split; intros H; try constructor; try apply H.
  - now apply IH.
  - now inversion_clear H.
  - inversion_clear H. now apply IH.
Qed.

(** All paths opened for [c], written under the at-rules [rules] with selector [sel], satisfy
    [Q]. *)
Fixpoint paths_ok (class : option str) (rules : list str) (sel : option str) (c : rbc) : Prop :=
  match c with
  | CAttr a => True
  | CRule cond content =>
      Q ((rules ++ [List.concat cond]) ++ opt_list sel)
      /\ (fix all l := match l with
                       | [] => True
                       | c :: l' => paths_ok class (rules ++ [List.concat cond]) sel c /\ all l'
                       end) content
  | CBlock cond content =>
      Q (rules ++ [block_sel class sel cond])
      /\ (fix all l := match l with
                       | [] => True
                       | c :: l' => paths_ok class rules (Some (block_sel class sel cond)) c /\ all l'
                       end) content
  end.

(** The contexts around are at-rules only. *)
Definition at_rules_only (self : frame) (ps : chain) : Prop :=
  f_sel self = None
  /\ Forall (fun f => List.length (conditions f) < S (List.length (f_rules self))) ps.

(** Keyframes rules are outside of blocks and say something. *)
Fixpoint kf_ok (class : option str) (rules : list str) (sel : option str) (c : rbc) : Prop :=
  match c with
  | CAttr a => True
  | CRule cond content =>
      (starts_with (lit "@keyframes") (List.concat cond) = true ->
       sel = None /\ flat_map (decls_of class (rules ++ [List.concat cond]) sel) content <> [])
      /\ (fix all l := match l with
                       | [] => True
                       | c :: l' => kf_ok class (rules ++ [List.concat cond]) sel c /\ all l'
                       end) content
  | CBlock cond content =>
      (fix all l := match l with
                    | [] => True
                    | c :: l' => kf_ok class rules (Some (block_sel class sel cond)) c /\ all l'
                    end) content
  end.

(** What is open is among the at-rules of the context. *)
Definition calm (self : frame) (ps : chain) : Prop :=
  prefix (parent_conditions (self :: ps)) (f_rules self).

Definition writes (class : option str) (c : rbc) : Prop :=
  forall self ps, chain_ok (self :: ps) -> Forall P (conditions self) -> Q (conditions self) ->
  pieces_ok class (f_sel self) c -> paths_ok class (f_rules self) (f_sel self) c ->
  let '(self', ps', w) := write_rbc class c self ps in
  chain_ok (self' :: ps') /\ same (self :: ps) (self' :: ps')
  /\ exists items, emits (parent_conditions (self :: ps)) w (parent_conditions (self' :: ps')) items
                   /\ decls items = decls_of class (f_rules self) (f_sel self) c
                   /\ (at_rules_only self ps ->
                       forall p, In p (top_keyframes (f_rules self) c) -> In (IOpen p) items)
                   /\ (kf_ok class (f_rules self) (f_sel self) c -> nested items)
                   /\ (calm self ps -> first_under (parent_conditions (self :: ps)) items
                                       /\ (items = [] -> self' = self /\ ps' = ps)).

Lemma same_at_rules_only self ps self' ps' :
  same (self :: ps) (self' :: ps') -> at_rules_only self ps -> at_rules_only self' ps'.
Proof.
  intros S [H1 H2]. apply same_tail in S as [S1 S2]. unfold shape in S1. injection S1 as E1 E2.
  split; [congruence|]. rewrite <- E1. eapply Forall_shape; eauto.
Qed.

Lemma write_all_spec class cs self ps :
  Forall (writes class) cs ->
  chain_ok (self :: ps) -> Forall P (conditions self) -> Q (conditions self) ->
  Forall (pieces_ok class (f_sel self)) cs ->
  Forall (paths_ok class (f_rules self) (f_sel self)) cs ->
  let '(self', ps', w) := write_all (write_rbc class) cs self ps in
  chain_ok (self' :: ps') /\ same (self :: ps) (self' :: ps')
  /\ exists items, emits (parent_conditions (self :: ps)) w (parent_conditions (self' :: ps')) items
                   /\ decls items = flat_map (decls_of class (f_rules self) (f_sel self)) cs
                   /\ (at_rules_only self ps ->
                       forall p, In p (flat_map (top_keyframes (f_rules self)) cs) -> In (IOpen p) items)
                   /\ (Forall (kf_ok class (f_rules self) (f_sel self)) cs -> nested items)
                   /\ (calm self ps -> first_under (parent_conditions (self :: ps)) items
                                       /\ (items = [] -> self' = self /\ ps' = ps)).
Proof.
  revert self ps; induction cs as [|c cs IH]; intros self ps Hc H HP HQ HO HS; cbn [write_all].
  - split; [easy|]. split; [easy|]. exists []. split; [apply emits_nil|now repeat split].
  - inversion_clear Hc as [|? ? Hc1 Hc2]. inversion_clear HO as [|? ? HO1 HO2].
    inversion_clear HS as [|? ? HS1 HS2].
    assert (H1 := Hc1 self ps H HP HQ HO1 HS1).
    destruct (write_rbc class c self ps) as [[self1 ps1] w1].
    destruct H1 as (A1 & A2 & i1 & A3 & A4 & A5 & A6 & A7).
    assert (S : shape self = shape self1) by now apply same_tail in A2.
    assert (S' := S). unfold shape in S'. injection S' as E1 E2.
    rewrite (same_conditions _ _ S) in HP, HQ. rewrite E2 in HO2. rewrite E1, E2 in HS2.
    specialize (IH self1 ps1 Hc2 A1 HP HQ HO2 HS2).
    destruct (write_all (write_rbc class) cs self1 ps1) as [[self2 ps2] w2].
    destruct IH as (B1 & B2 & i2 & B3 & B4 & B5 & B6 & B7).
    split; [easy|]. split; [unfold same in *; congruence|].
    exists (i1 ++ i2). split; [eapply emits_app; eauto|]. splits.
    + unfold decls in *. rewrite filter_app, A4, B4. cbn [flat_map]. now rewrite E1, E2.
    + intros R p Hp. cbn [flat_map] in Hp. apply in_or_app. apply in_app_or in Hp as [Hp|Hp].
      * left. auto.
      * right. apply B5; [|now rewrite <- E1]. now apply (same_at_rules_only _ _ _ _ A2).
    + intros K. inversion_clear K as [|? ? K1 K2]. apply nested_app; [auto|]. apply B6.
      now rewrite <- E1, <- E2.
    + intros K. destruct (A7 K) as [A8 A9]. destruct i1 as [|i i1]; [|now split].
      destruct (A9 eq_refl) as [-> ->]. now apply B7.
Qed.

Lemma writes_rbc class c : writes class c.
Proof.
  induction c as [a|cond content IH|cond content IH| |c l IHc IHl] using rbc_ind2 with
    (Q := fun l => Forall (writes class) l).
  - (* attribute *)
    intros self ps H HP HQ HO HS. cbn [write_rbc]. unfold write_attr.
    assert (S := start_spec self ps H HP HQ). destruct (start self ps) as [[self' ps'] w].
    destruct S as (S1 & S2 & S3 & items & S4 & S5 & _ & base & t & S6 & S7 & S8).
    split; [easy|]. split; [easy|].
    assert (E : conditions self' = conditions self).
    { apply same_tail in S2 as [S2 _]. symmetry. now apply same_conditions. }
    exists (items ++ [IDecl (conditions self) (a_key a) (List.concat (a_value a))]).
    splits.
    + eapply emits_app; [exact S4|]. rewrite parent_conditions_open by easy. rewrite E.
      exists [LDecl (a_key a) (List.concat (a_value a))]. split; [|split; [reflexivity|split]].
      * cbn [layout]. unfold write_padding. rewrite E, padding_spaces. now rewrite app_nil_r.
      * constructor; [exact HO|constructor].
      * constructor; [exact HQ|constructor].
    + unfold decls in *. rewrite filter_app, S5. cbn. unfold conditions, opt_list. easy.
    + intros _ p [].
    + intros _. rewrite S6, S7. now apply nested_opens.
    + intros K. rewrite S6. rewrite <- S8.
      * split; [apply first_under_opens; now rewrite S7|]. intros E'. now apply app_eq_nil in E' as [_ ?].
      * destruct K as [u Hu]. unfold conditions. rewrite Hu, <- app_assoc. apply prefix_app.
  - (* rule *)
    intros self ps H HP HQ HO HS. cbn [write_rbc].
    destruct HO as [HO1 HO2]. apply all_Forall in HO2.
    destruct HS as [HS1 HS2]. apply all_Forall in HS2.
    set (r := with_rule_condition self (List.concat cond)).
    set (st := if starts_with _ _ then _ else _).
    assert (Hr : chain_ok (r :: self :: ps)) by now split.
    assert (HPr : Forall P (conditions r)).
    { unfold conditions, r in *. cbn. apply Forall_app in HP as [HP1 HP2].
      apply Forall_app. split; [|exact HP2]. apply Forall_app. split; [exact HP1|].
      constructor; [exact HO1|constructor]. }
    assert (HQr : Q (conditions r)) by exact HS1.
    assert (S : let '(r0, ps0, w0) := st in
                chain_ok (r0 :: ps0) /\ same (r :: self :: ps) (r0 :: ps0)
                /\ exists items, emits (parent_conditions (self :: ps)) w0 (parent_conditions (r0 :: ps0)) items
                                 /\ decls items = []
                                 /\ (at_rules_only self ps ->
                                     starts_with (lit "@keyframes") (List.concat cond) = true ->
                                     In (IOpen (f_rules self ++ [List.concat cond])) items)
                                 /\ (starts_with (lit "@keyframes") (List.concat cond) = true ->
                                     exists base t, items = opens base t /\ conditions r = base ++ t
                                     /\ f_open r0 = true
                                     /\ (calm self ps -> first_under (parent_conditions (self :: ps)) items
                                                         /\ items <> []))
                                 /\ (starts_with (lit "@keyframes") (List.concat cond) = false ->
                                     items = [] /\ r0 = r /\ ps0 = self :: ps)).
    { subst st. destruct (starts_with _ _) eqn:Ek.
      - assert (S := start_spec r (self :: ps) Hr HPr HQr). destruct (start r (self :: ps)) as [[r0 ps0] w0].
        destruct S as (S1 & S2 & S3 & items & S4 & S5 & S6 & base & t & S7 & S8 & S9).
        split; [easy|]. split; [easy|].
        exists items. split; [|split; [easy|split; [|split; [|easy]]]].
        + rewrite (parent_conditions_open r0) by easy.
          replace (conditions r0) with (conditions r); [exact S4|].
          apply same_tail in S2 as [S2 _]. now apply same_conditions.
        + intros [R1 R2] _. apply (S6 eq_refl _ []).
          * unfold conditions, r. cbn. now rewrite R1.
          * rewrite app_length. cbn [List.length]. rewrite Nat.add_1_r. constructor; [|exact R2].
            unfold conditions. rewrite R1, app_nil_r. lia.
          * intros E. now apply app_eq_nil in E.
        + intros _. exists base, t. split; [easy|]. split; [easy|]. split; [easy|].
          intros [u Hu].
          assert (Eb : base = parent_conditions (self :: ps)).
          { rewrite (parent_conditions_closed r) in S9 by easy. apply S9. unfold conditions, r. cbn.
            rewrite Hu, <- !app_assoc. apply prefix_app. }
          rewrite Eb in *. destruct t as [|x t].
          * exfalso. assert (L := f_equal (@List.length _) S8). unfold conditions, r in L.
            cbn [with_rule_condition f_rules f_sel] in L. rewrite Hu in L.
            rewrite !app_length in L. cbn in L. lia.
          * rewrite S7. split; [now exists x|easy].
      - split; [easy|]. split; [easy|]. exists []. split; [|now repeat split].
        rewrite (parent_conditions_closed r) by easy. apply emits_nil. }
    clearbody st. destruct st as [[r0 ps0] w0]. destruct S as (S1 & S2 & i0 & S3 & S4 & S5 & S6 & S7).
    assert (Sr : shape r = shape r0) by now apply same_tail in S2.
    rewrite (same_conditions _ _ Sr) in HPr, HQr.
    assert (Sr' := Sr). unfold shape in Sr'. injection Sr' as E1 E2.
    rewrite E2 in HO2. rewrite E1, E2 in HS2.
    assert (W := write_all_spec class content r0 ps0 IH S1 HPr HQr HO2 HS2).
    destruct (write_all (write_rbc class) content r0 ps0) as [[r1 ps1] w1].
    destruct W as (W1 & W2 & i1 & W3 & W4 & W5 & W6 & W7).
    assert (F := finish_spec r1 ps1 W1). destruct (finish r1 ps1) as [r2 w2]. cbn [snd] in F.
    assert (T : same (self :: ps) ps1).
    { apply same_tail in S2 as [_ S2]. apply same_tail in W2 as [_ W2]. unfold same in *. congruence. }
    destruct (pop_spec _ _ _ _ W1 T) as (self' & ps' & -> & P1 & P2).
    split; [easy|]. split; [easy|].
    exists (i0 ++ i1 ++ []). splits.
    + eapply emits_app; [exact S3|]. eapply emits_app; [exact W3|exact F].
    + rewrite app_nil_r. unfold decls in *. rewrite filter_app, S4, W4. cbn [app decls_of].
      now rewrite <- E1, <- E2.
    + intros R p Hp. rewrite app_nil_r. cbn [top_keyframes] in Hp.
      apply in_or_app. apply in_app_or in Hp as [Hp|Hp].
      * left. destruct (starts_with _ _); [|easy]. destruct Hp as [<-|[]]. auto.
      * right. apply W5.
        -- destruct R as [R1 R2].
           apply (same_at_rules_only r (self :: ps) r0 ps0 S2). split; [exact R1|].
           cbn. rewrite app_length. cbn [List.length]. rewrite Nat.add_1_r. constructor.
           ++ unfold conditions. rewrite R1, app_nil_r. lia.
           ++ eapply Forall_impl; [|exact R2]. cbn. intros. lia.
        -- now rewrite <- E1.
    + intros [K1 K2]. apply all_Forall in K2. rewrite E1, E2 in K2. specialize (W6 K2).
      rewrite app_nil_r. destruct (starts_with _ _).
      * destruct (S6 eq_refl) as (base & t & G1 & G2 & G3 & _). destruct (K1 eq_refl) as [K3 K4].
        assert (C : calm r0 ps0).
        { unfold calm. rewrite parent_conditions_open by easy. unfold conditions.
          rewrite <- E2, K3. cbn. rewrite app_nil_r. exists []. now rewrite app_nil_r. }
        apply W7 in C as [C _]. rewrite parent_conditions_open in C by easy.
        rewrite <- (same_conditions _ _ Sr), G2 in C. rewrite G1. apply nested_opens; auto.
        intros ->. apply K4. now rewrite E1, E2, <- W4.
      * now destruct (S7 eq_refl) as [-> _].
    + intros K. rewrite app_nil_r. destruct (starts_with _ _).
      * destruct (S6 eq_refl) as (base & t & G1 & G2 & G3 & G4). destruct (G4 K) as [G5 G6].
        destruct i0 as [|i i0]; [easy|]. now split.
      * destruct (S7 eq_refl) as (-> & -> & ->). cbn [app].
        assert (C : calm r (self :: ps)).
        { unfold calm. rewrite parent_conditions_closed by easy. destruct K as [u Hu].
          unfold r. cbn. rewrite Hu, <- app_assoc. apply prefix_app. }
        destruct (W7 C) as [C1 C2]. rewrite parent_conditions_closed in C1 by easy.
        split; [exact C1|]. intros ->. destruct (C2 eq_refl) as [_ C3]. now injection C3.
  - (* block *)
    intros self ps H HP HQ HO HS. cbn [write_rbc].
    destruct HO as [HO1 HO2]. apply all_Forall in HO2.
    destruct HS as [HS1 HS2]. apply all_Forall in HS2.
    set (b := with_block_condition class self (cond_str class cond)).
    assert (Hb : chain_ok (b :: self :: ps)) by now split.
    assert (Eb : f_sel b = Some (block_sel class (f_sel self) cond)).
    { unfold b. cbn. now rewrite block_selector_spec. }
    rewrite <- Eb in HO2, HS2.
    assert (HQb : Q (conditions b)) by (unfold conditions; rewrite Eb; exact HS1).
    assert (HPb : Forall P (conditions b)).
    { unfold conditions. rewrite Eb. apply Forall_app in HP as [HP1 _].
      apply Forall_app. split; [exact HP1|]. constructor; [exact HO1|constructor]. }
    assert (W := write_all_spec class content b (self :: ps) IH Hb HPb HQb HO2 HS2).
    destruct (write_all (write_rbc class) content b (self :: ps)) as [[r1 ps1] w1].
    destruct W as (W1 & W2 & i1 & W3 & W4 & _ & W6 & W7).
    assert (F := finish_spec r1 ps1 W1). destruct (finish r1 ps1) as [r2 w2]. cbn [snd] in F.
    assert (T : same (self :: ps) ps1) by now apply same_tail in W2 as [_ W2].
    destruct (pop_spec _ _ _ _ W1 T) as (self' & ps' & -> & P1 & P2).
    split; [easy|]. split; [easy|].
    exists (i1 ++ []). splits.
    + rewrite (parent_conditions_closed b) in W3 by easy. eapply emits_app; [exact W3|exact F].
    + rewrite app_nil_r, W4. rewrite Eb. easy.
    + intros _ p [].
    + intros K. cbn [kf_ok] in K. apply all_Forall in K. rewrite <- Eb in K. rewrite app_nil_r. now apply W6.
    + intros K. rewrite app_nil_r.
      assert (C : calm b (self :: ps)) by (unfold calm; now rewrite parent_conditions_closed).
      destruct (W7 C) as [C1 C2]. rewrite parent_conditions_closed in C1 by easy.
      split; [exact C1|]. intros ->. destruct (C2 eq_refl) as [_ C3]. now injection C3.
  - constructor.
  - now constructor.
Qed.

Definition sheet_pieces_ok (class : option str) (s : sheet) : Prop :=
  Forall (fun c => pieces_ok class None (rbc_of_scope c)) s.

Definition sheet_paths_ok (class : option str) (s : sheet) : Prop :=
  Forall (fun c => paths_ok class [] None (rbc_of_scope c)) s.

(** Canonical layout and meaning of the rendered text. *)
Lemma to_style_str_emits_in class s :
  sheet_pieces_ok class s -> Q [] -> sheet_paths_ok class s ->
  exists items, emits [] (to_style_str class s) [] items
                /\ decls items = sheet_decls class s
                /\ (forall p, In p (flat_map (fun c => top_keyframes [] (rbc_of_scope c)) s) ->
                              In (IOpen p) items)
                /\ (Forall (fun c => kf_ok class [] None (rbc_of_scope c)) s -> nested items).
Proof.
  intros HO HQ HS. unfold to_style_str, write_sheet.
  assert (Fw : Forall (writes class) (map rbc_of_scope s)).
  { apply Forall_forall. intros. apply writes_rbc. }
  assert (FO : Forall (pieces_ok class (f_sel new_frame)) (map rbc_of_scope s)).
  { apply Forall_map. exact HO. }
  assert (FS : Forall (paths_ok class (f_rules new_frame) (f_sel new_frame)) (map rbc_of_scope s)).
  { apply Forall_map. exact HS. }
  assert (W := write_all_spec class (map rbc_of_scope s) new_frame [] Fw).
  destruct (write_all (write_rbc class) (map rbc_of_scope s) new_frame []) as [[f ps] w].
  destruct W as (W1 & W2 & items & W3 & W5 & W6 & W7 & _); [now split|constructor|exact HQ|exact FO|exact FS|].
  exists items. change (parent_conditions [new_frame]) with (@nil str) in *.
  assert (E : parent_conditions (f :: ps) = []).
  { apply same_tail in W2 as [E1 E2].
    destruct ps; [|easy]. unfold parent_conditions, open_parent. destruct (f_open f); [|easy].
    apply same_conditions in E1. rewrite <- E1. easy. }
  rewrite E in W3. split; [exact W3|]. cbn [f_rules f_sel new_frame] in *. splits.
  - rewrite W5. unfold sheet_decls. clear. induction s; cbn; [easy|]. now rewrite IHs.
  - intros p Hp. apply W6.
    + split; [easy|constructor].
    + rewrite flat_map_concat_map, map_map, <- flat_map_concat_map. exact Hp.
  - intros K. apply W7. now apply Forall_map.
Qed.

End Emits.

Lemma any_paths class s : sheet_paths_ok (fun _ => True) class s.
Proof.
  unfold sheet_paths_ok. apply Forall_forall. intros c _. generalize (@None str) as sel.
  generalize (@nil str) as rules. generalize (rbc_of_scope c) as d.
  intros d. induction d as [a|cond content IH|cond content IH| |c' l IHc IHl] using rbc_ind2 with
    (Q := fun l => forall rules sel, Forall (paths_ok (fun _ => True) class rules sel) l);
    intros rules sel.
  - exact I.
  - split; [exact I|]. now apply all_Forall.
  - split; [exact I|]. now apply all_Forall.
  - constructor.
  - constructor; auto.
Qed.

Lemma to_style_str_emits P D class s :
  sheet_pieces_ok P D class s ->
  exists items, emits P D (fun _ => True) [] (to_style_str class s) [] items
                /\ decls items = sheet_decls class s
                /\ (forall p, In p (flat_map (fun c => top_keyframes [] (rbc_of_scope c)) s) ->
                              In (IOpen p) items).
Proof.
  intros H. destruct (to_style_str_emits_in P D (fun _ => True)) with (class := class) (s := s)
    as (items & H1 & H2 & H3 & _); auto using any_paths. now exists items.
Qed.
