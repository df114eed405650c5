(** * SizeFacts: the CSS written for a sheet is not much bigger than the sheet. *)

From Coq Require Import String Ascii List NArith Bool Arith Lia.
From Verif Require Import Str StrFacts Ast Render SpecSize.
Import ListNotations.
Local Open Scope list_scope.

Local Notation len := (@List.length _).

(** ** Lines *)

(** What opening all the conditions of a context takes at most; also what closing them takes. *)
Definition cost (f : frame) : nat :=
  sum (map (fun c => List.length c + 4 * List.length (conditions f) + 3) (conditions f)).

Lemma sum_app a b : sum (a ++ b) = sum a + sum b.
Proof. induction a; cbn; lia. Qed.
Lemma sum_skipn k l : sum (skipn k l) <= sum l.
Proof. revert l. induction k; intros [|x l]; cbn; auto. rewrite IHk. lia. Qed.
Lemma padding_len n : len (padding n) = 4 * n.
Proof. induction n; auto. cbn [padding]. rewrite app_length, IHn. cbn. lia. Qed.

Lemma open_lines_len mp : forall conds i N, mp + i + len conds <= N ->
  len (open_lines mp i conds) <= sum (map (fun c => List.length c + 4 * N + 3) conds).
Proof.
  induction conds as [|c conds IH]; intros i N H; cbn [open_lines map sum]; [cbn; lia|].
  rewrite !app_length, !padding_len. cbn [List.length] in H. specialize (IH (S i) N ltac:(lia)).
  change (len (lit " {")) with 2. change (len nl) with 1. lia.
Qed.
Lemma close_lines_len mp : forall n N, mp + n <= N -> len (close_lines mp n) <= n * (4 * N + 3).
Proof.
  induction n as [|n IH]; intros N H; cbn [close_lines]; [cbn; lia|].
  rewrite !app_length, !padding_len. specialize (IH N ltac:(lia)).
  change (len (lit "}")) with 1. change (len nl) with 1. lia.
Qed.
Lemma count_equal_le a : forall b, count_equal a b <= len b.
Proof. induction a as [|x a IH]; intros [|y b]; cbn; try lia. specialize (IH b). destruct (str_eqb x y); lia. Qed.

Lemma sum_const {A} (l : list A) k (f : A -> nat) : len l * k <= sum (map (fun c => f c + k) l).
Proof. induction l; cbn; lia. Qed.

Lemma unique_cost f ps : common_count f ps + len (unique_conditions f ps) = len (conditions f)
  /\ sum (map (fun c => List.length c + 4 * len (conditions f) + 3) (unique_conditions f ps)) <= cost f.
Proof.
  unfold unique_conditions. rewrite skipn_length. pose proof (count_equal_le (parent_conditions ps) (conditions f)).
  unfold common_count. split; [lia|]. unfold cost. rewrite <- skipn_map. apply sum_skipn.
Qed.
Lemma open_len f ps : len (open_lines (common_count f ps) 0 (unique_conditions f ps)) <= cost f.
Proof. destruct (unique_cost f ps) as [E H]. etransitivity; [|exact H]. apply open_lines_len. lia. Qed.
Lemma close_len f ps : len (close_lines (common_count f ps) (len (unique_conditions f ps))) <= cost f.
Proof.
  destruct (unique_cost f ps) as [E H]. etransitivity; [|exact H].
  etransitivity; [apply (close_lines_len _ _ (len (conditions f))); lia|].
  clear E H. generalize (len (conditions f)). intros k. induction (unique_conditions f ps); cbn [List.length map sum]; lia.
Qed.
Lemma padding_cost f : len (write_padding f) <= cost f.
Proof.
  unfold write_padding, cost. rewrite padding_len. set (N := len (conditions f)) at 1 2. 
  destruct (conditions f) as [|c l] eqn:E; [subst N; cbn; lia|]. cbn [map sum]. subst N. lia.
Qed.

(** ** Contexts left open are closed once *)
Definition opens (ps : chain) : nat := sum (map (fun f : frame => if f_open f then 1 else 0) ps).
(** What of a context does not change *)
Definition shape (f : frame) : list str * option str := (f_rules f, f_sel f).
Lemma shape_cost f g : shape f = shape g -> cost f = cost g.
Proof. intros [= E1 E2]. unfold cost, conditions. now rewrite E1, E2. Qed.

Section Bound.
  Variable S : nat.

  (** Closing the open contexts of [ps] is affordable. *)
  Definition cheap (ps : chain) : Prop := Forall (fun f => f_open f = true -> cost f <= S) ps.

  Lemma finish_len f ps f' w : finish f ps = (f', w) -> (f_open f = true -> cost f <= S) ->
    len w <= S * opens [f] /\ f_open f' = false /\ shape f' = shape f.
  Proof.
    unfold finish. intros [= <- <-] H. unfold opens. cbn [map sum]. destruct (f_open f); cbn [List.length]; [|repeat split; lia].
    pose proof (close_len f ps). specialize (H eq_refl). repeat split; lia.
  Qed.

  Lemma close_until_len self : forall ps ps' w, close_until_common_parent self ps = (ps', w) -> cheap ps ->
    len w + S * opens ps' <= S * opens ps /\ cheap ps' /\ map shape ps' = map shape ps.
  Proof.
    induction ps as [|m ps IH]; intros ps' w E H; cbn [close_until_common_parent] in E.
    - injection E as <- <-. cbn. auto.
    - pose proof (Forall_inv H) as Hm. pose proof (Forall_inv_tail H) as Ht. cbn in Hm.
      destruct (f_open m) eqn:Em.
      + destruct (differ_conditions self (m :: ps)) as [|x l].
        * injection E as <- <-. cbn [List.length]. auto with arith.
        * destruct (finish m ps) as [m' w1] eqn:Ef. destruct (close_until_common_parent self ps) as [ps2 w2].
          injection E as <- <-. destruct (IH _ _ eq_refl Ht) as (L & C & Le).
          apply finish_len in Ef as (L1 & O & Sh); [|now rewrite Em]. unfold opens in *. cbn [map sum] in *. rewrite O, Em in *.
          rewrite app_length. split; [lia|]. split; [|congruence]. constructor; auto. rewrite O. discriminate.
      + destruct (close_until_common_parent self ps) as [ps2 w2]. injection E as <- <-.
        destruct (IH _ _ eq_refl Ht) as (L & C & Le). unfold opens in *. cbn [map sum] in *. rewrite Em.
        split; [lia|]. split; [|congruence]. constructor; auto. rewrite Em. discriminate.
  Qed.

  Lemma start_len self ps self' ps' w : start self ps = (self', ps', w) -> cost self <= S -> cheap ps ->
    len w + S * opens (self' :: ps') <= 2 * S + S * opens (self :: ps) /\ cheap (self' :: ps')
    /\ map shape (self' :: ps') = map shape (self :: ps).
  Proof.
    unfold start. intros E H C. destruct (f_open self) eqn:Eo.
    - injection E as <- <- <-. unfold opens. cbn [map sum set_open f_open List.length]. rewrite Eo.
      repeat split; auto; try lia. constructor; auto.
    - destruct (close_until_common_parent self ps) as [ps1 w1] eqn:Ec. injection E as <- <- <-.
      apply close_until_len in Ec as (L & C' & Le); auto. pose proof (open_len self ps1) as Lo.
      unfold opens in *. cbn [map sum set_open f_open]. rewrite Eo, app_length.
      repeat split; auto; try lia; [constructor; auto|]. now rewrite Le.
  Qed.

  (** All the contexts that writing [c] in [self] makes are affordable. *)
  Variable class : option str.
  Fixpoint fits (c : rbc) (self : frame) : Prop :=
    match c with
    | CAttr _ => cost self <= S
    | CRule cond content =>
        let f := with_rule_condition self (List.concat cond) in
        cost f <= S /\ fold_right (fun x P => fits x f /\ P) True content
    | CBlock cond content =>
        let f := with_block_condition class self (cond_str class cond) in
        cost f <= S /\ fold_right (fun x P => fits x f /\ P) True content
    end.

  Lemma fits_same c f g : shape f = shape g -> fits c f -> fits c g.
  Proof.
    intros E. pose proof (shape_cost _ _ E) as Ec. injection E as E1 E2. destruct c; cbn [fits].
    - now rewrite Ec.
    - unfold with_rule_condition. now rewrite E1, E2.
    - unfold with_block_condition, block_selector. now rewrite E1, E2.
  Qed.

  Definition weight (c : rbc) : nat := 3 * S * items c + text_size c + 4 * items c.

  Definition good (c : rbc) : Prop := forall self ps self' ps' w,
    write_rbc class c self ps = (self', ps', w) -> fits c self -> cheap (self :: ps) ->
    len w + S * opens (self' :: ps') <= weight c + S * opens (self :: ps) /\ cheap (self' :: ps')
    /\ map shape (self' :: ps') = map shape (self :: ps).

  Lemma write_all_len content : Forall good content -> forall self ps self' ps' w,
    write_all (write_rbc class) content self ps = (self', ps', w) ->
    fold_right (fun x P => fits x self /\ P) True content -> cheap (self :: ps) ->
    len w + S * opens (self' :: ps') <= sum (map weight content) + S * opens (self :: ps) /\ cheap (self' :: ps')
    /\ map shape (self' :: ps') = map shape (self :: ps).
  Proof.
    induction 1 as [|c cs Hc _ IH]; intros self ps self' ps' w E F C; cbn [write_all map sum fold_right] in *.
    - injection E as <- <- <-. cbn [List.length]. repeat split; auto. 
    - destruct (write_rbc class c self ps) as [[s1 p1] w1] eqn:E1. destruct (write_all _ cs s1 p1) as [[s2 p2] w2] eqn:E2.
      injection E as <- <- <-. destruct F as [F1 F2]. destruct (Hc _ _ _ _ _ E1 F1 C) as (L1 & C1 & Sh1).
      destruct (IH _ _ _ _ _ E2) as (L2 & C2 & Sh2); auto.
      { cbn [map] in Sh1. injection Sh1 as Ea Eb _. clear - F2 Ea Eb. induction cs as [|x cs IH]; cbn in *; auto. destruct F2 as [A B]. split; auto.
        eapply fits_same; [|exact A]. unfold shape. congruence. }
      rewrite app_length. repeat split; auto; [lia|]. etransitivity; [exact Sh2|exact Sh1].
  Qed.
  Lemma sum_weight l : sum (map weight l) = 3 * S * sum (map items l) + sum (map text_size l) + 4 * sum (map items l).
  Proof. induction l as [|c l IH]; cbn [map sum]; [lia|]. rewrite IH. unfold weight. lia. Qed.

  (** The context of a block or a rule, made closed, used and finished. *)
  Lemma nested_len content f self ps f0 p0 w0 f1 p1 w1 f2 w2 : Forall good content -> f_open f = false -> cost f <= S ->
    fold_right (fun x P => fits x f /\ P) True content -> cheap (self :: ps) ->
    (f0, p0, w0) = (f, self :: ps, []) \/ start f (self :: ps) = (f0, p0, w0) ->
    write_all (write_rbc class) content f0 p0 = (f1, p1, w1) -> finish f1 p1 = (f2, w2) ->
    len (w0 ++ w1 ++ w2) + S * opens p1 <= 2 * S + sum (map weight content) + S * opens (self :: ps) /\ cheap p1 /\ map shape p1 = map shape (self :: ps).
  Proof.
    intros G O Hf F C E0 E1 E2.
    assert (H0 : len w0 + S * opens (f0 :: p0) <= 2 * S + S * opens (self :: ps) /\ cheap (f0 :: p0) /\ map shape (f0 :: p0) = map shape (f :: self :: ps)).
    { destruct E0 as [E0|E0].
      - injection E0 as -> -> ->. unfold opens. cbn [map sum]. rewrite O. repeat split; [cbn [List.length]; lia|]. constructor; auto. 
      - apply start_len in E0 as (L & C1 & Sh); auto. repeat split; auto. unfold opens in *. cbn [map sum] in *. rewrite O in L. lia. }
    destruct H0 as (L0 & C0 & Sh0). apply write_all_len in E1 as (L1 & C1 & Sh1); auto.
    2:{ cbn [map] in Sh0. injection Sh0 as Ea Eb _. clear - F Ea Eb. induction content as [|x cs IH]; cbn in *; auto. destruct F as [A B]. split; auto.
        eapply fits_same; [|exact A]. unfold shape. congruence. }
    apply finish_len in E2 as (L2 & _ & _); [|exact (Forall_inv C1)].
    rewrite !app_length. unfold opens in *. cbn [map sum] in *. split; [lia|]. split; [now apply Forall_inv_tail in C1|]. congruence.
  Qed.

  Lemma write_len c : good c.
  Proof.
    induction c as [a|cond content IH|cond content IH| |c l IHc IHl] using rbc_ind2 with (Q := Forall good); auto.
    - intros self ps self' ps' w E F C. cbn [write_rbc fits] in *. unfold write_attr in E.
      destruct (start self ps) as [[s1 p1] w1] eqn:Es. injection E as <- <- <-.
      apply start_len in Es as (L & C1 & Sh); auto; [|now apply Forall_inv_tail in C].
      pose proof (padding_cost s1) as Lp. rewrite (shape_cost s1 self) in Lp by (cbn [map] in Sh; congruence).
      rewrite !app_length. unfold weight. cbn [items text_size]. unfold chars. change (len (lit ": ")) with 2. change (len (lit ";")) with 1. change (len nl) with 1.
      repeat split; auto. cbn [List.length]. rewrite app_length. change (len (59%N :: nl)) with 2. lia.
    - intros self ps self' ps' w E F C. cbn [write_rbc fits] in *. destruct F as [F1 F2]. set (f := with_rule_condition self (List.concat cond)) in *.
      destruct (if starts_with _ _ then _ else _) as [[f0 p0] w0] eqn:E0.
      destruct (write_all _ content f0 p0) as [[f1 p1] w1] eqn:E1. destruct (finish f1 p1) as [f2 w2] eqn:E2.
      assert (E0' : (f0, p0, w0) = (f, self :: ps, []) \/ start f (self :: ps) = (f0, p0, w0)) by (destruct (starts_with _ _); auto).
      destruct (nested_len content f self ps f0 p0 w0 f1 p1 w1 f2 w2 IH eq_refl F1 F2 C E0' E1 E2) as (L & C1 & Sh).
      rewrite sum_weight in L. unfold weight. cbn [items text_size].
      destruct p1 as [|s1 p1]; [discriminate Sh|]. injection E as <- <- <-. repeat split; auto. lia.
    - intros self ps self' ps' w E F C. cbn [write_rbc fits] in *. destruct F as [F1 F2]. set (f := with_block_condition class self (cond_str class cond)) in *.
      destruct (write_all _ content f (self :: ps)) as [[f1 p1] w1] eqn:E1. destruct (finish f1 p1) as [f2 w2] eqn:E2.
      destruct (nested_len content f self ps f (self :: ps) [] f1 p1 w1 f2 w2 IH eq_refl F1 F2 C (or_introl eq_refl) E1 E2) as (L & C1 & Sh).
      cbn [List.app] in L. rewrite sum_weight in L. unfold weight. cbn [items text_size].
      destruct p1 as [|s1 p1]; [discriminate Sh|]. injection E as <- <- <-. repeat split; auto. lia.
  Qed.
End Bound.

(** ** Selectors *)
Lemma replace_char_len c r s : len (replace_char c r s) <= (len r + 1) * len s.
Proof.
  unfold replace_char. induction s as [|x s IH]; cbn [flat_map]; [cbn; lia|].
  rewrite app_length. destruct (char_eqb x c); cbn [List.length]; lia.
Qed.
Lemma replace_aux_len p r s : forall k, len (replace_aux p r s k) <= (len r + 1) * len s.
Proof.
  induction s as [|x s IH]; intros k; cbn [replace_aux]; [cbn; lia|].
  destruct k as [|k]; [|specialize (IH k); cbn [List.length]; lia].
  destruct (starts_with p (x :: s)); rewrite ?app_length; cbn [List.length]; [|specialize (IH 0)]; [match goal with |- context[replace_aux p r s ?k] => specialize (IH k) end|]; lia.
Qed.
Lemma write_selector_len class sel : len (write_selector class sel) + 2 <= class_room class * class_room class * (1 + chars sel).
Proof.
  unfold write_selector, class_room, chars. generalize (concat sel). intros j. destruct class as [m|].
  - destruct (_ || _).
    + unfold replace_str. etransitivity; [apply Nat.add_le_mono_r; etransitivity;
        [apply replace_aux_len|apply Nat.mul_le_mono_l, replace_char_len]|].
      rewrite app_length. change (len (lit ".")) with 1. nia.
    + rewrite !app_length. change (len (lit ".")) with 1.
      assert (len (if starts_with (lit ":") j then [] else lit " ") <= 1) by (destruct (starts_with _ _); cbn; lia). nia.
  - destruct (contains_char _ _).
    + pose proof (replace_char_len (ch "&") (lit ":root") j) as H. change (len (lit ":root") + 1) with 6 in H. lia.
    + lia.
Qed.
Lemma join_len (l : list str) : len (join (lit ", ") l) <= sum (map (fun x => List.length x + 2) l).
Proof.
  induction l as [|x l IH]; [cbn; lia|]. destruct l as [|y l].
  - change (join (lit ", ") [x]) with x. cbn [map sum]. lia.
  - change (join (lit ", ") (x :: y :: l)) with (x ++ lit ", " ++ join (lit ", ") (y :: l)). rewrite !app_length.
    change (sum (map (fun x => len x + 2) (x :: y :: l))) with (len x + 2 + sum (map (fun x => len x + 2) (y :: l))).
    change (len (lit ", ")) with 2. lia.
Qed.
Lemma cond_str_len class cond s : cond_str class cond = Some s ->
  len s <= class_room class * class_room class * sum (map (fun x => 1 + chars x) cond).
Proof.
  unfold cond_str. destruct cond as [|x cond]; [discriminate|]. generalize (x :: cond). clear. intros l [= <-].
  etransitivity; [apply join_len|]. rewrite map_map. induction l as [|x l IH]; cbn [map sum]; [lia|].
  pose proof (write_selector_len class x). lia.
Qed.

(** ** Contexts of a sheet *)
Definition rules_len (f : frame) : nat := sum (map (@List.length _) (f_rules f)).
Definition sel_len (f : frame) : nat := match f_sel f with Some s => len s | None => 0 end.

Lemma sum_plus (l : list str) k :
  sum (map (fun c => List.length c + k + 3) l) = sum (map (@List.length _) l) + List.length l * (k + 3).
Proof. induction l as [|c l IH]; cbn [map sum List.length]; [lia|]. rewrite IH. lia. Qed.
Lemma cost_le f D T U : len (f_rules f) <= D -> rules_len f <= T -> sel_len f <= U ->
  cost f <= (D + 1) * (4 * D + 7) + T + U.
Proof.
  intros HD HT HU. unfold cost. set (N := len (conditions f)).
  assert (E : sum (map (fun c => List.length c + 4 * N + 3) (conditions f)) = sum (map (@List.length _) (conditions f)) + N * (4 * N + 3)).
  { apply sum_plus. }
  rewrite E. unfold N, conditions. rewrite map_app, sum_app, app_length. fold (rules_len f).
  unfold sel_len in HU. destruct (f_sel f) as [s|]; cbn [map sum List.length]; nia.
Qed.

Lemma most_in x l : In x l -> x <= most l.
Proof. induction l; cbn; [tauto|]. intros [->|H]; [lia|]. specialize (IHl H). lia. Qed.
Lemma sum_in x l : In x l -> x <= sum l.
Proof. induction l; cbn; [tauto|]. intros [->|H]; [lia|]. specialize (IHl H). lia. Qed.

Lemma fits_sheet class D T c : let R := class_room class in let U := R * R * (T + 1) in
  forall f, len (f_rules f) + rule_depth c <= D -> rules_len f + text_size c <= T -> sel_len f <= U ->
  fits ((D + 1) * (4 * D + 7) + T + U) class c f.
Proof.
  intros R U. induction c as [a|cond content IH|cond content IH| |c l IHc IHl] using rbc_ind2 with
    (Q := Forall (fun c => forall f, len (f_rules f) + rule_depth c <= D -> rules_len f + text_size c <= T -> sel_len f <= U ->
                 fits ((D + 1) * (4 * D + 7) + T + U) class c f)); auto.
  - intros f HD HT HU. cbn [fits rule_depth text_size] in *. apply cost_le; lia.
  - intros f HD HT HU. cbn [fits rule_depth text_size] in *. set (g := with_rule_condition f (concat cond)).
    assert (GD : len (f_rules g) = len (f_rules f) + 1) by (unfold g; cbn [with_rule_condition f_rules]; rewrite app_length; reflexivity).
    assert (GT : rules_len g = rules_len f + chars cond).
    { unfold g, rules_len. cbn [with_rule_condition f_rules]. rewrite map_app, sum_app. cbn [map sum]. unfold chars. lia. }
    assert (GU : sel_len g <= U) by exact HU. clearbody g.
    split; [apply cost_le; lia|]. 
    assert (M : forall x, In x content -> rule_depth x <= most (map rule_depth content) /\ text_size x <= sum (map text_size content)).
    { intros x H. split; [apply most_in|apply sum_in]; now apply in_map. }
    induction content as [|x content IHc]; cbn [fold_right]; auto. split.
    + apply (Forall_inv IH); destruct (M x (or_introl eq_refl)); lia.
    + apply IHc; [now apply Forall_inv_tail in IH| | |intros y H; split; [apply most_in|apply sum_in]; now apply in_map].
      * cbn [map most] in HD. lia.
      * cbn [map sum] in HT. lia.
  - intros f HD HT HU. cbn [fits rule_depth text_size] in *. set (g := with_block_condition class f (cond_str class cond)).
    assert (GD : len (f_rules g) = len (f_rules f)) by reflexivity. assert (GT : rules_len g = rules_len f) by reflexivity.
    assert (GU : sel_len g <= U).
    { unfold g, sel_len. cbn [with_block_condition f_sel]. unfold block_selector. destruct (cond_str class cond) as [s|] eqn:E.
      - apply cond_str_len in E. unfold U, R. nia.
      - unfold sel_len in HU. destruct (f_sel f); auto. unfold U, R, class_room. destruct class as [m|].
        + rewrite app_length. change (len (lit ".")) with 1. nia.
        + cbn. lia. }
    clearbody g. split; [apply cost_le; lia|].
    assert (M : forall x, In x content -> rule_depth x <= most (map rule_depth content) /\ text_size x <= sum (map text_size content)).
    { intros x H. split; [apply most_in|apply sum_in]; now apply in_map. }
    induction content as [|x content IHc]; cbn [fold_right]; auto. split.
    + apply (Forall_inv IH); destruct (M x (or_introl eq_refl)); lia.
    + apply IHc; [now apply Forall_inv_tail in IH| | |intros y H; split; [apply most_in|apply sum_in]; now apply in_map].
      * cbn [map most] in HD. lia.
      * cbn [map sum] in HT. lia.
Qed.

Lemma to_style_str_len class s : let D := sheet_nesting s in let T := sheet_text s in let R := class_room class in
  len (to_style_str class s) <= sheet_items s * (12 * ((D + 2) * (D + 2)) + 4 * (R * R * (T + 1))).
Proof.
  intros D T R. unfold to_style_str, write_sheet. destruct (write_all _ _ new_frame []) as [[f ps] w] eqn:E.
  set (B := (D + 1) * (4 * D + 7) + T + R * R * (T + 1)).
  assert (G : Forall (good B class) (map rbc_of_scope s)) by (clear; induction (map rbc_of_scope s); constructor; auto using write_len).
  assert (F : forall c, In c (map rbc_of_scope s) -> fits B class c new_frame).
  { intros c H. apply fits_sheet; unfold rules_len, sel_len; cbn [new_frame f_rules f_sel map sum List.length]; try lia.
    - cbn [Nat.add]. apply most_in, in_map, H.
    - cbn [Nat.add]. apply sum_in, in_map, H. }
  assert (F' : fold_right (fun x P => fits B class x new_frame /\ P) True (map rbc_of_scope s)).
  { clear - F. induction (map rbc_of_scope s) as [|c l IH]; cbn [fold_right]; auto. split; [apply F; now left|]. apply IH. intros; apply F; now right. }
  assert (C : cheap B [new_frame]) by (constructor; [discriminate|constructor]).
  pose proof (proj1 (write_all_len B class _ G _ _ _ _ _ E F' C)) as L. clear E G F F' C.
  rewrite sum_weight in L. fold (sheet_items s) (sheet_text s) in L. fold T in L.
  unfold opens in L. cbn [map sum new_frame f_open] in L.
  destruct s as [|c s].
  { change (sheet_items []) with 0 in *. assert (T = 0) by reflexivity. lia. }
  assert (I : 1 <= sheet_items (c :: s)) by (unfold sheet_items; destruct c; cbn; lia).
  assert (R6 : 6 <= R) by (unfold R, class_room; destruct class; lia).
  assert (H : 3 * B + T + 4 <= 12 * ((D + 2) * (D + 2)) + 4 * (R * R * (T + 1))).
  { unfold B. clearbody T D R. assert (36 <= R * R) by nia. nia. }
  set (X := 12 * ((D + 2) * (D + 2)) + 4 * (R * R * (T + 1))) in *. clearbody X B T.
  set (I0 := sheet_items (c :: s)) in *. clearbody I0. nia.
Qed.
