(** * RenameFacts: the renderer run with two classes in lockstep. *)

From Coq Require Import String Ascii List NArith Bool Arith Lia.
From Verif Require Import Str StrFacts Ast Manager Render SpecRender RenderFacts SpecRename GlobalText.
Import ListNotations.
Local Open Scope list_scope.

(** ** Texts with gaps *)

Definition tmpl := list (option char).
(** The gaps filled with [w]. *)
Definition inst (w : str) (t : tmpl) : str := flat_map (fun o => match o with Some x => [x] | None => w end) t.
(** [w] occurs in [t] outside of the gaps. *)
Definition occurs (w : str) (t : tmpl) : Prop := exists a b, t = a ++ map Some w ++ b.

Lemma inst_app w a b : inst w (a ++ b) = inst w a ++ inst w b.
Proof. apply flat_map_app. Qed.
Lemma inst_plain w s : inst w (map Some s) = s.
Proof. induction s as [|x s IH]; [reflexivity|]. cbn [map]. change (x :: inst w (map Some s) = x :: s). now rewrite IH. Qed.

Lemma replace_skip p r a : forall s, replace_aux p r (a ++ s) (List.length a) = replace_aux p r s 0.
Proof. induction a as [|x a IH]; intros s; [now destruct s|]. cbn. apply IH. Qed.
Lemma replace_match p r s : p <> [] -> replace_str p r (p ++ s) = r ++ replace_str p r s.
Proof.
  intros N. destruct p as [|x p]; [contradiction|]. unfold replace_str. cbn [app].
  assert (S : starts_with (x :: p) (x :: p ++ s) = true) by (apply starts_with_spec; now exists s).
  cbn [replace_aux]. rewrite S. f_equal. cbn [List.length Nat.sub]. rewrite Nat.sub_0_r. apply replace_skip.
Qed.
Lemma replace_miss p r x s : starts_with p (x :: s) = false -> replace_str p r (x :: s) = x :: replace_str p r s.
Proof. intros S. unfold replace_str. cbn [replace_aux]. now rewrite S. Qed.

Section Word.
  Variable c : str.
  Hypothesis plain : forallb ident_char c = true.
  Let w := lit "." ++ c.

  Lemma no_dot x : In x c -> x <> ch ".".
  Proof. intros I ->. rewrite forallb_forall in plain. now specialize (plain _ I). Qed.

  Lemma run_prefix v t : (forall x, In x v -> x <> ch ".") -> (exists r, inst w t = v ++ r) -> exists b, t = map Some v ++ b.
  Proof.
    revert t. induction v as [|x v IH]; intros t H [r E]; [now exists t|].
    destruct t as [|[y|] t]; [discriminate| |].
    - cbn in E. injection E as -> E. destruct (IH t) as [b ->]; [intros z Hz; apply H; now right|eauto|]. now exists b.
    - unfold w in E. cbn in E. injection E as E _. exfalso. apply (H x); [now left|now rewrite <- E].
  Qed.

  Lemma replace_inst r t : ~ occurs w t -> replace_str w r (inst w t) = inst r t.
  Proof.
    induction t as [|[x|] t IH]; intros N; [reflexivity| |].
    - cbn [inst flat_map app]. fold (inst w t) (inst r t).
      assert (N' : ~ occurs w t) by (intros (a & b & ->); apply N; now exists (Some x :: a), b).
      rewrite replace_miss; [now rewrite (IH N')|].
      destruct (starts_with w (x :: inst w t)) eqn:S; [|reflexivity]. exfalso. apply starts_with_spec in S as [q Hq].
      unfold w in Hq at 2. cbn in Hq. injection Hq as -> Hq.
      destruct (run_prefix c t no_dot (ex_intro _ q Hq)) as [b ->]. apply N. now exists [], b.
    - cbn [inst flat_map]. fold (inst w t) (inst r t). rewrite replace_match by discriminate. f_equal. apply IH.
      intros (a & b & ->). apply N. now exists (None :: a), b.
  Qed.

  Lemma inst_fun t u : ~ occurs w t -> ~ occurs w u -> inst w t = inst w u -> t = u.
  Proof.
    intros Nt Nu E.
    pose (m := (1 + list_max (map (fun o => match o with Some x => N.to_nat x | None => 0 end) (t ++ u)))%nat).
    assert (M : forall x, In (Some x) (t ++ u) -> x <> N.of_nat m).
    { intros x I ->. pose proof (list_max_le (map (fun o => match o with Some x => N.to_nat x | None => 0 end) (t ++ u)) (m - 1)) as [L _].
      assert (L' : Forall (fun k => k <= m - 1) (map (fun o : option char => match o with Some x => N.to_nat x | None => 0 end) (t ++ u))).
      { apply L. unfold m. lia. }
      rewrite Forall_forall in L'. assert (N.to_nat (N.of_nat m) <= m - 1).
      { apply L'. apply in_map_iff. now exists (Some (N.of_nat m)). }
      unfold m in *. lia. }
    apply (f_equal (replace_str w [N.of_nat m])) in E. rewrite !replace_inst in E by assumption.
    clear Nt Nu. revert E M. generalize (N.of_nat m). clear. intros m. revert u. induction t as [|x t IH]; intros u E M.
    - destruct u as [|[]]; [reflexivity|discriminate|discriminate].
    - destruct u as [|y u]; [destruct x; discriminate|].
      assert (x = y) as <-.
      { apply (f_equal (fun l => match l with z :: _ => z | [] => 0%N end)) in E.
        destruct x as [x|], y as [y|]; cbn in E; subst; auto.
        - exfalso. apply (M m); [now left|reflexivity].
        - exfalso. apply (M y); [apply in_app_iff; right; now left|reflexivity]. }
      f_equal. apply IH.
      + destruct x; cbn in E; now injection E.
      + intros z I. apply M. cbn. right. apply in_app_iff in I. apply in_app_iff. destruct I; [now left|right; now right].
  Qed.
End Word.

(** ** Where a word cannot be *)

Lemma prefix_before_sep (v a q b : tmpl) d : ~ In d v -> v ++ q = a ++ d :: b -> exists r, a = v ++ r.
Proof.
  revert a. induction v as [|x v IH]; intros a N E; [now exists a|].
  destruct a as [|y a]; cbn in E; injection E as -> E; [exfalso; apply N; now left|].
  destruct (IH a) as [r ->]; [intros K; apply N; now right|exact E|]. now exists r.
Qed.
Lemma occurs_sep w d a b : ~ In d w -> occurs w (a ++ Some d :: b) -> occurs w a \/ occurs w b.
Proof.
  intros N (p & q & E). assert (N' : ~ In (Some d) (map Some w)) by (intros K; apply in_map_iff in K as (? & [= ->] & K); auto).
  revert p E. induction a as [|x a IH]; intros p E.
  - destruct p as [|y p]; cbn in E.
    + destruct (prefix_before_sep (map Some w) [] q b (Some d) N' (eq_sym E)) as [r Hr]. left. exists [], r. exact Hr.
    + injection E as _ ->. right. now exists p, q.
  - destruct p as [|y p]; cbn in E.
    + destruct (prefix_before_sep (map Some w) (x :: a) q b (Some d) N' (eq_sym E)) as [r Hr]. left. exists [], r. exact Hr.
    + injection E as <- E. destruct (IH p E) as [(p' & q' & ->)|K]; [|now right]. left. now exists (x :: p'), q'.
Qed.
Lemma occurs_gap w t : w <> [] -> occurs w (None :: t) -> occurs w t.
Proof.
  intros N (a & b & E). destruct a as [|x a]; cbn in E.
  - destruct w; [contradiction|discriminate].
  - injection E as _ ->. now exists a, b.
Qed.
Lemma occurs_plain w s : occurs w (map Some s) -> exists a b, s = a ++ w ++ b.
Proof.
  intros (a & b & E). apply (f_equal (inst [])) in E. rewrite !inst_app, !inst_plain in E. eauto.
Qed.
Lemma occurs_nil w : w <> [] -> ~ occurs w [].
Proof. intros N (a & b & E). destruct a, w; try discriminate. contradiction. Qed.

(** ** Selectors *)

Inductive marks : str -> tmpl -> Prop :=
| m_nil : marks [] []
| m_amp j t : marks j t -> marks (ch "&" :: j) (None :: t)
| m_root j t : marks j t -> marks (lit ":root" ++ j) (None :: t)
| m_plain x j t : marks j t -> marks (x :: j) (Some x :: t).

Lemma marks_prefix v : forall j t b, marks j t -> t = map Some v ++ b -> exists b', j = v ++ b'.
Proof.
  induction v as [|x v IH]; intros j t b M E; [now exists j|].
  destruct M as [|j t M|j t M|y j t M]; try discriminate. cbn in E. injection E as -> E.
  destruct (IH _ _ _ M E) as [b' ->]. now exists b'.
Qed.
Lemma marks_occurs v j t : v <> [] -> marks j t -> occurs v t -> exists a b, j = a ++ v ++ b.
Proof.
  intros N M. induction M as [|j t M IH|j t M IH|x j t M IH]; intros O.
  - now apply occurs_nil in O.
  - apply occurs_gap in O; [|exact N]. destruct (IH O) as (a & b & ->). now exists (ch "&" :: a), b.
  - apply occurs_gap in O; [|exact N]. destruct (IH O) as (a & b & ->). exists (lit ":root" ++ a), b. now rewrite <- app_assoc.
  - destruct O as ([|y a] & b & E).
    + destruct (marks_prefix v _ _ _ (m_plain x j t M) E) as [b' ->]. now exists [], b'.
    + cbn in E. injection E as _ E. destruct IH as (a' & b' & ->); [now exists a, b|]. now exists (x :: a'), b'.
Qed.

Lemma marked_tmpl j : exists t, marks j t /\ forall c, forallb ident_char c = true ->
  replace_str (lit ":root") (lit "." ++ c) (replace_char (ch "&") (lit "." ++ c) j) = inst (lit "." ++ c) t.
Proof.
  assert (N1 : ~ In (ch "&") (lit ":root")).
  { cbv. intros K. repeat (destruct K as [K|K]; [discriminate|]). exact K. }
  assert (N2 : ~ In (ch ".") (lit ":root")).
  { cbv. intros K. repeat (destruct K as [K|K]; [discriminate|]). exact K. }
  assert (D : forall c j', forallb ident_char c = true ->
    replace_str (lit ":root") (lit "." ++ c) ((lit "." ++ c) ++ j') = (lit "." ++ c) ++ replace_str (lit ":root") (lit "." ++ c) j').
  { intros c j' P. cbn [lit map list_ascii_of_string app]. rewrite replace_miss by reflexivity. f_equal.
    generalize (N_of_ascii "." :: c) as r. intros r.
    clear -P. induction c as [|x c IH]; [reflexivity|]. cbn in P. apply andb_prop in P as [P1 P2]. cbn [app].
    rewrite replace_miss; [now rewrite (IH P2)|]. cbn [starts_with lit map list_ascii_of_string].
    destruct (char_eqb (N_of_ascii ":") x) eqn:E; [|reflexivity]. apply char_eqb_eq in E. subst x. discriminate. }
  remember (List.length j) as n eqn:En. revert j En. induction n as [n IH] using lt_wf_ind. intros j ->.
  destruct j as [|x j]; [exists []; split; [constructor|reflexivity]|].
  destruct (char_eqb x (ch "&")) eqn:E.
  - apply char_eqb_eq in E. subst x. destruct (IH (List.length j)) with (j := j) as (t & M & R); [cbn; lia|reflexivity|].
    exists (None :: t). split; [now constructor|]. intros c P.
    change (replace_char (ch "&") (lit "." ++ c) (ch "&" :: j)) with ((lit "." ++ c) ++ replace_char (ch "&") (lit "." ++ c) j).
    rewrite D by exact P. cbn [inst flat_map]. f_equal. now apply R.
  - assert (A : forall r, replace_char (ch "&") r (x :: j) = x :: replace_char (ch "&") r j).
    { intros r. unfold replace_char at 1. cbn [flat_map]. now rewrite E. }
    destruct (starts_with (lit ":root") (x :: j)) eqn:S.
    + apply starts_with_spec in S as [q Hq].
      destruct (IH (List.length q)) with (j := q) as (t & M & R); [rewrite Hq, app_length; cbn; lia|reflexivity|].
      exists (None :: t). split; [rewrite Hq; now constructor|]. intros c P. rewrite Hq, replace_char_app.
      rewrite (replace_char_none (ch "&") (lit "." ++ c) (lit ":root") N1).
      rewrite (replace_match (lit ":root") (lit "." ++ c)) by (intros K; discriminate K).
      cbn [inst flat_map]. f_equal. now apply R.
    + destruct (IH (List.length j)) with (j := j) as (t & M & R); [cbn; lia|reflexivity|].
      exists (Some x :: t). split; [now constructor|]. intros c P. rewrite A, replace_miss.
      * cbn [inst flat_map app]. f_equal. now apply R.
      * rewrite <- A, starts_replace by assumption. exact S.
Qed.

(** ** Two renderings *)

Lemma rel_length {A B} (P : A -> B -> Prop) l l' : Forall2 P l l' -> List.length l = List.length l'.
Proof. induction 1; cbn; congruence. Qed.

Section Two.
  Variables c1 c2 : str.
  Hypothesis plain1 : forallb ident_char c1 = true.
  Hypothesis plain2 : forallb ident_char c2 = true.
  Let w1 := lit "." ++ c1.
  Let w2 := lit "." ++ c2.

  Definition ok (t : tmpl) : Prop := ~ occurs w1 t /\ ~ occurs w2 t.
  Definition twin (x y : str) : Prop := exists t, ok t /\ x = inst w1 t /\ y = inst w2 t.
  (** A character that no word has. *)
  Definition sep (d : char) : Prop := ident_char d = false /\ d <> ch ".".

  Lemma sep_word d c : sep d -> forallb ident_char c = true -> ~ In d (lit "." ++ c).
  Proof.
    intros [S1 S2] P [K|K]; [now apply S2|]. rewrite forallb_forall in P. rewrite (P _ K) in S1. discriminate.
  Qed.
  Lemma ok_sep d a b : sep d -> ok a -> ok b -> ok (a ++ Some d :: b).
  Proof.
    intros S [A1 A2] [B1 B2]. split; intros O; apply occurs_sep in O; try (now apply sep_word).
    - now destruct O.
    - now destruct O.
  Qed.
  Lemma ok_nil : ok [].
  Proof. split; apply occurs_nil; discriminate. Qed.
  Lemma ok_gap t : ok t -> ok (None :: t).
  Proof. intros [A B]. split; intros O; apply occurs_gap in O; auto; discriminate. Qed.
  Lemma ok_cons d b : sep d -> ok b -> ok (Some d :: b).
  Proof. intros S B. apply (ok_sep d [] b S ok_nil B). Qed.

  Lemma twin_eq x y x' y' : twin x y -> twin x' y' -> str_eqb x x' = str_eqb y y'.
  Proof.
    intros (t & [T1 T2] & -> & ->) (u & [U1 U2] & -> & ->).
    destruct (str_eqb (inst w1 t) (inst w1 u)) eqn:E.
    - apply str_eqb_eq in E. apply (inst_fun c1 plain1) in E; auto. subst u. symmetry. now apply str_eqb_eq.
    - destruct (str_eqb (inst w2 t) (inst w2 u)) eqn:E2; [|reflexivity].
      apply str_eqb_eq in E2. apply (inst_fun c2 plain2) in E2; auto. subst u.
      assert (str_eqb (inst w1 t) (inst w1 t) = true) by now apply str_eqb_eq. congruence.
  Qed.

  (** A text that mentions neither class. *)
  Definition free (s : str) : Prop := (~ exists a b, s = a ++ w1 ++ b) /\ ~ exists a b, s = a ++ w2 ++ b.
  Lemma ok_free s : free s -> ok (map Some s).
  Proof. intros [A B]. split; intros O; apply occurs_plain in O; auto. Qed.
  Lemma twin_free s : free s -> twin s s.
  Proof. intros F. exists (map Some s). rewrite !inst_plain. split; [now apply ok_free|now split]. Qed.
  Lemma twin_class : twin w1 w2.
  Proof. exists [None]. split; [apply ok_gap, ok_nil|]. cbn. now rewrite !app_nil_r. Qed.

  Lemma selector_twin sel : free (List.concat sel) -> twin (write_selector (Some c1) sel) (write_selector (Some c2) sel).
  Proof.
    intros F. unfold write_selector. set (j := List.concat sel) in *. destruct (_ || _).
    - destruct (marked_tmpl j) as (t & M & R). exists t. split; [|split; now apply R].
      destruct F as [F1 F2]. split; intros O.
      + apply F1. eapply marks_occurs; eauto. discriminate.
      + apply F2. eapply marks_occurs; eauto. discriminate.
    - destruct (starts_with (lit ":") j).
      + exists (None :: map Some j). split; [now apply ok_gap, ok_free|]. cbn [inst flat_map].
        fold (inst w1 (map Some j)) (inst w2 (map Some j)). rewrite !inst_plain. now split.
      + exists (None :: Some (ch " ") :: map Some j). split; [apply ok_gap, ok_cons; [now split|now apply ok_free]|].
        cbn [inst flat_map]. fold (inst w1 (map Some j)) (inst w2 (map Some j)). rewrite !inst_plain. now split.
  Qed.
  Lemma join_twin l l' : Forall2 twin l l' -> twin (join (lit ", ") l) (join (lit ", ") l').
  Proof.
    induction 1 as [|x y l l' T F IH]; [exists []; split; [apply ok_nil|now split]|].
    destruct F as [|x' y' l l' T' F]; [exact T|]. destruct T as (t & T & -> & ->). destruct IH as (u & U & E1 & E2).
    change (join (lit ", ") (inst w1 t :: x' :: l)) with (inst w1 t ++ lit ", " ++ join (lit ", ") (x' :: l)).
    change (join (lit ", ") (inst w2 t :: y' :: l')) with (inst w2 t ++ lit ", " ++ join (lit ", ") (y' :: l')).
    rewrite E1, E2. exists (t ++ Some (ch ",") :: Some (ch " ") :: u). rewrite !inst_app.
    split; [|now split]. apply ok_sep; [now split|exact T|]. apply ok_cons; [now split|exact U].
  Qed.

  (** Whole lines. *)
  Definition lines (x y : str) : Prop :=
    exists t, ok t /\ (t = [] \/ exists t', t = t' ++ [Some 10%N]) /\ x = inst w1 t /\ y = inst w2 t.
  Lemma lines_nil : lines [] [].
  Proof. exists []. split; [apply ok_nil|]. split; [now left|now split]. Qed.
  Lemma lines_app a b a' b' : lines a b -> lines a' b' -> lines (a ++ a') (b ++ b').
  Proof.
    intros (t & T & Lt & -> & ->) (u & U & Lu & -> & ->). exists (t ++ u). rewrite !inst_app. split; [|split; [|now split]].
    - destruct Lt as [->|[t' ->]]; [exact U|]. rewrite <- app_assoc. cbn. apply ok_sep; [now split| |exact U].
      destruct T as [T1 T2]. split; intros (a & b & ->); [apply T1|apply T2]; exists a, (b ++ [Some 10%N]); now rewrite <- !app_assoc.
    - destruct Lu as [->|[u' ->]]; [rewrite app_nil_r; exact Lt|right]. exists (t ++ u'). now rewrite app_assoc.
  Qed.
  Lemma ok_padding n t : ok t -> ok (map Some (padding n) ++ t).
  Proof. intros T. induction n as [|n IH]; [exact T|]. cbn. now repeat (apply ok_cons; [now split|]). Qed.
  Lemma lines_of t t1 t2 : ok t -> t1 = inst w1 t -> t2 = inst w2 t -> lines (t1 ++ nl) (t2 ++ nl).
  Proof.
    intros T -> ->. exists (t ++ [Some 10%N]). rewrite !inst_app. split; [|split; [right; now exists t|now split]].
    apply ok_sep; [now split|exact T|apply ok_nil].
  Qed.

  Lemma close_lines_lines m n : lines (close_lines m n) (close_lines m n).
  Proof.
    induction n as [|n IH]; [apply lines_nil|]. cbn [close_lines].
    replace (padding m ++ padding n ++ lit "}" ++ nl ++ close_lines m n)
      with (((padding m ++ padding n ++ lit "}") ++ nl) ++ close_lines m n) by now rewrite <- !app_assoc.
    apply lines_app; [|exact IH].
    apply (lines_of (map Some (padding m) ++ map Some (padding n) ++ [Some (ch "}")])).
    - apply ok_padding, ok_padding, ok_cons; [now split|apply ok_nil].
    - now rewrite !inst_app, !inst_plain.
    - now rewrite !inst_app, !inst_plain.
  Qed.
  Lemma open_lines_lines m l l' : Forall2 twin l l' -> forall i, lines (open_lines m i l) (open_lines m i l').
  Proof.
    induction 1 as [|x y l l' (t & T & -> & ->) F IH]; intros i; [apply lines_nil|]. cbn [open_lines].
    replace (padding m ++ padding i ++ inst w1 t ++ lit " {" ++ nl ++ open_lines m (S i) l)
      with (((padding m ++ padding i ++ inst w1 t ++ lit " {") ++ nl) ++ open_lines m (S i) l) by now rewrite <- !app_assoc.
    replace (padding m ++ padding i ++ inst w2 t ++ lit " {" ++ nl ++ open_lines m (S i) l')
      with (((padding m ++ padding i ++ inst w2 t ++ lit " {") ++ nl) ++ open_lines m (S i) l') by now rewrite <- !app_assoc.
    apply lines_app; [|apply IH].
    apply (lines_of (map Some (padding m) ++ map Some (padding i) ++ t ++ Some (ch " ") :: [Some (ch "{")])).
    - apply ok_padding, ok_padding, ok_sep; [now split|exact T|]. apply ok_cons; [now split|apply ok_nil].
    - now rewrite !inst_app, !inst_plain.
    - now rewrite !inst_app, !inst_plain.
  Qed.

  (** Contexts. *)
  Definition osel (a b : option str) : Prop :=
    match a, b with Some x, Some y => twin x y | None, None => True | _, _ => False end.
  Definition frel (f g : frame) : Prop :=
    Forall2 twin (f_rules f) (f_rules g) /\ osel (f_sel f) (f_sel g) /\ f_open f = f_open g.
  Definition res (x y : frame * chain * str) : Prop :=
    frel (fst (fst x)) (fst (fst y)) /\ Forall2 frel (snd (fst x)) (snd (fst y)) /\ lines (snd x) (snd y).

  Lemma frel_conditions f g : frel f g -> Forall2 twin (conditions f) (conditions g).
  Proof.
    intros (R & S & _). unfold conditions. apply Forall2_app; [exact R|].
    destruct (f_sel f), (f_sel g); cbn in S; try contradiction; auto.
  Qed.
  Lemma frel_open b f g : frel f g -> frel (set_open b f) (set_open b g).
  Proof. intros (R & S & _). now split. Qed.
  Lemma rel_parents ps qs : Forall2 frel ps qs -> Forall2 twin (parent_conditions ps) (parent_conditions qs).
  Proof.
    intros F. unfold parent_conditions.
    assert (K : match open_parent ps, open_parent qs with Some f, Some g => frel f g | None, None => True | _, _ => False end).
    { induction F as [|f g ps qs R F IH]; [exact I|]. cbn. destruct R as (R1 & R2 & R3). rewrite R3.
      destruct (f_open g) eqn:E; [repeat split; auto; congruence|exact IH]. }
    destruct (open_parent ps), (open_parent qs); try contradiction; [now apply frel_conditions|constructor].
  Qed.
  Lemma rel_count l l' : Forall2 twin l l' -> forall k k', Forall2 twin k k' -> count_equal l k = count_equal l' k'.
  Proof.
    induction 1 as [|x y l l' T F IH]; intros k k' K; [reflexivity|]. destruct K as [|x' y' k k' T' K]; [reflexivity|].
    cbn. now rewrite (twin_eq _ _ _ _ T T'), (IH _ _ K).
  Qed.
  Lemma rel_common f g ps qs : frel f g -> Forall2 frel ps qs -> common_count f ps = common_count g qs.
  Proof. intros R F. apply rel_count; [now apply rel_parents|now apply frel_conditions]. Qed.
  Lemma rel_skipn {A B} (P : A -> B -> Prop) l l' : Forall2 P l l' -> forall n, Forall2 P (skipn n l) (skipn n l').
  Proof. induction 1 as [|x y l l' T F IH]; intros [|n]; cbn; auto. Qed.
  Lemma rel_unique f g ps qs : frel f g -> Forall2 frel ps qs ->
    Forall2 twin (unique_conditions f ps) (unique_conditions g qs).
  Proof. intros R F. unfold unique_conditions. rewrite (rel_common _ _ _ _ R F). now apply rel_skipn, frel_conditions. Qed.
  Lemma rel_finish f g ps qs : frel f g -> Forall2 frel ps qs ->
    frel (fst (finish f ps)) (fst (finish g qs)) /\ lines (snd (finish f ps)) (snd (finish g qs)).
  Proof.
    intros R F. cbn. split; [now apply frel_open|]. pose proof R as (_ & _ & O). rewrite O.
    destruct (f_open g); [|apply lines_nil]. rewrite (rel_common _ _ _ _ R F), (rel_length _ _ _ (rel_unique _ _ _ _ R F)).
    apply close_lines_lines.
  Qed.
  Lemma rel_close f g : frel f g -> forall ps qs, Forall2 frel ps qs ->
    Forall2 frel (fst (close_until_common_parent f ps)) (fst (close_until_common_parent g qs))
    /\ lines (snd (close_until_common_parent f ps)) (snd (close_until_common_parent g qs)).
  Proof.
    intros R ps qs F. induction F as [|m n ps qs Rm F IH]; [split; [constructor|apply lines_nil]|].
    cbn [close_until_common_parent]. pose proof Rm as (_ & _ & O). rewrite O.
    destruct (close_until_common_parent f ps) as [ps1 v1], (close_until_common_parent g qs) as [qs1 v2]. cbn in IH.
    destruct IH as [IH1 IH2]. destruct (f_open n).
    - assert (D : Forall2 twin (differ_conditions f (m :: ps)) (differ_conditions g (n :: qs))).
      { unfold differ_conditions. rewrite (rel_common f g (m :: ps) (n :: qs) R (Forall2_cons _ _ Rm F)).
        apply rel_skipn, rel_parents. now constructor. }
      destruct D as [|x y l l' _ _]; [split; [now constructor|apply lines_nil]|].
      pose proof (rel_finish _ _ _ _ Rm F) as [K1 K2]. destruct (finish m ps) as [m' u1], (finish n qs) as [n' u2].
      cbn in *. split; [now constructor|now apply lines_app].
    - cbn. split; [now constructor|exact IH2].
  Qed.
  Lemma rel_start f g ps qs : frel f g -> Forall2 frel ps qs -> res (start f ps) (start g qs).
  Proof.
    intros R F. unfold start. pose proof R as (_ & _ & O). rewrite O.
    destruct (f_open g); [split; [now apply frel_open|split; [exact F|apply lines_nil]]|].
    pose proof (rel_close _ _ R _ _ F) as [K1 K2].
    destruct (close_until_common_parent f ps) as [ps1 v1], (close_until_common_parent g qs) as [qs1 v2]. cbn in K1, K2.
    split; [now apply frel_open|]. split; [exact K1|]. apply lines_app; [exact K2|].
    rewrite (rel_common _ _ _ _ R K1). now apply open_lines_lines, rel_unique.
  Qed.

  (** Contents. *)
  Definition rbc_free (x : rbc) : Prop := forall t, In t (rbc_texts x) -> free t.
  Definition follows (x : rbc) : Prop := rbc_free x -> forall f g ps qs, frel f g -> Forall2 frel ps qs ->
    res (write_rbc (Some c1) x f ps) (write_rbc (Some c2) x g qs).

  Lemma rel_all l : Forall follows l -> (forall x, In x l -> rbc_free x) -> forall f g ps qs, frel f g -> Forall2 frel ps qs ->
    res (write_all (write_rbc (Some c1)) l f ps) (write_all (write_rbc (Some c2)) l g qs).
  Proof.
    induction 1 as [|x l Hx _ IH]; intros Fr f g ps qs R F; [split; [exact R|split; [exact F|apply lines_nil]]|].
    cbn [write_all]. pose proof (Hx (Fr _ (or_introl eq_refl)) _ _ _ _ R F) as (A & B & C).
    destruct (write_rbc (Some c1) x f ps) as [[f1 ps1] v1], (write_rbc (Some c2) x g qs) as [[g1 qs1] v2]. cbn in A, B, C.
    pose proof (IH (fun y I => Fr y (or_intror I)) _ _ _ _ A B) as (A' & B' & C').
    destruct (write_all _ l f1 ps1) as [[f2 ps2] u1], (write_all _ l g1 qs1) as [[g2 qs2] u2]. cbn in A', B', C'.
    split; [exact A'|]. split; [exact B'|]. now apply lines_app.
  Qed.

  Lemma rel_block f g cond : frel f g -> (forall s, In s cond -> free (List.concat s)) ->
    frel (with_block_condition (Some c1) f (cond_str (Some c1) cond)) (with_block_condition (Some c2) g (cond_str (Some c2) cond)).
  Proof.
    intros (R & S & _) H. split; [exact R|]. split; [|reflexivity]. cbn. unfold block_selector, cond_str.
    destruct cond as [|s cond].
    - destruct (f_sel f), (f_sel g); cbn in S; try contradiction; [exact S|apply twin_class].
    - apply join_twin. revert H. generalize (s :: cond). intros l H. induction l as [|x l IH]; constructor.
      + apply selector_twin, H. now left.
      + apply IH. intros y I. apply H. now right.
  Qed.
  Lemma rel_rule f g cond : frel f g -> free cond -> frel (with_rule_condition f cond) (with_rule_condition g cond).
  Proof. intros (R & S & _) H. split; [|now split]. cbn. apply Forall2_app; [exact R|]. constructor; [now apply twin_free|constructor]. Qed.

  Lemma rel_end f g ps qs f0 g0 ps0 qs0 u1 u2 v1 v2 :
    frel f g -> Forall2 frel ps qs -> frel f0 g0 -> Forall2 frel ps0 qs0 -> lines u1 u2 -> lines v1 v2 ->
    res (let (_, w) := finish f ps in match ps with s :: p => (s, p, u1 ++ v1 ++ w) | [] => (f0, ps0, u1 ++ v1 ++ w) end)
        (let (_, w) := finish g qs in match qs with s :: p => (s, p, u2 ++ v2 ++ w) | [] => (g0, qs0, u2 ++ v2 ++ w) end).
  Proof.
    intros R F R0 F0 U V. pose proof (rel_finish _ _ _ _ R F) as [_ K].
    destruct (finish f ps) as [x a], (finish g qs) as [y b]. cbn in K.
    assert (L : lines (u1 ++ v1 ++ a) (u2 ++ v2 ++ b)) by (apply lines_app; [exact U|now apply lines_app]).
    destruct F as [|s s' p p' Rs F]; (split; [assumption|split; assumption]).
  Qed.

  Lemma rel_rbcs l : Forall follows l.
  Proof.
    apply (rbcs_ind2 follows (Forall follows)); auto.
    - intros [k v] Fr f g ps qs R F. cbn [write_rbc]. unfold write_attr.
      pose proof (rel_start _ _ _ _ R F) as (A & B & C).
      destruct (start f ps) as [[f1 ps1] v1], (start g qs) as [[g1 qs1] v2]. cbn in A, B, C.
      split; [exact A|]. split; [exact B|]. cbn [snd]. apply lines_app; [exact C|]. unfold write_padding.
      rewrite (rel_length _ _ _ (frel_conditions _ _ A)). set (n := List.length (conditions g1)). cbn [a_key a_value].
      replace (padding n ++ k ++ lit ": " ++ List.concat v ++ lit ";" ++ nl)
        with ((padding n ++ k ++ lit ": " ++ List.concat v ++ lit ";") ++ nl) by now rewrite <- !app_assoc.
      apply (lines_of (map Some (padding n) ++ map Some k ++ Some (ch ":") :: Some (ch " ") :: map Some (List.concat v) ++ [Some (ch ";")])).
      + assert (ok (map Some k)) by (apply ok_free, Fr; now left).
        assert (ok (map Some (List.concat v))) by (apply ok_free, Fr; right; now left).
        apply ok_padding, ok_sep; [now split|assumption|]. apply ok_cons; [now split|].
        apply ok_sep; [now split|assumption|apply ok_nil].
      + rewrite !inst_app, !inst_plain.
        change (inst w1 (Some (ch ":") :: Some (ch " ") :: map Some (List.concat v) ++ [Some (ch ";")]))
          with (lit ": " ++ inst w1 (map Some (List.concat v) ++ [Some (ch ";")])). now rewrite inst_app, inst_plain.
      + rewrite !inst_app, !inst_plain.
        change (inst w2 (Some (ch ":") :: Some (ch " ") :: map Some (List.concat v) ++ [Some (ch ";")]))
          with (lit ": " ++ inst w2 (map Some (List.concat v) ++ [Some (ch ";")])). now rewrite inst_app, inst_plain.
    - intros cond content IH Fr f g ps qs R F. cbn [write_rbc].
      assert (Fc : free (List.concat cond)) by (apply Fr; now left).
      assert (Fl : forall x, In x content -> rbc_free x).
      { intros x I t It. apply Fr. right. apply in_flat_map. eauto. }
      pose proof (rel_rule _ _ _ R Fc) as Rr.
      assert (K : res (if starts_with (lit "@keyframes") (List.concat cond)
                       then start (with_rule_condition f (List.concat cond)) (f :: ps)
                       else (with_rule_condition f (List.concat cond), f :: ps, []))
                      (if starts_with (lit "@keyframes") (List.concat cond)
                       then start (with_rule_condition g (List.concat cond)) (g :: qs)
                       else (with_rule_condition g (List.concat cond), g :: qs, []))).
      { destruct (starts_with _ _); [apply rel_start; [exact Rr|now constructor]|].
        split; [exact Rr|]. split; [now constructor|apply lines_nil]. }
      destruct (if starts_with (lit "@keyframes") (List.concat cond)
                then start (with_rule_condition f (List.concat cond)) (f :: ps)
                else (with_rule_condition f (List.concat cond), f :: ps, [])) as [[f0 ps0] u1].
      destruct (if starts_with (lit "@keyframes") (List.concat cond)
                then start (with_rule_condition g (List.concat cond)) (g :: qs)
                else (with_rule_condition g (List.concat cond), g :: qs, [])) as [[g0 qs0] u2].
      destruct K as (A & B & C). cbn in A, B, C.
      pose proof (rel_all content IH Fl _ _ _ _ A B) as (A' & B' & C').
      destruct (write_all _ content f0 ps0) as [[f1 ps1] v1], (write_all _ content g0 qs0) as [[g1 qs1] v2]. cbn in A', B', C'.
      exact (rel_end _ _ _ _ f g ps qs u1 u2 v1 v2 A' B' R F C C').
    - intros cond content IH Fr f g ps qs R F. cbn [write_rbc].
      assert (Fc : forall s, In s cond -> free (List.concat s)).
      { intros s I. apply Fr. cbn. apply in_app_iff. left. now apply in_map. }
      assert (Fl : forall x, In x content -> rbc_free x).
      { intros x I t It. apply Fr. cbn. apply in_app_iff. right. apply in_flat_map. eauto. }
      pose proof (rel_all content IH Fl _ _ (f :: ps) (g :: qs) (rel_block _ _ _ R Fc) (Forall2_cons _ _ R F)) as (A' & B' & C').
      destruct (write_all _ content _ (f :: ps)) as [[f1 ps1] v1], (write_all _ content _ (g :: qs)) as [[g1 qs1] v2]. cbn in A', B', C'.
      exact (rel_end _ _ _ _ f g ps qs [] [] v1 v2 A' B' R F lines_nil C').
  Qed.

  Lemma renamed s : unmentioned c1 s -> unmentioned c2 s ->
    to_style_str (Some c2) s = replace_str w1 w2 (to_style_str (Some c1) s).
  Proof.
    intros H1 H2. unfold to_style_str, write_sheet.
    assert (Fr : forall x, In x (map rbc_of_scope s) -> rbc_free x).
    { intros x I t It. apply in_map_iff in I as (y & <- & I).
      assert (In t (sheet_texts s)) by (apply in_flat_map; eauto). split; [now apply H1|now apply H2]. }
    assert (R0 : frel new_frame new_frame) by (split; [constructor|now split]).
    pose proof (rel_all _ (rel_rbcs _) Fr _ _ [] [] R0 (Forall2_nil _)) as (_ & _ & (t & [T _] & _ & E1 & E2)).
    destruct (write_all (write_rbc (Some c1)) _ new_frame []) as [[f1 ps1] v1],
      (write_all (write_rbc (Some c2)) _ new_frame []) as [[g1 qs1] v2]. cbn in E1, E2. subst v1 v2.
    symmetry. now apply replace_inst.
  Qed.
End Two.
