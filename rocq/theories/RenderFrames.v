(** * RenderFrames: a [@keyframes] rule is written once, with all of its frames. *)

From Coq Require Import String Ascii List NArith Bool Arith Lia.
From Verif Require Import Str StrFacts Ast Render SpecRender RenderFacts RenderRead SpecAnimation.
Import ListNotations.
Local Open Scope list_scope.

Definition any (p : list str) : Prop := True.
Lemma any_prefix (a b : list str) : any (a ++ b) -> any a.
Proof. easy. Qed.

Section Frames.
Variable P : str -> Prop.
Variable D : str -> str -> Prop.

(** A context with exactly the conditions [base] is open, and all contexts inside of it have
    more of them. *)
Fixpoint holds (base : list str) (ps : chain) : Prop :=
  match ps with
  | [] => False
  | f :: ps' => (f_open f = true /\ conditions f = base)
                \/ (prefix base (conditions f) /\ holds base ps')
  end.

(** Blocks are opened inside of [base] only. *)
Definition longer (base : list str) (i : item) : Prop :=
  match i with IOpen p => exists c t, p = base ++ c :: t | IDecl _ _ _ => True end.

Lemma prefix_trans {A} (a b c : list A) : prefix a b -> prefix b c -> prefix a c.
Proof. intros [x ->] [y ->]. exists (x ++ y). now rewrite app_assoc. Qed.

Lemma holds_parent base ps : holds base ps -> prefix base (parent_conditions ps).
Proof.
  induction ps as [|f ps IH]; intros H; [easy|]. destruct (f_open f) eqn:E.
  - rewrite parent_conditions_open by easy. destruct H as [[_ <-]|[H _]]; auto using prefix_refl.
  - rewrite parent_conditions_closed by easy. destruct H as [[H _]|[_ H]]; [congruence|auto].
Qed.

Lemma holds_close base self ps : prefix base (conditions self) -> holds base ps ->
  holds base (fst (close_until_common_parent self ps)).
Proof.
  intros Hp. induction ps as [|m ps IH]; intros H; [easy|]. cbn [close_until_common_parent].
  destruct (f_open m) eqn:E.
  - destruct (differ_conditions self (m :: ps)) eqn:Ed; [exact H|].
    destruct H as [[_ H]|[H1 H2]].
    + exfalso. unfold differ_conditions, common_count in Ed. rewrite parent_conditions_open in Ed by easy.
      rewrite H, count_equal_prefix in Ed by easy. now rewrite skipn_all in Ed.
    + unfold finish. specialize (IH H2). destruct (close_until_common_parent self ps) as [ps' w].
      cbn [fst holds] in *. right. auto.
  - destruct H as [[H _]|[H1 H2]]; [congruence|]. specialize (IH H2).
    destruct (close_until_common_parent self ps) as [ps' w]. cbn [fst holds] in *. auto.
Qed.

Lemma longer_opens base st conds : prefix base st -> Forall (longer base) (opens st conds).
Proof.
  revert st; induction conds as [|c conds IH]; intros st H; cbn [opens]; constructor.
  - destruct H as [t ->]. cbn. destruct t as [|x t].
    + exists c, []. now rewrite app_nil_r.
    + exists x, (t ++ [c]). now rewrite <- app_assoc.
  - apply IH. destruct H as [t ->]. rewrite <- app_assoc. apply prefix_app.
Qed.

Lemma start_frames base self ps :
  chain_ok (self :: ps) -> Forall P (conditions self) -> holds base (self :: ps) -> prefix base (conditions self) ->
  let '(self', ps', w) := start self ps in
  chain_ok (self' :: ps') /\ same (self :: ps) (self' :: ps') /\ f_open self' = true /\ holds base (self' :: ps')
  /\ exists items, emits P D any (parent_conditions (self :: ps)) w (conditions self) items
                   /\ decls items = [] /\ Forall (longer base) items.
Proof.
  intros H HP Hh Hb. unfold start. destruct (f_open self) eqn:E.
  - split; [split; [intros _; now apply H | apply H]|]. split; [easy|]. split; [easy|].
    split; [destruct Hh as [[_ Hh]|Hh]; [left|right]; auto|].
    exists []. split; [|easy]. rewrite parent_conditions_open by easy. apply emits_nil.
  - destruct H as [_ H]. assert (C := close_until_spec P D any self ps H).
    assert (K : holds base ps) by (destruct Hh as [[Hh _]|[_ Hh]]; [congruence|auto]).
    pose proof (holds_close base self ps Hb K) as K'.
    destruct (close_until_common_parent self ps) as [ps' w1]. cbn [fst] in K'.
    destruct C as (C1 & C2 & C3 & C4).
    split; [split; [easy|exact C1]|].
    split; [unfold same in *; cbn; now rewrite C2|]. split; [easy|]. split; [right; auto|].
    destruct C3 as [t Ht].
    exists (opens (parent_conditions ps') t). split; [|split; [apply decls_opens|]].
    + rewrite parent_conditions_closed by easy.
      eapply emits_app'; [exact C4| |reflexivity].
      unfold unique_conditions, common_count. rewrite Ht.
      rewrite count_equal_prefix by apply prefix_app. rewrite skipn_prefix.
      rewrite Ht in HP. apply Forall_app in HP as [_ HP].
      pose proof (emits_open P D any any_prefix (parent_conditions ps') [] t HP I) as O. rewrite !app_nil_r in O. exact O.
    + apply longer_opens. now apply holds_parent.
Qed.

Definition writes_in (class : option str) (c : rbc) : Prop :=
  forall base self ps, chain_ok (self :: ps) -> Forall P (conditions self) ->
  pieces_ok P D class (f_sel self) c -> holds base (self :: ps) -> prefix base (f_rules self) ->
  let '(self', ps', w) := write_rbc class c self ps in
  chain_ok (self' :: ps') /\ same (self :: ps) (self' :: ps') /\ holds base (self' :: ps')
  /\ exists items, emits P D any (parent_conditions (self :: ps)) w (parent_conditions (self' :: ps')) items
                   /\ decls items = decls_of class (f_rules self) (f_sel self) c
                   /\ Forall (longer base) items.

Lemma write_all_frames class cs base self ps :
  Forall (writes_in class) cs ->
  chain_ok (self :: ps) -> Forall P (conditions self) ->
  Forall (pieces_ok P D class (f_sel self)) cs -> holds base (self :: ps) -> prefix base (f_rules self) ->
  let '(self', ps', w) := write_all (write_rbc class) cs self ps in
  chain_ok (self' :: ps') /\ same (self :: ps) (self' :: ps') /\ holds base (self' :: ps')
  /\ exists items, emits P D any (parent_conditions (self :: ps)) w (parent_conditions (self' :: ps')) items
                   /\ decls items = flat_map (decls_of class (f_rules self) (f_sel self)) cs
                   /\ Forall (longer base) items.
Proof.
  revert self ps; induction cs as [|c cs IH]; intros self ps Hc H HP HO Hh Hb; cbn [write_all].
  - split; [easy|]. split; [easy|]. split; [easy|]. exists []. split; [apply emits_nil|now repeat split].
  - inversion_clear Hc as [|? ? Hc1 Hc2]. inversion_clear HO as [|? ? HO1 HO2].
    assert (H1 := Hc1 base self ps H HP HO1 Hh Hb).
    destruct (write_rbc class c self ps) as [[self1 ps1] w1].
    destruct H1 as (A1 & A2 & A3 & i1 & A4 & A5 & A6).
    assert (S : shape self = shape self1) by now apply same_tail in A2.
    assert (S' := S). unfold shape in S'. injection S' as E1 E2.
    rewrite (same_conditions _ _ S) in HP. rewrite E2 in HO2. rewrite E1 in Hb.
    specialize (IH self1 ps1 Hc2 A1 HP HO2 A3 Hb).
    destruct (write_all (write_rbc class) cs self1 ps1) as [[self2 ps2] w2].
    destruct IH as (B1 & B2 & B3 & i2 & B4 & B5 & B6).
    split; [easy|]. split; [unfold same in *; congruence|]. split; [easy|].
    exists (i1 ++ i2). split; [eapply emits_app; eauto|]. split.
    + unfold decls in *. rewrite filter_app, A5, B5. cbn [flat_map]. now rewrite E1, E2.
    + apply Forall_app. auto.
Qed.

(** A context that has more conditions than [base] is inside of it. *)
Lemma holds_pop base r r1 ps1 : shape r = shape r1 -> List.length base < List.length (conditions r) ->
  holds base (r1 :: ps1) -> holds base ps1.
Proof.
  intros S L [[_ H]|[_ H]]; [|exact H]. rewrite (same_conditions _ _ S), H in L. lia.
Qed.

Lemma prefix_length {A} (a b : list A) : prefix a b -> List.length a <= List.length b.
Proof. intros [t ->]. rewrite app_length. lia. Qed.

Lemma writes_in_rbc class c : writes_in class c.
Proof.
  induction c as [a|cond content IH|cond content IH| |c l IHc IHl] using rbc_ind2 with
    (Q := fun l => Forall (writes_in class) l).
  - (* attribute *)
    intros base self ps H HP HO Hh Hb. cbn [write_rbc]. unfold write_attr.
    assert (Hb' : prefix base (conditions self)) by (eapply prefix_trans; [exact Hb|apply prefix_app]).
    assert (S := start_frames base self ps H HP Hh Hb'). destruct (start self ps) as [[self' ps'] w].
    destruct S as (S1 & S2 & S3 & S4 & items & S5 & S6 & S7).
    split; [easy|]. split; [easy|]. split; [easy|].
    assert (E : conditions self' = conditions self).
    { apply same_tail in S2 as [S2 _]. symmetry. now apply same_conditions. }
    exists (items ++ [IDecl (conditions self) (a_key a) (List.concat (a_value a))]). split; [|split].
    + eapply emits_app; [exact S5|]. rewrite parent_conditions_open by easy. rewrite E.
      exists [LDecl (a_key a) (List.concat (a_value a))]. split; [|split; [reflexivity|split]].
      * cbn [layout]. unfold write_padding. rewrite E, padding_spaces. now rewrite app_nil_r.
      * constructor; [exact HO|constructor].
      * constructor; [exact I|constructor].
    + unfold decls in *. rewrite filter_app, S6. cbn. unfold conditions, opt_list. easy.
    + apply Forall_app. split; [exact S7|]. constructor; [exact I|constructor].
  - (* rule *)
    intros base self ps H HP HO Hh Hb. cbn [write_rbc].
    destruct HO as [HO1 HO2]. apply all_Forall in HO2.
    set (r := with_rule_condition self (List.concat cond)).
    set (st := if starts_with _ _ then _ else _).
    assert (Hr : chain_ok (r :: self :: ps)) by now split.
    assert (HPr : Forall P (conditions r)).
    { unfold conditions, r in *. cbn. apply Forall_app in HP as [HP1 HP2].
      apply Forall_app. split; [|exact HP2]. apply Forall_app. split; [exact HP1|].
      constructor; [exact HO1|constructor]. }
    assert (Hbr : prefix base (f_rules r)) by (eapply prefix_trans; [exact Hb|apply prefix_app]).
    assert (Hbc : prefix base (conditions r)) by (eapply prefix_trans; [exact Hbr|apply prefix_app]).
    assert (Hhr : holds base (r :: self :: ps)) by (right; auto).
    assert (Lr : List.length base < List.length (conditions r)).
    { apply prefix_length in Hb. unfold conditions, r. cbn [with_rule_condition f_rules f_sel]. rewrite !app_length. cbn [List.length]. lia. }
    assert (S : let '(r0, ps0, w0) := st in
                chain_ok (r0 :: ps0) /\ same (r :: self :: ps) (r0 :: ps0) /\ holds base (r0 :: ps0)
                /\ exists items, emits P D any (parent_conditions (self :: ps)) w0 (parent_conditions (r0 :: ps0)) items
                                 /\ decls items = [] /\ Forall (longer base) items).
    { subst st. destruct (starts_with _ _) eqn:Ek.
      - assert (S := start_frames base r (self :: ps) Hr HPr Hhr Hbc). destruct (start r (self :: ps)) as [[r0 ps0] w0].
        destruct S as (S1 & S2 & S3 & S4 & items & S5 & S6 & S7).
        split; [easy|]. split; [easy|]. split; [easy|]. exists items. split; [|easy].
        rewrite (parent_conditions_open r0) by easy.
        replace (conditions r0) with (conditions r); [exact S5|].
        apply same_tail in S2 as [S2 _]. now apply same_conditions.
      - split; [easy|]. split; [easy|]. split; [easy|]. exists []. split; [|now repeat split].
        rewrite (parent_conditions_closed r) by easy. apply emits_nil. }
    clearbody st. destruct st as [[r0 ps0] w0]. destruct S as (S1 & S2 & S3 & i0 & S4 & S5 & S6).
    assert (Sr : shape r = shape r0) by now apply same_tail in S2.
    rewrite (same_conditions _ _ Sr) in HPr.
    assert (Sr' := Sr). unfold shape in Sr'. injection Sr' as E1 E2.
    assert (Hb0 : prefix base (f_rules r0)) by (rewrite <- E1; exact Hbr).
    rewrite E2 in HO2.
    assert (W := write_all_frames class content base r0 ps0 IH S1 HPr HO2 S3 Hb0).
    destruct (write_all (write_rbc class) content r0 ps0) as [[r1 ps1] w1].
    destruct W as (W1 & W2 & W3 & i1 & W4 & W5 & W6).
    assert (F := finish_spec P D any r1 ps1 W1). destruct (finish r1 ps1) as [r2 w2]. cbn [snd] in F.
    assert (T : same (self :: ps) ps1).
    { apply same_tail in S2 as [_ S2]. apply same_tail in W2 as [_ W2]. unfold same in *. congruence. }
    assert (Hp : holds base ps1).
    { apply (holds_pop base r r1 ps1); auto. apply same_tail in W2 as [W2 _]. congruence. }
    destruct (pop_spec _ _ _ _ W1 T) as (self' & ps' & -> & P1 & P2).
    split; [easy|]. split; [easy|]. split; [easy|].
    exists (i0 ++ i1 ++ []). split; [|split].
    + eapply emits_app; [exact S4|]. eapply emits_app; [exact W4|exact F].
    + rewrite app_nil_r. unfold decls in *. rewrite filter_app, S5, W5. cbn [app decls_of].
      now rewrite <- E1, <- E2.
    + rewrite app_nil_r. apply Forall_app. auto.
  - (* block *)
    intros base self ps H HP HO Hh Hb. cbn [write_rbc].
    destruct HO as [HO1 HO2]. apply all_Forall in HO2.
    set (b := with_block_condition class self (cond_str class cond)).
    assert (Hbk : chain_ok (b :: self :: ps)) by now split.
    assert (Eb : f_sel b = Some (block_sel class (f_sel self) cond)).
    { unfold b. cbn. now rewrite block_selector_spec. }
    rewrite <- Eb in HO2.
    assert (HPb : Forall P (conditions b)).
    { unfold conditions. rewrite Eb. apply Forall_app in HP as [HP1 _].
      apply Forall_app. split; [exact HP1|]. constructor; [exact HO1|constructor]. }
    assert (Hbb : prefix base (f_rules b)) by exact Hb.
    assert (Hhb : holds base (b :: self :: ps)).
    { right. split; [|exact Hh]. eapply prefix_trans; [exact Hbb|apply prefix_app]. }
    assert (Lb : List.length base < List.length (conditions b)).
    { apply prefix_length in Hbb. unfold conditions. rewrite Eb, app_length. cbn [List.length]. lia. }
    assert (W := write_all_frames class content base b (self :: ps) IH Hbk HPb HO2 Hhb Hbb).
    destruct (write_all (write_rbc class) content b (self :: ps)) as [[r1 ps1] w1].
    destruct W as (W1 & W2 & W3 & i1 & W4 & W5 & W6).
    assert (F := finish_spec P D any r1 ps1 W1). destruct (finish r1 ps1) as [r2 w2]. cbn [snd] in F.
    assert (T : same (self :: ps) ps1) by now apply same_tail in W2 as [_ W2].
    assert (Hp : holds base ps1).
    { apply (holds_pop base b r1 ps1); auto. now apply same_tail in W2 as [W2 _]. }
    destruct (pop_spec _ _ _ _ W1 T) as (self' & ps' & -> & P1 & P2).
    split; [easy|]. split; [easy|]. split; [easy|].
    exists (i1 ++ []). split; [|split].
    + rewrite (parent_conditions_closed b) in W4 by easy. eapply emits_app; [exact W4|exact F].
    + rewrite app_nil_r, W5. rewrite Eb. easy.
    + now rewrite app_nil_r.
  - constructor.
  - now constructor.
Qed.

(** A [@keyframes] rule outside of everything: it is opened once, and all of its frames are in it. *)
Lemma writes_keyframes class cond content self :
  shape self = ([], None) -> starts_with (lit "@keyframes") (List.concat cond) = true ->
  pieces_ok P D class None (CRule cond content) ->
  let '(self', ps', w) := write_rbc class (CRule cond content) self [] in
  shape self' = ([], None) /\ ps' = []
  /\ exists items, emits P D any [] w [] (IOpen [List.concat cond] :: items)
                   /\ decls items = flat_map (decls_of class [List.concat cond] None) content
                   /\ Forall (longer [List.concat cond]) items.
Proof.
  intros Sh Hk HO. assert (Sh' := Sh). unfold shape in Sh'. injection Sh' as R0 S0.
  cbn [write_rbc]. rewrite Hk. destruct HO as [HO1 HO2]. apply all_Forall in HO2.
  set (k := List.concat cond) in *.
  assert (C0 : conditions self = []) by (unfold conditions; now rewrite R0, S0).
  set (r := with_rule_condition self k).
  assert (Cr : conditions r = [k]) by (unfold conditions, r; cbn; now rewrite R0, S0).
  assert (P0 : parent_conditions [self] = []).
  { unfold parent_conditions, open_parent. destruct (f_open self); auto. }
  assert (St : start r [self] = (set_open true r, [self], open_lines 0 0 [k])).
  { unfold start. cbn [f_open r with_rule_condition]. cbn [close_until_common_parent].
    assert (Df : differ_conditions r [self] = []) by (unfold differ_conditions; rewrite P0; now destruct (common_count r [self])).
    assert (Uc : unique_conditions r [self] = [k] /\ common_count r [self] = 0).
    { unfold unique_conditions, common_count. rewrite P0, Cr. auto. }
    destruct (f_open self); rewrite ?Df; destruct Uc as [-> ->]; reflexivity. }
  rewrite St.
  assert (Ok : chain_ok [set_open true r; self]).
  { split; [intros _; rewrite P0; apply prefix_nil|]. split; [|exact I]. intros _. apply prefix_nil. }
  assert (Cs : conditions (set_open true r) = [k]) by exact Cr.
  assert (Hh : holds [k] [set_open true r; self]) by (left; auto).
  assert (HP : Forall P (conditions (set_open true r))) by (rewrite Cs; constructor; auto).
  assert (Hb : prefix [k] (f_rules (set_open true r))).
  { cbn. rewrite R0. apply prefix_refl. }
  assert (Fs : f_sel (set_open true r) = None) by exact S0. rewrite <- Fs in HO2.
  assert (Fw : Forall (writes_in class) content) by (apply Forall_forall; intros; apply writes_in_rbc).
  assert (W := write_all_frames class content [k] _ _ Fw Ok HP HO2 Hh Hb).
  destruct (write_all (write_rbc class) content (set_open true r) [self]) as [[r1 ps1] w1].
  destruct W as (W1 & W2 & W3 & i1 & W4 & W5 & W6).
  assert (F := finish_spec P D any r1 ps1 W1). destruct (finish r1 ps1) as [r2 w2]. cbn [snd] in F.
  assert (T : same [self] ps1) by now apply same_tail in W2 as [_ W2].
  destruct (pop_spec _ _ _ _ W1 T) as (self' & ps' & -> & P1 & P2).
  apply same_tail in P2 as [P2 P3]. destruct ps' as [|]; [|easy].
  split; [congruence|]. split; [easy|].
  assert (P0' : parent_conditions [self'] = []).
  { unfold parent_conditions, open_parent. destruct (f_open self'); auto. now rewrite <- (same_conditions _ _ P2). }
  exists i1. split; [|split].
  - change (IOpen [k] :: i1) with ([IOpen [k]] ++ i1).
    rewrite P0' in F. rewrite parent_conditions_open, Cs in W4 by easy.
    eapply emits_app.
    + pose proof (emits_open P D any any_prefix [] [] [k]) as O. cbn in O. apply O; [constructor; auto|exact I].
    + rewrite <- (app_nil_r i1). eapply emits_app; eauto.
  - rewrite W5, Fs. unfold r. cbn [set_open f_rules with_rule_condition]. now rewrite R0.
  - exact W6.
Qed.

End Frames.

(** ** Everything else *)

(** The first condition of a path is not [@keyframes]. *)
Definition other_head (p : list str) : Prop :=
  match p with [] => True | r :: _ => starts_with (lit "@keyframes") (trim r) = false end.
Lemma other_head_prefix a b : other_head (a ++ b) -> other_head a.
Proof. now destruct a. Qed.

Lemma paths_in_rule class k c : starts_with (lit "@keyframes") (trim k) = false ->
  forall rules sel, paths_ok other_head class (k :: rules) sel c.
Proof.
  intros H. induction c as [a|cond content IH|cond content IH| |c l IHc IHl] using rbc_ind2 with
    (Q := fun l => forall rules sel, Forall (paths_ok other_head class (k :: rules) sel) l); intros rules sel.
  - exact I.
  - split; [exact H|]. apply all_Forall. apply (IH (rules ++ [List.concat cond]) sel).
  - split; [exact H|]. apply all_Forall. apply IH.
  - constructor.
  - constructor; auto.
Qed.

Lemma plain_start_other s : plain_start s -> starts_with (lit "@keyframes") (trim s) = false.
Proof.
  destruct s as [|c s]; [easy|]. intros [H1 H2]. unfold trim. cbn [trim_start]. rewrite H2.
  destruct (trim_end_split (c :: s)) as (w & E & Hw). destruct (trim_end (c :: s)) as [|d t]; [reflexivity|].
  cbn [List.app] in E. injection E as <- E. cbn -[char_eqb]. destruct (char_eqb _ c) eqn:Ec; [|reflexivity].
  apply char_eqb_eq in Ec. subst. now elim H1.
Qed.

Lemma replace_char_start c r s : plain_start r -> plain_start s -> plain_start (replace_char c r s).
Proof.
  destruct s as [|d s]; [easy|]. intros Hr Hs. unfold replace_char. cbn [flat_map]. destruct (char_eqb d c); [|exact Hs].
  destruct r; [easy|exact Hr].
Qed.
Lemma replace_str_start p r s : plain_start r -> plain_start s -> plain_start (replace_str p r s).
Proof.
  destruct s as [|d s]; [easy|]. intros Hr Hs. unfold replace_str. cbn [replace_aux]. destruct (starts_with p (d :: s)); [|exact Hs].
  destruct r; [easy|exact Hr].
Qed.
Lemma dot_start c : plain_start (lit "." ++ c).
Proof. split; [discriminate|reflexivity]. Qed.
Lemma root_start c : plain_start (lit ":root" ++ c).
Proof. split; [discriminate|reflexivity]. Qed.
Lemma scoped_start class s : plain_start s -> plain_start (scoped class s).
Proof.
  intros H. unfold scoped. destruct class as [c|].
  - destruct (_ || _); [apply replace_str_start, replace_char_start; auto using dot_start|]. destruct (starts_with _ _); apply dot_start.
  - apply replace_char_start; auto. apply (root_start []).
Qed.
Lemma join_start sep s l : plain_start s -> plain_start (join sep (s :: l)).
Proof. destruct l; [auto|]. cbn [join]. destruct s; [easy|auto]. Qed.

Lemma block_sel_start class sel cond :
  Forall plain_start (opt_list sel) -> Forall (fun s => plain_start (List.concat s)) cond -> plain_start (block_sel class sel cond).
Proof.
  intros Hs Hc. unfold block_sel. destruct cond as [|s cond].
  - destruct sel as [s|]; [now inversion_clear Hs|]. destruct class; [apply dot_start|apply (root_start [])].
  - inversion_clear Hc. cbn [map]. apply join_start. now apply scoped_start.
Qed.

Lemma paths_in_block class c : forall sel, Forall plain_start (opt_list sel) -> no_keyframes c -> paths_ok other_head class [] sel c.
Proof.
  induction c as [a|cond content IH|cond content IH| |c l IHc IHl] using rbc_ind2 with
    (Q := fun l => forall sel, Forall plain_start (opt_list sel) -> Forall no_keyframes l -> Forall (paths_ok other_head class [] sel) l);
    intros sel Hs H.
  - exact I.
  - destruct H as [H1 H2]. split; [exact H1|]. apply all_Forall. apply Forall_forall. intros c _. now apply paths_in_rule.
  - destruct H as [H1 H2]. apply all_Forall in H2.
    assert (B : plain_start (block_sel class sel cond)) by now apply block_sel_start.
    split; [now apply plain_start_other|]. apply all_Forall. apply IH; auto. constructor; [exact B|constructor].
  - constructor.
  - inversion_clear H. constructor; auto.
Qed.

(** ** What the reader makes of it *)

Lemma frames_after_app n a : forall found b, frames_after n found (a ++ b) = frames_after n (frames_after n found a) b.
Proof. induction a as [|i a IH]; intros found b; [reflexivity|]. cbn [List.app frames_after]. apply IH. Qed.

Lemma frames_other n l : forall found, Forall (item_ok other_head) l -> frames_after n found (map trim_item l) = found.
Proof.
  induction l as [|i l IH]; intros found H; [reflexivity|]. inversion_clear H as [|? ? H1 H2]. cbn [map frames_after].
  destruct i as [[|r p]|[|r p] k v]; cbn [trim_item map item_ok other_head] in *; auto.
  - destruct p as [|q p]; cbn [map]; auto. unfold names_keyframes. now rewrite H1; cbn [andb]; auto.
  - unfold names_keyframes. rewrite H1. cbn [andb]. auto.
Qed.

Definition head_is (k : str) (i : item) : Prop :=
  match i with IOpen _ => True | IDecl p _ _ => exists t, p = k :: t end.
Lemma frames_in n k l : forall found, Forall (longer [k]) l -> Forall (head_is k) l ->
  frames_after n found (map trim_item l)
  = if names_keyframes n (trim k) then option_map (fun f => f ++ map trim_item (decls l)) found else found.
Proof.
  induction l as [|i l IH]; intros found H1 H2; cbn [map frames_after].
  - destruct (names_keyframes _ _); [|easy]. destruct found; [|easy]. cbn. now rewrite app_nil_r.
  - inversion_clear H1 as [|? ? A1 A2]. inversion_clear H2 as [|? ? B1 B2].
    destruct i as [p|p key v].
    + destruct A1 as (c & t & ->). cbn [trim_item map List.app decls filter is_decl]. now apply IH.
    + destruct B1 as (t & ->). cbn [trim_item map decls filter is_decl]. rewrite IH by auto.
      destruct (names_keyframes _ _); [|easy]. destruct found; [|easy]. cbn [option_map]. f_equal. now rewrite <- app_assoc.
Qed.

Lemma decls_head_is class k c : forall rules sel, Forall (head_is k) (decls_of class (k :: rules) sel c).
Proof.
  induction c as [a|cond content IH|cond content IH| |c l IHc IHl] using rbc_ind2 with
    (Q := fun l => forall rules sel, Forall (head_is k) (flat_map (decls_of class (k :: rules) sel) l)); intros rules sel; cbn [decls_of].
  - constructor; [|constructor]. cbn. eauto.
  - apply (IH (rules ++ [List.concat cond]) sel).
  - apply IH.
  - constructor.
  - cbn [flat_map]. apply Forall_app. auto.
Qed.
Lemma heads_decls k l : Forall (head_is k) (decls l) -> Forall (head_is k) l.
Proof.
  induction l as [|i l IH]; intros H; [constructor|]. destruct i; cbn [decls filter is_decl] in H.
  - constructor; [exact I|auto].
  - inversion_clear H. constructor; auto.
Qed.

Lemma emits_any P D Q st w st' items : emits P D Q st w st' items -> emits P D any st w st' items.
Proof. intros (ls & H1 & H2 & H3 & H4). exists ls. repeat split; auto. apply Forall_forall. intros [p|p k v] _; exact I. Qed.

Lemma root_closed f : shape f = ([], None) -> conditions f = [] /\ parent_conditions [f] = [].
Proof.
  intros S. unfold shape in S. injection S as R0 S0.
  assert (C : conditions f = []) by (unfold conditions; now rewrite R0, S0).
  split; auto. unfold parent_conditions, open_parent. now destruct (f_open f).
Qed.

(** The frames that a reader finds in rendered CSS are those of the sheet. *)
Lemma write_sheet_frames P D class : forall s self,
  shape self = ([], None) -> sheet_pieces_ok P D class s -> keyframes_outside s ->
  let '(self', ps', w) := write_sheet class s self [] in
  shape self' = ([], None) /\ ps' = []
  /\ exists items, emits P D any [] w [] items
       /\ decls items = sheet_decls class s
       /\ forall n found, frames_after n found (map trim_item items) = sheet_frames_after class n found s.
Proof.
  induction s as [|c s IH]; intros self Sh HO HK.
  - cbn. split; [easy|]. split; [easy|]. exists []. split; [apply emits_nil|easy].
  - inversion_clear HO as [|? ? HO1 HO2]. inversion_clear HK as [|? ? HK1 HK2].
    unfold write_sheet in *. cbn [map write_all].
    assert (S0 := Sh). unfold shape in S0. injection S0 as R0 S0.
    destruct (root_closed _ Sh) as [C0 P0].
    assert (H : let '(self1, ps1, w1) := write_rbc class (rbc_of_scope c) self [] in
                shape self1 = ([], None) /\ ps1 = []
                /\ exists items, emits P D any [] w1 [] items
                     /\ decls items = decls_of class [] None (rbc_of_scope c)
                     /\ forall n found, frames_after n found (map trim_item items) = sheet_frames_after class n found [c]).
    { assert (Other : paths_ok other_head class [] None (rbc_of_scope c) ->
                      (forall n found, sheet_frames_after class n found [c] = found) ->
                let '(self1, ps1, w1) := write_rbc class (rbc_of_scope c) self [] in
                shape self1 = ([], None) /\ ps1 = []
                /\ exists items, emits P D any [] w1 [] items
                     /\ decls items = decls_of class [] None (rbc_of_scope c)
                     /\ forall n found, frames_after n found (map trim_item items) = sheet_frames_after class n found [c]).
      { intros Po Fr.
        assert (W := writes_rbc P D other_head other_head_prefix class (rbc_of_scope c) self []).
        rewrite R0, S0, C0, P0 in W.
        destruct (write_rbc class (rbc_of_scope c) self []) as [[self1 ps1] w1].
        destruct W as (W1 & W2 & items & W3 & W4 & _); auto.
        { split; [intros _; apply prefix_nil|exact I]. }
        { exact I. }
        apply same_tail in W2 as [W2 W5]. destruct ps1; [|easy]. rewrite Sh in W2. symmetry in W2.
        destruct (root_closed _ W2) as [_ P1]. rewrite P1 in W3.
        split; [easy|]. split; [easy|]. exists items. split; [eapply emits_any; eauto|]. split; [easy|].
        intros n found. rewrite Fr. apply frames_other. destruct W3 as (ls & _ & _ & _ & X). exact X. }
      destruct c as [sels content|cond content]; cbn [rbc_of_scope] in *.
      - apply Other; [|easy]. apply paths_in_block; [constructor|exact HK1].
      - destruct (starts_with (lit "@keyframes") (List.concat cond)) eqn:Ek.
        + clear Other. assert (W := writes_keyframes P D class cond content self Sh Ek HO1).
          destruct (write_rbc class (CRule cond content) self []) as [[self1 ps1] w1].
          destruct W as (W1 & W2 & items & W3 & W4 & W5). split; [easy|]. split; [easy|].
          eexists. split; [exact W3|]. split; [cbn [decls filter is_decl decls_of] in *; exact W4|].
          intros n found. cbn [map frames_after trim_item sheet_frames_after].
          assert (Hd : Forall (head_is (List.concat cond)) items).
          { apply heads_decls. rewrite W4.
            clear. induction content as [|x l IHl]; cbn [flat_map]; [constructor|]. apply Forall_app. split; [apply decls_head_is|exact IHl]. }
          rewrite (frames_in n (List.concat cond)) by auto. destruct (names_keyframes n (trim (List.concat cond))); [|easy].
          cbn [option_map List.app]. now rewrite W4.
        + apply Other.
          * split; [exact HK1|]. apply all_Forall. apply Forall_forall. intros x _. now apply paths_in_rule.
          * intros n found. cbn [sheet_frames_after]. unfold names_keyframes. now rewrite HK1. }
    destruct (write_rbc class (rbc_of_scope c) self []) as [[self1 ps1] w1].
    destruct H as (A1 & -> & i1 & A3 & A4 & A5).
    specialize (IH self1 A1 HO2 HK2).
    destruct (write_all (write_rbc class) (map rbc_of_scope s) self1 []) as [[self2 ps2] w2].
    destruct IH as (B1 & B2 & i2 & B3 & B4 & B5).
    split; [easy|]. split; [easy|]. exists (i1 ++ i2). split; [eapply emits_app; eauto|]. split.
    + unfold decls, sheet_decls in *. rewrite filter_app, A4, B4. reflexivity.
    + intros n found. rewrite map_app, frames_after_app, A5, B5. cbn [sheet_frames_after]. now destruct c.
Qed.

Lemma read_frames class s :
  boring_class class -> closed_sheet s -> keyframes_outside s ->
  exists items, read_css (to_style_str class s) = Some items
                /\ decls items = map trim_item (sheet_decls class s)
                /\ forall n, frames n items = sheet_frames class n s.
Proof.
  intros Hb Hc Hk. pose proof (write_sheet_frames _ _ class s new_frame eq_refl (closed_sheet_pieces class s Hb Hc) Hk) as W.
  unfold to_style_str. destruct (write_sheet class s new_frame []) as [[f ps] w].
  destruct W as (_ & _ & items & (ls & -> & H2 & H3 & _) & H4 & H5).
  exists (map trim_item items). split; [|split].
  - unfold read_css. now apply (read_layout ls _ [] []).
  - now rewrite decls_trim, H4.
  - intros n. apply H5.
Qed.
