(** * InlineSafe: input without braces inside of parentheses and brackets. *)

From Coq Require Import String Ascii List NArith Bool Arith Lia.
From Verif Require Import Str StrFacts Ast Tok Output SpecOutput Inline SpecInline InlineFacts InlineParse InlineOutput.
Import ListNotations.
Local Open Scope list_scope.

Local Hint Resolve minus_no_quote dollar_no_quote colon_no_quote semi_no_quote at_no_quote : core.

Lemma bf_group_inv : forall d g r, brace_free (RGroup d g :: r) -> d <> Brace /\ brace_free g /\ brace_free r.
Proof. intros d g r H. inversion H; subst; auto. elim (H2 d g eq_refl). Qed.
Lemma bf_expr_inv : forall j g r, brace_free (RPunct (ch "$") j :: RGroup Brace g :: r) -> brace_free r.
Proof. intros j g r H. inversion H; subst; auto. now apply bf_group_inv in H3. Qed.
Lemma bf_part_inv : forall t p r, is_part t p -> brace_free (t :: r) -> brace_free r.
Proof. intros t p r Hp H. inversion H; subst; auto; inversion Hp. Qed.
Lemma bf_lit_inv : forall t r, brace_free (RLit t :: r) -> brace_free r.
Proof. intros t r H. inversion H; auto. Qed.
Lemma bf_punct_inv : forall c j r, (c = ch "$" -> forall g r', r <> RGroup Brace g :: r') ->
  brace_free (RPunct c j :: r) -> brace_free r.
Proof. intros c j r Hd H. inversion H; subst; auto. now elim (Hd eq_refl g l). Qed.
Lemma bf_run : forall p l ps r, run p l ps r -> brace_free l -> brace_free r.
Proof. intros p l ps r H. induction H as [|p t q l ps r Ht _ _ IH]; auto. intros F. eapply IH, bf_part_inv; eauto. Qed.
Lemma bf_ident : forall l i r, reads_ident l i r -> brace_free l -> brace_free r.
Proof. intros l i r H F. destruct H as [t p l ps r Ht R]. eapply bf_run, bf_part_inv; eauto. Qed.

Lemma bo_group_inv : forall d g r, braces_outside (RGroup d g :: r) ->
  (if match d with Brace => true | _ => false end then braces_outside g else brace_free g) /\ braces_outside r.
Proof.
  intros d g r H. inversion H; subst; auto.
  - split; auto. destruct d; auto. congruence.
  - match goal with X : forall d0 g0, _ <> RGroup d0 g0 |- _ => elim (X d g eq_refl) end.
Qed.
Lemma bo_expr_inv : forall j g r, braces_outside (RPunct (ch "$") j :: RGroup Brace g :: r) -> braces_outside r.
Proof. intros j g r H. inversion H; subst; auto. now apply bo_group_inv in H3. Qed.
Lemma bo_part_inv : forall t p r, is_part t p -> braces_outside (t :: r) -> braces_outside r.
Proof. intros t p r Hp H. inversion H; subst; auto; inversion Hp. Qed.
Lemma bo_lit_inv : forall t r, braces_outside (RLit t :: r) -> braces_outside r.
Proof. intros t r H. inversion H; auto. Qed.
Lemma bo_punct_inv : forall c j r, (c = ch "$" -> forall g r', r <> RGroup Brace g :: r') ->
  braces_outside (RPunct c j :: r) -> braces_outside r.
Proof. intros c j r Hd H. inversion H; subst; auto. now elim (Hd eq_refl g l). Qed.
Lemma bo_run : forall p l ps r, run p l ps r -> braces_outside l -> braces_outside r.
Proof. intros p l ps r H. induction H as [|p t q l ps r Ht _ _ IH]; auto. intros F. eapply IH, bo_part_inv; eauto. Qed.
Lemma bo_ident : forall l i r, reads_ident l i r -> braces_outside l -> braces_outside r.
Proof. intros l i r H F. destruct H as [t p l ps r Ht R]. eapply bo_run, bo_part_inv; eauto. Qed.

Section Safe.
  Variable expr_of : code -> option expr.
  Notation reads := (reads expr_of).
  Notation reads_all := (reads_all expr_of).
  Notation reads_until := (reads_until expr_of).
  Notation next_component := (next_component expr_of).
  Notation scope_content_p := (scope_content_p expr_of).

  Lemma bf_reads :
    (forall l c r, reads l c r -> brace_free l -> no_braces c /\ brace_free r)
    /\ (forall l cs, reads_all l cs -> brace_free l -> Forall no_braces cs).
  Proof.
    apply reads_mutind.
    - intros d g cs r _ IH F. apply bf_group_inv in F. destruct F as (F1 & F2 & F3). split; auto. constructor; auto.
    - intros j g e r _ F. apply bf_expr_inv in F. split; auto. constructor.
    - intros l i g cs r _ Hi _ IH F. apply (bf_ident _ _ _ Hi), bf_group_inv in F. destruct F as (F1 & F2 & F3).
      split; auto. constructor; auto.
    - intros l i r _ Hi _ F. split; [constructor|]. eapply bf_ident; eauto.
    - intros c j r _ _ Hd F. split; [constructor|]. eapply bf_punct_inv; eauto.
    - intros t r F. split; [constructor|]. eapply bf_lit_inv; eauto.
    - intros _. constructor.
    - intros l c r cs _ IH _ IHs F. destruct (IH F). constructor; auto.
  Qed.
  Lemma bo_reads : forall l c r, reads l c r -> braces_outside l ->
    braces_outside r /\ (~ at_brace l -> no_braces c).
  Proof.
    intros l c r H F. destruct H as [d g cs r Hr|j g e r He|l i g cs r Hs Hi Hr|l i r Hs Hi Hn|c j r Hc Hs Hd|t r].
    - apply bo_group_inv in F. destruct F as [F1 F2]. split; auto. intros N. destruct d.
      + elim N. exists g, r. reflexivity.
      + constructor; [discriminate|]. eapply bf_reads; eauto.
      + constructor; [discriminate|]. eapply bf_reads; eauto.
    - split; [eapply bo_expr_inv; eauto|]. intros _. constructor.
    - apply (bo_ident _ _ _ Hi), bo_group_inv in F. destruct F as [F1 F2]. split; auto. intros _. constructor.
      eapply bf_reads; eauto.
    - split; [eapply bo_ident; eauto|]. intros _. constructor.
    - split; [eapply bo_punct_inv; eauto|]. intros _. constructor.
    - split; [eapply bo_lit_inv; eauto|]. intros _. constructor.
  Qed.
  Lemma bo_until : forall (stop : list rtok -> Prop) l cs r, reads_until stop l cs r -> braces_outside l ->
    braces_outside r /\ ((forall l, at_brace l -> stop l) -> Forall no_braces cs).
  Proof.
    intros stop l cs r H. induction H as [l Hs|l c r cs r' Hs Hc _ IH]; intros F; [auto|].
    destruct (bo_reads _ _ _ Hc F) as [F1 F2]. destruct (IH F1) as [F3 F4]. split; auto.
    intros Hb. constructor; auto.
  Qed.

  Lemma attribute_value_kept : forall k l ve r, attribute_value expr_of k l = POk ve r ->
    Forall value_ok (fst ve) /\ exists vs, reads_until at_semicolon l vs r.
  Proof.
    induction k as [|k IH]; intros l ve r H; cbn [attribute_value] in H.
    - destruct (peek_punct (ch ";") l) eqn:E; [|discriminate]. injection H as <- <-.
      apply peek_punct_iff in E; auto. split; [constructor|]. exists []. now constructor.
    - destruct (peek_punct (ch ";") l) eqn:E.
      + injection H as <- <-. apply peek_punct_iff in E; auto. split; [constructor|]. exists []. now constructor.
      + destruct (next_component l) as [c r1| |] eqn:Ec; try discriminate. cbn [pbind] in H.
        destruct (attribute_value expr_of k r1) as [ve' r2| |] eqn:Ev; try discriminate. cbn [pbind] in H.
        apply next_component_iff in Ec. apply peek_punct_false in E; auto.
        apply IH in Ev. destruct Ev as (V & vs & R). injection H as H <-. split.
        * rewrite <- H. cbn [fst]. destruct (validate_attribute c) eqn:Ea; auto. constructor; auto. now apply validate_attribute_iff.
        * exists (c :: vs). econstructor; eauto.
  Qed.
  Lemma qualifier_kept : forall k l qe r, qualifier expr_of k l = POk qe r ->
    exists vs, reads_until at_brace l vs r /\ incl (fst qe) vs.
  Proof.
    induction k as [|k IH]; intros l qe r H; cbn [qualifier] in H.
    - destruct (peek_group Brace l) eqn:E; [|discriminate]. injection H as <- <-.
      apply peek_group_iff in E. exists []. split; [now constructor|easy].
    - destruct (peek_group Brace l) eqn:E.
      + injection H as <- <-. apply peek_group_iff in E. exists []. split; [now constructor|easy].
      + destruct (next_component l) as [c r1| |] eqn:Ec; try discriminate. cbn [pbind] in H.
        destruct (validate_selector c) as [e|] eqn:Es; [|discriminate].
        destruct (qualifier expr_of k r1) as [qe' r2| |] eqn:Ev; try discriminate. cbn [pbind] in H.
        apply next_component_iff in Ec. apply peek_group_false in E.
        apply IH in Ev. destruct Ev as (vs & R & I). injection H as H <-. exists (c :: vs). split.
        * econstructor; eauto.
        * rewrite <- H. cbn [fst]. destruct e; [|now apply incl_tl]. intros x [<-|Hx]; [now left|right; auto].
  Qed.

  Lemma attribute_safe : forall l c r, attribute expr_of l = POk c r -> braces_outside l ->
    safe c /\ braces_outside r.
  Proof.
    intros l c r H F. unfold attribute in H.
    destruct (next_component l) as [cn r0| |] eqn:E0; try discriminate. cbn [pbind] in H.
    destruct (attribute_name cn) as [nm|] eqn:En; [|discriminate].
    destruct (expect (ch ":") r0) as [[] r1| |] eqn:E1; try discriminate. cbn [pbind] in H.
    destruct (attribute_value expr_of (S (List.length r1)) r1) as [ve r2| |] eqn:E2; try discriminate. cbn [pbind] in H.
    destruct (expect (ch ";") r2) as [[] r3| |] eqn:E3; try discriminate. cbn [pbind] in H.
    injection H as <- <-.
    apply next_component_iff in E0. apply expect_iff in E1; auto. destruct E1 as (j & ->).
    apply expect_iff in E3; auto. destruct E3 as (j' & ->).
    apply attribute_value_kept in E2. destruct E2 as (V & vs & R).
    apply (bo_reads _ _ _ E0) in F. destruct F as [F _]. apply bo_punct_inv in F; [|discriminate].
    apply (bo_until _ _ _ _ R) in F. destruct F as [F _]. apply bo_punct_inv in F; [|discriminate].
    split; auto. constructor. eapply Forall_impl; [apply value_no_braces|exact V].
  Qed.
  Lemma at_rule_safe : forall p l c r,
    (forall g b r', p g = POk b r' -> braces_outside g -> Forall safe b) ->
    at_rule_with expr_of p l = POk c r -> braces_outside l -> safe c /\ braces_outside r.
  Proof.
    intros p l c r Hp H F. unfold at_rule_with in H.
    destruct (expect (ch "@") l) as [[] r0| |] eqn:E0; try discriminate. cbn [pbind] in H.
    apply expect_iff in E0; auto. destruct E0 as (j & ->). apply bo_punct_inv in F; [|discriminate].
    destruct (parse_ident r0) as [[i r1]|] eqn:E1; [|discriminate]. apply parse_ident_iff in E1.
    apply (bo_ident _ _ _ E1) in F.
    destruct (prelude expr_of (S (List.length r1)) r1) as [cs r2| |] eqn:E2; try discriminate. cbn [pbind] in H.
    assert (R2 : reads_until at_end r1 cs r2) by (apply prelude_iff; eauto).
    apply (bo_until _ _ _ _ R2) in F. destruct F as [F N]. assert (N' : Forall no_braces cs) by (apply N; intros; now right).
    destruct (peek_punct (ch ";") r2) eqn:Es.
    - injection H as <- <-. split; auto. now constructor.
    - destruct (scope_with p r2) as [b r3| |] eqn:E3; try discriminate. cbn [pbind] in H. injection H as <- <-.
      apply scope_with_inv in E3. destruct E3 as (g & r' & -> & Eg). apply bo_group_inv in F. destruct F as [F1 F2].
      split; auto. constructor; eauto.
  Qed.
  Lemma qualified_rule_safe : forall p l c r,
    (forall g b r', p g = POk b r' -> braces_outside g -> Forall safe b) ->
    qualified_rule_with expr_of p l = POk c r -> braces_outside l -> safe c /\ braces_outside r.
  Proof.
    intros p l c r Hp H F. unfold qualified_rule_with in H.
    destruct (qualifier expr_of (S (List.length l)) l) as [qe r1| |] eqn:E1; try discriminate. cbn [pbind] in H.
    apply qualifier_kept in E1. destruct E1 as (vs & R & I).
    destruct (scope_with p r1) as [b r2| |] eqn:E3; try discriminate. cbn [pbind] in H. injection H as <- <-.
    apply scope_with_inv in E3. destruct E3 as (g & r' & -> & Eg).
    apply (bo_until _ _ _ _ R) in F. destruct F as [F N]. apply bo_group_inv in F. destruct F as [F1 F2].
    split; auto. constructor; eauto. specialize (N (fun l H => H)). rewrite Forall_forall in *. auto.
  Qed.
  Lemma scope_content_safe : forall n l c r, scope_content_p n l = POk c r -> braces_outside l ->
    safe c /\ braces_outside r.
  Proof.
    induction n as [|n IH]; intros l c r H F; [discriminate|].
    assert (M : forall k g b r', many_left (scope_content_p n) k g = POk b r' -> braces_outside g -> Forall safe b).
    { induction k as [|k IHk]; intros g b r' Hm Fg.
      - destruct g; [|discriminate]. injection Hm as <- <-. constructor.
      - destruct g as [|t g]; cbn [many_left] in Hm; [injection Hm as <- <-; constructor|].
        destruct (scope_content_p n (t :: g)) as [a ra| |] eqn:Ea; try discriminate. cbn [pbind] in Hm.
        destruct (many_left (scope_content_p n) k ra) as [al rl| |] eqn:El; try discriminate. cbn [pbind] in Hm.
        injection Hm as <- <-. destruct (IH _ _ _ Ea Fg). constructor; eauto. }
    destruct (scope_S expr_of n l) as [[Hn E]|[_ [[_ E]|[(_ & _ & E)|(NA & ND & E)]]]]; rewrite E in H.
    - discriminate.
    - eapply at_rule_safe; [|exact H|exact F]. intros g b r' Hm. eapply M; exact Hm.
    - eapply attribute_safe; eauto.
    - eapply qualified_rule_safe; [|exact H|exact F]. intros g b r' Hm. eapply M; exact Hm.
  Qed.
  Lemma many_safe : forall n k g b r', many_left (scope_content_p n) k g = POk b r' -> braces_outside g -> Forall safe b.
  Proof.
    intros n. induction k as [|k IHk]; intros g b r' Hm Fg.
    - destruct g; [|discriminate]. injection Hm as <- <-. constructor.
    - destruct g as [|t g]; cbn [many_left] in Hm; [injection Hm as <- <-; constructor|].
      destruct (scope_content_p n (t :: g)) as [a ra| |] eqn:Ea; try discriminate. cbn [pbind] in Hm.
      destruct (many_left (scope_content_p n) k ra) as [al rl| |] eqn:El; try discriminate. cbn [pbind] in Hm.
      injection Hm as <- <-. destruct (scope_content_safe _ _ _ _ Ea Fg). constructor; eauto.
  Qed.

  (** *** The macro *)

  Lemma inline_no_fuel : forall input, inline_macro expr_of input <> IFuel.
  Proof.
    intros input. unfold inline_macro. pose proof (root_no_fuel expr_of input).
    destruct (root expr_of input) as [cs r| |]; try easy. pose proof (root_output_no_fuel cs).
    destruct (root_output cs) as [[out [|e es]]| |]; easy.
  Qed.
  Lemma inline_safe : forall input, braces_outside input -> inline_macro expr_of input <> IPanic.
  Proof.
    intros input F. unfold inline_macro. destruct (root expr_of input) as [cs r| |] eqn:E; try easy.
    apply many_safe in E; auto. pose proof (root_output_no_panic cs E).
    destruct (root_output cs) as [[out [|e es]]| |]; easy.
  Qed.

  Lemma inline_sound : forall input g, inline_macro expr_of input = IExpands g ->
    exists items out, reads_sheet expr_of input items /\ g = expand out /\ keys_ok out
      /\ forall rho, sheet_says rho items (sheet_joined (sheet_meaning rho out)).
  Proof.
    intros input g H. unfold inline_macro in H. destruct (root expr_of input) as [cs r| |] eqn:E; try discriminate.
    unfold root in E. apply scopes_ok in E; auto. destruct E as (_ & C & K).
    destruct (root_output cs) as [[out [|e es]]| |] eqn:Eo; try discriminate. injection H as <-.
    destruct (root_output_inv cs out C Eo) as [items Hi].
    destruct (root_output_ok cs items Hi) as (out' & Eo' & Hk & Hm). rewrite Eo in Eo'. injection Eo' as <-.
    exists items, out. split; [now apply K|]. auto.
  Qed.
  Lemma inline_complete : forall input items, reads_sheet expr_of input items ->
    exists out, inline_macro expr_of input = IExpands (expand out) /\ keys_ok out
      /\ forall rho, sheet_says rho items (sheet_joined (sheet_meaning rho out)).
  Proof.
    intros input items H.
    destruct (proj2 (content_complete expr_of) _ _ _ H (S (toks_size input)) (List.length input)) as (cs & E & C); auto.
    destruct (root_output_ok cs items C) as (out & Eo & Hk & Hm). exists out. split; auto.
    unfold inline_macro, root. now rewrite E, Eo.
  Qed.
  Lemma cleans_fun : (forall nest c i, clean nest c i -> forall i', clean nest c i' -> i = i')
    /\ (forall nest cs items, cleans nest cs items -> forall items', cleans nest cs items' -> items = items').
  Proof.
    apply clean_mutind.
    - intros nest n vs _ i' H. now inversion H.
    - intros nest i p b items _ _ IH i' H. inversion H; subst. f_equal. auto.
    - intros qs b items _ _ IH i' H. inversion H; subst. f_equal. auto.
    - intros nest i' H. now inversion H.
    - intros nest c i l items _ IH _ IHs i' H. inversion H; subst. f_equal; auto.
  Qed.
  Lemma reads_sheet_fun : forall input a b, reads_sheet expr_of input a -> reads_sheet expr_of input b -> a = b.
  Proof.
    intros input a b Ha Hb.
    destruct (proj2 (content_complete expr_of) _ _ _ Ha (S (toks_size input)) (List.length input)) as (cs & E & C); auto.
    destruct (proj2 (content_complete expr_of) _ _ _ Hb (S (toks_size input)) (List.length input)) as (cs' & E' & C'); auto.
    rewrite E in E'. injection E' as <-. eapply cleans_fun; eauto.
  Qed.
End Safe.
