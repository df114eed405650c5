(** * InlineAny: when the inline macro stops with a syntax error and when it panics. *)

From Coq Require Import String Ascii List NArith Bool Arith Lia.
From Verif Require Import Str StrFacts Ast Tok Output Inline SpecInline SpecInlineAny
  InlineFacts InlineParse InlineOutput InlineSafe.
Import ListNotations.
Local Open Scope list_scope.

Scheme any_mut := Minimality for any Sort Prop
  with anys_mut := Minimality for anys Sort Prop.
Combined Scheme any_mutind from any_mut, anys_mut.

(** ** Panics of the conversion *)

Lemma oall_panic_iff A B (f : A -> ores B) l : Forall (fun x => f x <> OFuel) l ->
  (oall f l = OPanic <-> Exists (fun x => f x = OPanic) l).
Proof.
  induction 1 as [|x l Hx H IH]; [split; [discriminate|intros E; inversion E]|].
  rewrite oall_cons. rewrite Exists_cons, <- IH. destruct (f x) as [y| |] eqn:E; cbn [obind].
  - destruct (oall f l); cbn [obind]; intuition discriminate.
  - tauto.
  - congruence.
Qed.

Lemma Exists_iff {A} (P Q : A -> Prop) l : Forall (fun x => P x <-> Q x) l -> (Exists P l <-> Exists Q l).
Proof.
  induction 1 as [|x l H _ IH]; [easy|]. now rewrite !Exists_cons, H, IH.
Qed.

Lemma to_fragments_panic : forall c, to_fragments c = OPanic <-> has_braces c.
Proof.
  assert (F : forall l, Forall (fun x => to_fragments x <> OFuel) l)
    by (intros l; apply Forall_forall; intros; apply to_fragments_no_fuel).
  induction c as [i args IH|t|d cs IH|e] using cval_ind2.
  - cbn [to_fragments]. apply Exists_iff in IH. rewrite <- (oall_panic_iff _ _ _ _ (F args)) in IH.
    destruct (oall to_fragments args) eqn:E; cbn [obind]; split; try discriminate; intros H.
    + inversion H as [| |? ? X]; subst. apply IH in X. discriminate.
    + constructor. now apply IH.
    + reflexivity.
    + inversion H as [| |? ? X]; subst. apply IH in X. discriminate.
  - split; [discriminate|intros H; inversion H].
  - apply Exists_iff in IH. rewrite <- (oall_panic_iff _ _ _ _ (F cs)) in IH.
    destruct d; cbn [to_fragments].
    + split; [constructor|reflexivity].
    + destruct (oall to_fragments cs) eqn:E; cbn [obind]; split; try discriminate; intros H.
      * inversion H as [|? ? X|]; subst. apply IH in X. discriminate.
      * constructor. now apply IH.
      * reflexivity.
      * inversion H as [|? ? X|]; subst. apply IH in X. discriminate.
    + destruct (oall to_fragments cs) eqn:E; cbn [obind]; split; try discriminate; intros H.
      * inversion H as [|? ? X|]; subst. apply IH in X. discriminate.
      * constructor. now apply IH.
      * reflexivity.
      * inversion H as [|? ? X|]; subst. apply IH in X. discriminate.
  - split; [discriminate|intros H; inversion H].
Qed.

Lemma spaced_fragments_panic l : spaced_fragments l = OPanic <-> Exists has_braces l.
Proof.
  unfold spaced_fragments.
  assert (E : oall to_fragments l = OPanic <-> Exists has_braces l).
  { rewrite oall_panic_iff by (apply Forall_forall; intros; apply to_fragments_no_fuel).
    apply Exists_iff, Forall_forall. intros. apply to_fragments_panic. }
  rewrite <- E. destruct (oall to_fragments l) as [ls| |]; cbn [obind]; [|easy|easy].
  rewrite spaced_with_inter. split; discriminate.
Qed.

Lemma condition_output_panic i p : condition_output i p = OPanic <-> Exists has_braces p.
Proof.
  unfold condition_output. rewrite <- spaced_fragments_panic. destruct (spaced_fragments p); cbn [obind]; split; easy.
Qed.

Lemma qualifier_output_panic qs es : qualifier_output qs es = OPanic <-> Exists has_braces qs.
Proof.
  unfold qualifier_output. destruct (batches_ok (List.length qs) qs (le_n _)) as (parts & -> & G & _). cbn [obind].
  assert (E : oall spaced_fragments parts = OPanic <-> Exists has_braces qs).
  { rewrite oall_panic_iff by (apply Forall_forall; intros; apply spaced_fragments_no_fuel).
    transitivity (Exists (Exists has_braces) parts).
    { apply Exists_iff, Forall_forall. intros. apply spaced_fragments_panic. }
    clear es. induction G as [|g N H|g c rest gs H C G IH].
    - split; intros X; inversion X.
    - rewrite Exists_cons. split; [intros [X|X]; [exact X|inversion X]|now left].
    - rewrite Exists_cons, Exists_app, Exists_cons, IH. split; [tauto|]. intros [X|[X|X]]; auto.
      destruct C as [j ->]. inversion X. }
  rewrite <- E. destruct (oall spaced_fragments parts); cbn [obind]; split; easy.
Qed.

Section Grouped.
  Context {A : Type}.
  Variable block : list out_rbc -> A.
  Variable one : icontent -> ores (A * list ierr).

  Lemma grouped_panic : forall cs,
    Forall (fun c => match c with ICAttr _ v _ => Forall no_braces v | _ => one c <> OFuel end) cs ->
    forall attrs, Forall (fun a : iname * list cval * list ierr => Forall no_braces (snd (fst a))) attrs ->
    (grouped block one attrs cs = OPanic <->
     Exists (fun c => (forall n v es, c <> ICAttr n v es) /\ one c = OPanic) cs).
  Proof.
    intros cs H. induction H as [|c cs Hc _ IH]; intros attrs Ha.
    - split; [|intros X; inversion X]. intros E. now elim (flush_no_panic block attrs Ha).
    - rewrite Exists_cons.
      assert (C : (exists n v es, c = ICAttr n v es) \/ (forall n v es, c <> ICAttr n v es))
        by (destruct c; [left; eauto|right; discriminate..]).
      destruct C as [(n & v & es & ->)|N].
      + change (grouped block one (attrs ++ [(n, v, es)]) cs = OPanic
                <-> ((forall n0 v0 es0, ICAttr n v es <> ICAttr n0 v0 es0) /\ one (ICAttr n v es) = OPanic) \/
                    Exists (fun c => (forall n v es, c <> ICAttr n v es) /\ one c = OPanic) cs).
        rewrite IH by (apply Forall_app; split; auto). split; [now right|].
        intros [[X _]|X]; [now elim (X n v es)|exact X].
      + replace (grouped block one attrs (c :: cs)) with
            (obind (flush block attrs) (fun f => obind (one c) (fun o => obind (grouped block one [] cs) (fun r =>
             OOk (fst f ++ fst o :: fst r, snd f ++ snd o ++ snd r)))))
            by (destruct c; [now elim (N name values errors)|reflexivity..]).
        assert (O : one c <> OFuel) by (destruct c; [now elim (N name values errors)|exact Hc..]).
        pose proof (flush_no_panic block attrs Ha). pose proof (flush_no_fuel block attrs).
        destruct (flush block attrs) as [f| |]; try easy. cbn [obind].
        rewrite <- (IH [] (Forall_nil _)).
        destruct (one c) as [o| |] eqn:Eo; cbn [obind]; try easy.
        * destruct (grouped block one [] cs) as [r| |]; cbn [obind]; intuition discriminate.
        * split; [|reflexivity]. intros _. left. now split.
  Qed.
End Grouped.

(** ** Syntax trees and what they were read from *)

Definition sel_fine (c : cval) : bool := match validate_selector c with Some [] => true | _ => false end.

Inductive stands : icontent -> any_item -> Prop :=
| sd_attr n v es : Forall no_braces v -> stands (ICAttr n v es) ADecl
| sd_at i p b es items : stand b items -> stands (ICAtRule i p (Some b) es) (AAt p items)
| sd_rule sels es b items : stand b items -> stands (ICNested (filter sel_fine sels) es b) (ARule sels items)
with stand : list icontent -> list any_item -> Prop :=
| st_none : stand [] []
| st_more c i cs items : stands c i -> stand cs items -> stand (c :: cs) (i :: items).
Scheme stands_mut := Minimality for stands Sort Prop
  with stand_mut := Minimality for stand Sort Prop.
Combined Scheme stands_mutind from stands_mut, stand_mut.

Lemma sel_fine_iff c : sel_fine c = true <-> selector_ok c.
Proof.
  unfold sel_fine. rewrite <- validate_selector_iff. destruct (validate_selector c) as [[|]|]; split; congruence.
Qed.

Lemma Exists_filter {A} (f : A -> bool) (P Q : A -> Prop) l : (forall x, f x = true <-> Q x) ->
  (Exists P (filter f l) <-> Exists (fun x => Q x /\ P x) l).
Proof.
  intros F. rewrite !Exists_exists. split.
  - intros (x & Hx & Px). apply filter_In in Hx as [Hx Hf]. apply F in Hf. eauto.
  - intros (x & Hx & Hq & Px). exists x. split; [|exact Px]. apply filter_In. split; [exact Hx|now apply F].
Qed.

Lemma stand_Exists P Q cs items : (forall c i, stands c i -> (P c <-> Q i)) -> stand cs items ->
  (Exists P cs <-> Exists Q items).
Proof.
  intros H S. induction S as [|c i cs items Hs S IH]; [split; intros X; inversion X|].
  now rewrite !Exists_cons, IH, (H _ _ Hs).
Qed.

Lemma block_panics_iff :
  (forall c i, stands c i -> (rule_block_output c = OPanic <-> block_panics i))
  /\ (forall cs items, stand cs items -> (Exists (fun c => rule_block_output c = OPanic) cs <-> Exists block_panics items)).
Proof.
  apply stands_mutind.
  - intros n v es V. cbn [rule_block_output]. rewrite attr_output_ok by exact V. split; [discriminate|intros X; inversion X].
  - intros i p b es items _ IH. cbn [rule_block_output].
    assert (E : oall rule_block_output b = OPanic <-> Exists block_panics items).
    { rewrite oall_panic_iff by (apply Forall_forall; intros; apply block_output_no_fuel). exact IH. }
    assert (P : block_panics (AAt p items) <-> Exists has_braces p \/ Exists block_panics items).
    { split; [intros X; inversion X; auto|intros [X|X]; [now apply bp_condition|now apply bp_body]]. }
    rewrite P, <- E, <- (condition_output_panic i p). pose proof (condition_output_no_fuel i p).
    assert (oall rule_block_output b <> OFuel)
      by (apply oall_no_fuel, Forall_forall; intros; apply block_output_no_fuel).
    destruct (condition_output i p); cbn [obind]; [| tauto |easy].
    destruct (oall rule_block_output b); cbn [obind]; intuition discriminate.
  - intros sels es b items _ _. cbn [rule_block_output]. split; [discriminate|intros X; inversion X].
  - split; intros X; inversion X.
  - intros c i cs items _ IH _ IHs. now rewrite !Exists_cons, IH, IHs.
Qed.

Definition is_item (c : icontent) : Prop := forall n v es, c <> ICAttr n v es.
Definition item_iff (c : icontent) (i : any_item) : Prop :=
  (is_item c /\ rule_item_output c = OPanic) <-> item_panics i.

Lemma stand_attrs cs items : stand cs items ->
  Forall (fun c => match c with ICAttr _ v _ => Forall no_braces v | _ => rule_item_output c <> OFuel end) cs.
Proof.
  induction 1 as [|c i cs items Hs S IH]; constructor; auto.
  destruct Hs; [exact H|apply item_output_no_fuel..].
Qed.

Lemma item_panics_iff :
  (forall c i, stands c i -> item_iff c i)
  /\ (forall cs items, stand cs items ->
        (Exists (fun c => is_item c /\ rule_item_output c = OPanic) cs <-> Exists item_panics items)).
Proof.
  apply stands_mutind.
  - intros n v es V. split; [intros [X _]; now elim (X n v es)|intros X; inversion X].
  - intros i p b es items S IH. unfold item_iff. cbn [rule_item_output].
    assert (E : grouped (OutBlock []) rule_item_output [] b = OPanic <-> Exists item_panics items).
    { rewrite grouped_panic; [exact IH|eapply stand_attrs; exact S|constructor]. }
    assert (P : item_panics (AAt p items) <-> Exists has_braces p \/ Exists item_panics items).
    { split; [intros X; inversion X; auto|intros [X|X]; [now apply ip_condition|now apply ip_body]]. }
    rewrite P, <- E, <- (condition_output_panic i p). pose proof (condition_output_no_fuel i p).
    assert (is_item (ICAtRule i p (Some b) es)) by (intros ? ? ?; discriminate).
    destruct (condition_output i p); cbn [obind]; [| tauto |easy].
    destruct (grouped (OutBlock []) rule_item_output [] b); cbn [obind]; intuition discriminate.
  - intros sels es b items S _. unfold item_iff. cbn [rule_item_output]. unfold qualified_output, rule_blocks_output.
    assert (E : oall rule_block_output b = OPanic <-> Exists block_panics items).
    { rewrite oall_panic_iff by (apply Forall_forall; intros; apply block_output_no_fuel).
      now apply block_panics_iff. }
    assert (P : item_panics (ARule sels items)
                <-> Exists (fun c => selector_ok c /\ has_braces c) sels \/ Exists block_panics items).
    { split; [intros X; inversion X; auto|intros [X|X]; [now apply ip_selector|now apply ip_block]]. }
    rewrite P, <- E, <- (Exists_filter sel_fine has_braces selector_ok sels sel_fine_iff).
    rewrite <- (qualifier_output_panic (filter sel_fine sels) es).
    assert (is_item (ICNested (filter sel_fine sels) es b)) by (intros ? ? ?; discriminate).
    pose proof (qualified_output_no_fuel (filter sel_fine sels) es b) as F.
    unfold qualified_output, rule_blocks_output in F.
    destruct (qualifier_output (filter sel_fine sels) es); cbn [obind] in *; [| tauto |easy].
    destruct (oall rule_block_output b); cbn [obind] in *; intuition discriminate.
  - split; intros X; inversion X.
  - intros c i cs items _ IH _ IHs. unfold item_iff in IH. now rewrite !Exists_cons, IHs, IH.
Qed.

Lemma root_panics_iff cs items : stand cs items -> (root_output cs = OPanic <-> Exists item_panics items).
Proof.
  intros S. rewrite <- (proj2 item_panics_iff _ _ S).
  assert (F : Forall (fun c => match c with ICAttr _ v _ => Forall no_braces v | _ => root_item_output c <> OFuel end) cs).
  { pose proof (stand_attrs _ _ S) as F. eapply Forall_impl; [|exact F]. intros c H.
    assert (R : rule_item_output c <> OFuel -> root_item_output c <> OFuel).
    { rewrite root_item_output_eq. destruct (rule_item_output c); easy. }
    destruct c; auto. }
  pose proof (grouped_panic (OutSBlock []) root_item_output cs F [] (Forall_nil _)) as G.
  unfold root_output. etransitivity; [exact G|].
  apply Exists_iff, Forall_forall. intros c _. rewrite root_item_output_eq. unfold is_item.
  destruct (rule_item_output c); cbn [obind]; intuition discriminate.
Qed.

(** ** The parser *)

Lemma validate_selector_none : forall c, validate_selector c = None <-> has_semicolon c.
Proof.
  induction c as [i args IH|t|d cs IH|e] using cval_ind2; cbn [validate_selector].
  - split; [discriminate|intros X; inversion X].
  - destruct t as [c j|t|i].
    + destruct (char_eqb c (ch ";")) eqn:E.
      * apply char_eqb_true in E. subst. split; [constructor|reflexivity].
      * apply char_eqb_false in E. destruct (mem c (lit "&>+~|$*=^#.:,")); split; try discriminate; intros X; inversion X; subst; now elim E.
    + destruct (is_str_literal t); split; try discriminate; intros X; inversion X.
    + split; [discriminate|intros X; inversion X].
  - destruct d; [split; [discriminate|intros X; inversion X]| |split; [discriminate|intros X; inversion X]].
    set (go := fix go l := match l with
                     | [] => Some []
                     | x :: l' =>
                         match validate_selector x, go l' with
                         | Some e, Some r => Some (e ++ r)
                         | _, _ => None
                         end
                     end).
    assert (G : go cs = None <-> Exists has_semicolon cs).
    { induction IH as [|x l Hx _ IHl]; [split; [discriminate|intros X; inversion X]|].
      rewrite Exists_cons, <- Hx, <- IHl. cbn. destruct (validate_selector x); [|tauto].
      destruct (go l); intuition discriminate. }
    rewrite G. split; [now constructor|]. intros X. now inversion X.
  - split; [discriminate|intros X; inversion X].
Qed.

Local Hint Resolve minus_no_quote dollar_no_quote colon_no_quote semi_no_quote at_no_quote : core.

Section Parse.
  Variable expr_of : code -> option expr.
  Notation reads := (reads expr_of).
  Notation reads_all := (reads_all expr_of).
  Notation reads_until := (reads_until expr_of).
  Notation next_component := (next_component expr_of).
  Notation any := (any expr_of).
  Notation anys := (anys expr_of).
  Notation scope_content_p := (scope_content_p expr_of).

  Lemma attribute_value_any : forall l vs r, reads_until at_semicolon l vs r ->
    forall k, List.length l < k -> exists ve, attribute_value expr_of k l = POk ve r.
  Proof.
    intros l vs r H. induction H as [l Hs|l c r cs r' Hs Hc _ IH]; intros k Hk.
    - destruct k as [|k]; [lia|]. cbn [Inline.attribute_value].
      rewrite (proj2 (peek_punct_iff _ l semi_no_quote) Hs). eauto.
    - destruct k as [|k]; [lia|]. cbn [Inline.attribute_value].
      rewrite (proj2 (peek_punct_false _ l semi_no_quote) Hs). pose proof (reads_proper _ _ _ _ Hc) as P.
      apply proper_length in P.
      rewrite (proj2 (next_component_iff _ l c r) Hc). cbn [pbind].
      destruct (IH k) as [ve ->]; [lia|]. cbn [pbind]. eauto.
  Qed.

  Lemma qualifier_sound : forall k l qe r, qualifier expr_of k l = POk qe r ->
    exists sels, reads_until at_brace l sels r /\ Forall (fun c => ~ has_semicolon c) sels
      /\ fst qe = filter sel_fine sels.
  Proof.
    induction k as [|k IH]; intros l qe r H; cbn [qualifier] in H.
    - destruct (peek_group Brace l) eqn:E; [|discriminate]. injection H as <- <-.
      apply peek_group_iff in E. exists []. split; [now constructor|]. split; [constructor|reflexivity].
    - destruct (peek_group Brace l) eqn:E.
      + injection H as <- <-. apply peek_group_iff in E. exists []. split; [now constructor|]. split; [constructor|reflexivity].
      + destruct (next_component l) as [c r1| |] eqn:Ec; try discriminate. cbn [pbind] in H.
        destruct (validate_selector c) as [e|] eqn:Es; [|discriminate].
        destruct (qualifier expr_of k r1) as [qe' r2| |] eqn:Ev; try discriminate. cbn [pbind] in H.
        apply next_component_iff in Ec. apply peek_group_false in E.
        apply IH in Ev. destruct Ev as (vs & R & N & F). injection H as H <-. exists (c :: vs). split; [|split].
        * econstructor; eauto.
        * constructor; auto. intros X. apply validate_selector_none in X. congruence.
        * rewrite <- H. cbn [fst filter]. unfold sel_fine at 1. rewrite Es, F. now destruct e.
  Qed.
  Lemma qualifier_any : forall l vs r, reads_until at_brace l vs r -> Forall (fun c => ~ has_semicolon c) vs ->
    forall k, List.length l < k -> exists es, qualifier expr_of k l = POk (filter sel_fine vs, es) r.
  Proof.
    intros l vs r H. induction H as [l Hs|l c r cs r' Hs Hc _ IH]; intros V k Hk.
    - destruct k as [|k]; [lia|]. cbn [Inline.qualifier].
      rewrite (proj2 (peek_group_iff Brace l) Hs). eauto.
    - destruct k as [|k]; [lia|]. cbn [Inline.qualifier]. inversion_clear V as [|? ? V1 V2].
      rewrite (proj2 (peek_group_false Brace l) Hs). pose proof (reads_proper _ _ _ _ Hc) as P.
      apply proper_length in P.
      rewrite (proj2 (next_component_iff _ l c r) Hc). cbn [pbind].
      destruct (IH V2 k) as [es E]; [lia|].
      destruct (validate_selector c) as [e|] eqn:Ec; [|elim V1; now apply validate_selector_none].
      rewrite E. cbn [pbind filter fst snd]. destruct (sel_fine c) eqn:Ef; unfold sel_fine in Ef; rewrite Ec in Ef; destruct e; try discriminate Ef; eauto.
  Qed.

  Definition scope_any (p : list rtok -> pres (list icontent)) : Prop :=
    forall g b r', p g = POk b r' -> exists items, anys g items /\ stand b items.

  Lemma attribute_sound : forall l c r, attribute expr_of l = POk c r -> any l ADecl r /\ stands c ADecl.
  Proof.
    intros l c r H. unfold attribute in H.
    destruct (next_component l) as [cn r0| |] eqn:E0; try discriminate. cbn [pbind] in H.
    destruct (attribute_name cn) as [nm|] eqn:En; [|discriminate].
    destruct (expect (ch ":") r0) as [[] r1| |] eqn:E1; try discriminate. cbn [pbind] in H.
    destruct (attribute_value expr_of (S (List.length r1)) r1) as [ve r2| |] eqn:E2; try discriminate. cbn [pbind] in H.
    destruct (expect (ch ";") r2) as [[] r3| |] eqn:E3; try discriminate. cbn [pbind] in H.
    injection H as <- <-.
    apply next_component_iff in E0. apply names_iff in En. apply expect_iff in E1; auto. destruct E1 as (j & ->).
    apply expect_iff in E3; auto. destruct E3 as (j' & ->).
    apply attribute_value_kept in E2. destruct E2 as (V & vs & R). split; [econstructor; eauto|].
    constructor. eapply Forall_impl; [apply value_no_braces|exact V].
  Qed.
  Lemma at_rule_sound : forall p l c r, scope_any p -> at_rule_with expr_of p l = POk c r ->
    at_semicolon r \/ exists i, any l i r /\ stands c i.
  Proof.
    intros p l c r Hp H. unfold at_rule_with in H.
    destruct (expect (ch "@") l) as [[] r0| |] eqn:E0; try discriminate. cbn [pbind] in H.
    apply expect_iff in E0; auto. destruct E0 as (j & ->).
    destruct (parse_ident r0) as [[i r1]|] eqn:E1; [|discriminate]. apply parse_ident_iff in E1.
    destruct (prelude expr_of (S (List.length r1)) r1) as [cs r2| |] eqn:E2; try discriminate. cbn [pbind] in H.
    assert (R2 : reads_until at_end r1 cs r2) by (apply prelude_iff; eauto).
    destruct (peek_punct (ch ";") r2) eqn:Es.
    - injection H as <- <-. left. now apply peek_punct_iff in Es.
    - right. destruct (scope_with p r2) as [b r3| |] eqn:E3; try discriminate. cbn [pbind] in H. injection H as <- <-.
      apply scope_with_inv in E3. destruct E3 as (g & r' & -> & Eg). destruct (Hp _ _ _ Eg) as (items & A & S).
      exists (AAt cs items). split; [|now constructor]. eapply an_at_rule; eauto.
  Qed.
  Lemma qualified_rule_sound : forall p l c r, scope_any p ->
    ~ starts_at_rule l -> ~ starts_declaration expr_of l ->
    qualified_rule_with expr_of p l = POk c r -> exists i, any l i r /\ stands c i.
  Proof.
    intros p l c r Hp NA ND H. unfold qualified_rule_with in H.
    destruct (qualifier expr_of (S (List.length l)) l) as [qe r1| |] eqn:E1; try discriminate. cbn [pbind] in H.
    apply qualifier_sound in E1. destruct E1 as (sels & R & N & F).
    destruct (scope_with p r1) as [b r2| |] eqn:E3; try discriminate. cbn [pbind] in H. injection H as <- <-.
    apply scope_with_inv in E3. destruct E3 as (g & r' & -> & Eg). destruct (Hp _ _ _ Eg) as (items & A & S).
    exists (ARule sels items). split; [econstructor; eauto|]. rewrite F. now constructor.
  Qed.

  Lemma many_any n :
    (forall l c r, scope_content_p n l = POk c r -> at_semicolon r \/ exists i, any l i r /\ stands c i) ->
    forall k g b r', many_left (scope_content_p n) k g = POk b r' -> exists items, anys g items /\ stand b items.
  Proof.
    intros H. induction k as [|k IHk]; intros g b r' Hm.
    - destruct g; [|discriminate]. injection Hm as <- <-. exists []. split; constructor.
    - destruct g as [|t g]; cbn [many_left] in Hm; [injection Hm as <- <-; exists []; split; constructor|].
      destruct (scope_content_p n (t :: g)) as [a ra| |] eqn:Ea; try discriminate. cbn [pbind] in Hm.
      destruct (many_left (scope_content_p n) k ra) as [al rl| |] eqn:El; try discriminate. cbn [pbind] in Hm.
      injection Hm as <- <-. destruct (H _ _ _ Ea) as [Hs|(i & Hi & Si)].
      + exfalso. destruct Hs as (j & x & ->). destruct k as [|k]; [discriminate|]. cbn [many_left] in El.
        destruct (scope_content_p n (RPunct (ch ";") j :: x)) as [a' ra'| |] eqn:Ea'; try discriminate.
        eapply (at_semicolon_refused expr_of n); [|exact Ea']. now exists j, x.
      + destruct (IHk _ _ _ El) as (items & A & S). exists (i :: items). split; econstructor; eauto.
  Qed.
  Lemma scope_sound : forall n l c r, scope_content_p n l = POk c r ->
    at_semicolon r \/ exists i, any l i r /\ stands c i.
  Proof.
    induction n as [|n IH]; intros l c r H; [discriminate|].
    assert (M : scope_any (fun g => many_left (scope_content_p n) (List.length g) g)).
    { intros g b r' Hm. eapply many_any; [exact IH|exact Hm]. }
    destruct (scope_S expr_of n l) as [[Hn E]|[_ [[_ E]|[(_ & _ & E)|(NA & ND & E)]]]]; rewrite E in H.
    - discriminate.
    - eapply at_rule_sound; [exact M|exact H].
    - right. apply attribute_sound in H. eauto.
    - right. eapply qualified_rule_sound; [exact M|exact NA|exact ND|exact H].
  Qed.
  Lemma root_sound : forall input cs r, root expr_of input = POk cs r ->
    exists items, anys input items /\ stand cs items.
  Proof. intros input cs r H. eapply many_any; [apply scope_sound|exact H]. Qed.

  Lemma reads_ident_any : forall l i r cs, reads_ident l i r -> reads_all r cs -> exists cs', reads_all l cs'.
  Proof.
    intros l i r cs H R. destruct (css_peek l) eqn:E.
    - apply css_peek_iff in E. eapply reads_ident_all; eauto.
    - apply css_peek_false in E. destruct H as [t p l ps r Ht Hr].
      destruct Ht as [j|s]; [|elim E; left; eauto].
      inversion Hr as [p' l' Hn|p' t' q l' ps' r' Hq Hj Hr']; subst.
      + eexists. econstructor; [|exact R]. apply rd_punct; [discriminate|exact E|discriminate].
      + elim E. right. exists j, t', q, l'. auto.
  Qed.

  Lemma any_reads :
    (forall l i r, any l i r -> forall cs, reads_all r cs -> exists cs', reads_all l cs')
    /\ (forall l items, anys l items -> exists cs, reads_all l cs).
  Proof.
    apply any_mutind.
    - intros l c name j r vs j' r' Hr _ Hu cs Hcs.
      assert (X : reads_all r (vs ++ CToken (PPunct (ch ";") j') :: cs)).
      { eapply reads_until_all; [exact Hu|]. econstructor; [|exact Hcs]. apply punct_reads; discriminate. }
      eexists. econstructor; [exact Hr|]. econstructor; [|exact X]. apply punct_reads; discriminate.
    - intros j l i r p g body r' Hi Hu _ [gs Hg] cs Hcs.
      assert (X : reads_all r (p ++ CBlk Brace gs :: cs)).
      { eapply reads_until_all; [exact Hu|]. econstructor; [constructor; exact Hg|exact Hcs]. }
      destruct (reads_ident_any _ _ _ _ Hi X) as [cs' H']. eexists. econstructor; [|exact H'].
      apply punct_reads; discriminate.
    - intros l sel g body r _ _ Hu _ _ [gs Hg] cs Hcs. eexists. eapply reads_until_all; [exact Hu|].
      econstructor; [constructor; exact Hg|exact Hcs].
    - eexists. constructor.
    - intros l i r items _ IH _ [cs Hcs]. eauto.
  Qed.

  Lemma any_proper : forall l i r, any l i r -> proper r l.
  Proof.
    intros l i r H. destruct H as [l c name j r vs j' r' Hr _ Hu|j l i r p g body r' Hi Hu _|l sel g body r _ _ Hu _ _].
    - eapply proper_trans; [|eapply reads_proper; exact Hr]. eapply proper_trans; [|apply proper_tl].
      eapply proper_suffix; [apply proper_tl|]. eapply reads_until_suffix; eauto.
    - eapply proper_trans; [|apply proper_tl]. eapply proper_trans; [|exact (reads_ident_suffix _ _ _ Hi)].
      eapply proper_suffix; [apply proper_tl|]. eapply reads_until_suffix; eauto.
    - eapply proper_suffix; [apply proper_tl|]. eapply reads_until_suffix; eauto.
  Qed.

  Lemma any_complete :
    (forall l i r, any l i r -> forall n, toks_size l < n -> exists c, scope_content_p n l = POk c r)
    /\ (forall l items, anys l items -> forall n k, toks_size l < n -> List.length l <= k ->
       exists cs, many_left (scope_content_p n) k l = POk cs []).
  Proof.
    apply any_mutind.
    - intros l c name j r vs j' r' Hr Hn Hu n Hs. destruct n as [|n]; [lia|].
      assert (D : starts_declaration expr_of l) by (exists c, name, j, r; auto).
      destruct (scope_S expr_of n l) as [[Hx E]|[_ [[Ha E]|[(_ & _ & E)|(NA & ND & E)]]]].
      + elim (Hx _ _ Hr).
      + elim (at_rule_not_declaration expr_of l Ha D).
      + rewrite E. unfold attribute.
        rewrite (proj2 (next_component_iff _ _ _ _) Hr). cbn [pbind].
        rewrite (proj2 (names_iff _ _) Hn).
        rewrite (proj2 (expect_iff _ _ _ colon_no_quote) (ex_intro _ j eq_refl)). cbn [pbind].
        destruct (attribute_value_any _ _ _ Hu (S (List.length r))) as [ve ->]; [lia|]. cbn [pbind].
        rewrite (proj2 (expect_iff _ _ _ semi_no_quote) (ex_intro _ j' eq_refl)). cbn [pbind]. eauto.
      + now elim ND.
    - intros j l i r p g body r' Hi Hu Hc IH n Hs. destruct n as [|n]; [lia|].
      pose proof (reads_until_suffix _ _ _ _ _ Hu) as Su. apply suffix_size in Su.
      pose proof (proper_size _ _ (reads_ident_suffix _ _ _ Hi)) as Si.
      rewrite toks_size_cons, tok_size_group in Su. rewrite toks_size_cons in Hs.
      destruct (IH n (List.length g)) as (b & Eb); try lia; auto.
      assert (R := punct_reads expr_of (ch "@") j l ltac:(discriminate) ltac:(discriminate) ltac:(discriminate)).
      assert (A : starts_at_rule (RPunct (ch "@") j :: l)) by (exists j, l; auto).
      destruct (scope_S expr_of n (RPunct (ch "@") j :: l)) as [[Hx E]|[_ [[_ E]|[(NA & _ & E)|(NA & ND & E)]]]].
      + elim (Hx _ _ R).
      + rewrite E. unfold at_rule_with.
        rewrite (proj2 (expect_iff _ _ _ at_no_quote) (ex_intro _ j eq_refl)). cbn [pbind].
        rewrite (proj2 (parse_ident_iff _ _ _) Hi).
        rewrite (prelude_complete _ _ _ _ Hu) by lia. cbn [pbind peek_punct scope_with]. rewrite Eb. cbn [pbind]. eauto.
      + now elim NA.
      + now elim NA.
    - intros l sel g body r NA ND Hu Hns Hc IH n Hs. destruct n as [|n]; [lia|].
      pose proof (reads_until_suffix _ _ _ _ _ Hu) as Su. apply suffix_size in Su.
      rewrite toks_size_cons, tok_size_group in Su.
      destruct (IH n (List.length g)) as (b & Eb); try lia; auto.
      destruct (scope_S expr_of n l) as [[Hx E]|[_ [[Ha E]|[(_ & Hd & E)|(_ & _ & E)]]]].
      + destruct (proj2 any_reads _ _ Hc) as [gs Hg].
        inversion Hu as [? ?|? ? ? ? ? ? H0]; subst.
        * elim (Hx (CBlk Brace gs) r). now constructor.
        * elim (Hx _ _ H0).
      + now elim NA.
      + now elim ND.
      + rewrite E. unfold qualified_rule_with.
        destruct (qualifier_any _ _ _ Hu Hns (S (List.length l))) as [es ->]; [lia|].
        cbn [pbind scope_with fst snd]. rewrite Eb. cbn [pbind]. eauto.
    - intros n k _ _. exists []. destruct k; reflexivity.
    - intros l i r items Hc IH _ IHs n k Hs Hk. pose proof (any_proper _ _ _ Hc) as P.
      pose proof (proper_size _ _ P). pose proof (proper_length _ _ P).
      destruct (IH n Hs) as (c & E). destruct k as [|k]; [lia|].
      destruct (IHs n k) as (cs & Ecs); try lia.
      exists (c :: cs). destruct l as [|t l]; [now destruct P as (t & x & P)|].
      cbn [many_left]. rewrite E. cbn [pbind]. rewrite Ecs. reflexivity.
  Qed.
  Lemma root_complete : forall input items, anys input items -> exists cs, root expr_of input = POk cs [].
  Proof. intros input items H. apply (proj2 any_complete _ _ H); lia. Qed.
End Parse.

(** Every input is cut up in one way only. *)
Section Unique.
  Variable expr_of : code -> option expr.

  Lemma until_fun (stop : list rtok -> Prop) l cs r : reads_until expr_of stop l cs r ->
    forall cs' r', reads_until expr_of stop l cs' r' -> cs = cs' /\ r = r'.
  Proof.
    induction 1 as [l Hs|l c r cs r1 Hs Hc _ IH]; intros cs' r' H'; inversion H'; subst; try easy.
    destruct (reads_fun _ _ _ _ _ _ Hc H0) as [<- <-]. destruct (IH _ _ H1) as [<- <-]. easy.
  Qed.

  Lemma any_fun :
    (forall l i r, any expr_of l i r -> forall i' r', any expr_of l i' r' -> i = i' /\ r = r')
    /\ (forall l items, anys expr_of l items -> forall items', anys expr_of l items' -> items = items').
  Proof.
    apply any_mutind.
    - intros l c name j r vs j' r' Hr Hn Hu i2 r2 H.
      assert (D : starts_declaration expr_of l) by (exists c, name, j, r; auto).
      inversion H as [? c2 n2 j2 x2 vs2 j2' ? Hr2 Hn2 Hu2|j2 l2 i3 ? p2 g2 b2 ? Hi2 Hu2 Hb2|? s2 g2 b2 ? NA ND Hu2 N2 Hb2]; subst.
      + destruct (reads_fun _ _ _ _ _ _ Hr Hr2) as [<- E]. injection E as _ <-.
        destruct (until_fun _ _ _ _ Hu _ _ Hu2) as [_ E]. injection E as _ <-. easy.
      + exfalso. eapply at_rule_not_declaration; [|exact D]. now exists j2, l2.
      + now elim ND.
    - intros j l i r p g body r' Hi Hu _ IH i2 r2 H.
      inversion H as [? c2 n2 j2 x2 vs2 j2' ? Hr2 Hn2 Hu2|j2 l2 i3 ? p2 g2 b2 ? Hi2 Hu2 Hb2|? s2 g2 b2 ? NA ND Hu2 N2 Hb2]; subst.
      + exfalso. eapply at_rule_not_declaration; [exists j, l; reflexivity|]. exists c2, n2, j2, x2. split; [exact Hr2|exact Hn2].
      + destruct (reads_ident_fun _ _ _ _ _ Hi Hi2) as [_ <-].
        destruct (until_fun _ _ _ _ Hu _ _ Hu2) as [<- E]. injection E as <- <-. now rewrite (IH _ Hb2).
      + elim NA. now exists j, l.
    - intros l sel g body r NA ND Hu Hns _ IH i2 r2 H.
      inversion H as [? c2 n2 j2 x2 vs2 j2' ? Hr2 Hn2 Hu2|j2 l2 i3 ? p2 g2 b2 ? Hi2 Hu2 Hb2|? s2 g2 b2 ? NA2 ND2 Hu2 N2 Hb2]; subst.
      + elim ND. exists c2, n2, j2, x2. split; [exact Hr2|exact Hn2].
      + elim NA. now exists j2, l2.
      + destruct (until_fun _ _ _ _ Hu _ _ Hu2) as [<- E]. injection E as <- <-. now rewrite (IH _ Hb2).
    - intros items' H. inversion H as [|? ? ? ? Ha]; subst; [easy|].
      apply any_proper in Ha. now destruct Ha as (t & x & Ha).
    - intros l i r items Ha IH _ IHs items' H. inversion H as [|? ? ? ? Ha2 Hs2]; subst.
      + apply any_proper in Ha. now destruct Ha as (t & x & Ha).
      + destruct (IH _ _ Ha2) as [<- <-]. now rewrite (IHs _ Hs2).
  Qed.
End Unique.

Lemma inline_panics expr_of input :
  inline_macro expr_of input = IPanic <-> exists items, anys expr_of input items /\ Exists item_panics items.
Proof.
  unfold inline_macro. split.
  - destruct (root expr_of input) as [cs r| |] eqn:E; try discriminate. intros H.
    destruct (root_sound _ _ _ _ E) as (items & A & S). exists items. split; [exact A|].
    apply (root_panics_iff _ _ S). destruct (root_output cs) as [[out [|]]| |]; easy.
  - intros (items & A & X). destruct (root_complete _ _ _ A) as [cs E]. rewrite E.
    destruct (root_sound _ _ _ _ E) as (items' & A' & S).
    rewrite (proj2 (any_fun expr_of) _ _ A _ A') in X. apply (root_panics_iff _ _ S) in X. now rewrite X.
Qed.

Lemma inline_syntax_error expr_of input :
  inline_macro expr_of input = ISyntaxError <-> ~ exists items, anys expr_of input items.
Proof.
  unfold inline_macro. split.
  - intros H (items & A). destruct (root_complete _ _ _ A) as [cs E]. rewrite E in H.
    destruct (root_output cs) as [[out [|]]| |]; discriminate.
  - intros H. pose proof (root_no_fuel expr_of input). destruct (root expr_of input) as [cs r| |] eqn:E; try easy.
    elim H. destruct (root_sound _ _ _ _ E) as (items & A & _). eauto.
Qed.
