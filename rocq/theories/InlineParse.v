(** * InlineParse: stylesheets of the inline macros, from tokens to syntax trees. *)

From Coq Require Import String Ascii List NArith Bool Arith Lia.
From Verif Require Import Str StrFacts Ast Tok Output Inline SpecInline InlineFacts.
Import ListNotations.
Local Open Scope list_scope.

Section CvalInd.
  Variable P : cval -> Prop.
  Hypothesis HF : forall i args, Forall P args -> P (CFunction i args).
  Hypothesis HT : forall t, P (CToken t).
  Hypothesis HB : forall d cs, Forall P cs -> P (CBlk d cs).
  Hypothesis HE : forall e, P (CExpr e).
  Fixpoint cval_ind2 (c : cval) : P c :=
    let fix go (l : list cval) : Forall P l :=
      match l with
      | [] => Forall_nil P
      | x :: l' => Forall_cons x (cval_ind2 x) (go l')
      end in
    match c with
    | CFunction i args => HF i args (go args)
    | CToken t => HT t
    | CBlk d cs => HB d cs (go cs)
    | CExpr e => HE e
    end.
End CvalInd.

Lemma mem_one_of : forall c s, mem c (lit s) = true <-> one_of s c.
Proof.
  intros c s. unfold one_of, mem. rewrite existsb_exists. split.
  - intros (x & Hx & E). apply N.eqb_eq in E. now subst.
  - intros H. exists c. split; auto. apply N.eqb_refl.
Qed.

Lemma flat_map_nil : forall A B (f : A -> list B) l, flat_map f l = [] <-> Forall (fun x => f x = []) l.
Proof.
  intros A B f. induction l as [|x l IH]; cbn; [split; auto|]. split.
  - intros H. apply app_eq_nil in H. destruct H. constructor; auto. now apply IH.
  - intros H. inversion H; subst. rewrite H2. cbn. now apply IH.
Qed.

Lemma validate_attribute_iff : forall c, validate_attribute c = [] <-> value_ok c.
Proof.
  induction c as [i args IH|t|d cs IH|e] using cval_ind2.
  - cbn [validate_attribute]. rewrite flat_map_nil. split.
    + intros H. constructor. rewrite Forall_forall in *. intros x Hx. now apply IH, H.
    + intros H. inversion H; subst. rewrite Forall_forall in *. intros x Hx. now apply IH, H1.
  - destruct t as [c j|t|i]; [|split; [constructor|reflexivity]..].
    cbn [validate_attribute]. destruct (mem c (lit "-/%:,#")) eqn:E; split; intros H; auto; try discriminate.
    + constructor. now apply mem_one_of.
    + inversion H; subst. apply mem_one_of in H1. congruence.
  - split; [discriminate|]. intros H. inversion H.
  - split; [constructor|reflexivity].
Qed.

Lemma value_no_braces : forall c, value_ok c -> no_braces c.
Proof.
  induction c as [i args IH|t|d cs IH|e] using cval_ind2; intros H; try constructor; inversion H; subst.
  rewrite Forall_forall in *. auto.
Qed.

Lemma is_str_literal_iff : forall t,
  is_str_literal t = true <-> exists c t', t = c :: t' /\ (c = 34%N \/ c = ch "r").
Proof.
  intros [|c t]; cbn [is_str_literal].
  - split; [discriminate|]. now intros (c & t' & H & _).
  - rewrite orb_true_iff. split.
    + intros [H|H]; apply char_eqb_true in H; eauto.
    + intros (c' & t' & H & Q). injection H as <- <-. destruct Q as [-> | ->]; [left|right]; apply char_eqb_refl.
Qed.

Lemma validate_selector_iff : forall c, validate_selector c = Some [] <-> selector_ok c.
Proof.
  induction c as [i args IH|t|d cs IH|e] using cval_ind2.
  - split; [constructor|reflexivity].
  - destruct t as [c j|t|i]; [| |split; [constructor|reflexivity]]; cbn [validate_selector].
    + destruct (char_eqb c (ch ";")) eqn:E.
      { apply char_eqb_true in E. subst. split; [discriminate|]. intros H. inversion H; subst.
        apply mem_one_of in H1. vm_compute in H1. discriminate. }
      destruct (mem c (lit "&>+~|$*=^#.:,")) eqn:E2; split; intros H; auto; try discriminate.
      * constructor. now apply mem_one_of.
      * inversion H; subst. apply mem_one_of in H1. congruence.
    + destruct (is_str_literal t) eqn:E; split; intros H; auto; try discriminate.
      * apply is_str_literal_iff in E. destruct E as (c & t' & -> & Q). econstructor; eauto.
      * inversion H; subst. assert (is_str_literal (c :: t') = true) by (apply is_str_literal_iff; eauto). congruence.
  - destruct d; [split; [discriminate|intros H; inversion H]| |split; [discriminate|intros H; inversion H]].
    cbn [validate_selector].
    set (go := fix go l := match l with
                     | [] => Some []
                     | x :: l' =>
                         match validate_selector x, go l' with
                         | Some e, Some r => Some (e ++ r)
                         | _, _ => None
                         end
                     end).
    assert (G : forall l, go l = Some [] <-> Forall (fun x => validate_selector x = Some []) l).
    { induction l as [|x l IHl]; [split; [constructor|reflexivity]|]. cbn. split.
      - destruct (validate_selector x) as [e|] eqn:E; [|discriminate].
        destruct (go l) as [r|] eqn:E2; [|discriminate]. intros H. injection H as H. apply app_eq_nil in H.
        destruct H as [-> ->]. constructor; auto. now apply IHl.
      - intros H. inversion H; subst. apply IHl in H3. now rewrite H2, H3. }
    rewrite G. split.
    + intros H. constructor. rewrite Forall_forall in *. intros x Hx. now apply IH, H.
    + intros H. inversion H; subst. rewrite Forall_forall in *. intros x Hx. now apply IH, H1.
  - split; [constructor|reflexivity].
Qed.

Lemma ident_string_text : forall i, ident_string i = ident_text i.
Proof.
  unfold ident_string, ident_text. induction i as [|p i IH]; [reflexivity|]. cbn [flat_map map List.concat].
  rewrite IH. f_equal. destruct p as [j|s]; [reflexivity|]. unfold part_text, unraw.
  destruct s as [|c [|d s]]; [reflexivity| |].
  - change (lit "r#") with [ch "r"; ch "#"]. cbn [starts_with]. now destruct (char_eqb (ch "r") c).
  - change (lit "r#") with [ch "r"; ch "#"]. cbn [starts_with]. unfold char_eqb.
    rewrite (N.eqb_sym (ch "r") c), (N.eqb_sym (ch "#") d).
    destruct (c =? ch "r")%N; [|reflexivity]. now destruct (d =? ch "#")%N.
Qed.

Lemma names_iff : forall c n, attribute_name c = Some n <-> names c n.
Proof.
  intros c n. split.
  - destruct c as [i a|[c j|t|i]|d cs|e]; cbn; try discriminate; intros H; injection H as <-; constructor.
  - intros H. now destruct H.
Qed.

(** Syntax trees without anything to complain about, and what they stand for. *)
Inductive clean : bool -> icontent -> css_item -> Prop :=
| cl_attr nest n vs : Forall no_braces vs -> clean nest (ICAttr n vs []) (IDecl n vs)
| cl_at nest i p b items :
    Forall no_braces p -> cleans nest b items ->
    clean nest (ICAtRule i p (Some b) []) (IAt (ident_text i) p items)
| cl_nested qs b items :
    Forall no_braces qs -> cleans false b items ->
    clean true (ICNested qs [] b) (IRule qs items)
with cleans : bool -> list icontent -> list css_item -> Prop :=
| cls_nil nest : cleans nest [] []
| cls_cons nest c i l items : clean nest c i -> cleans nest l items -> cleans nest (c :: l) (i :: items).

(** No at-rule ends in a semicolon. *)
Inductive closed : icontent -> Prop :=
| cd_attr n vs es : closed (ICAttr n vs es)
| cd_at i p b es : Forall closed b -> closed (ICAtRule i p (Some b) es)
| cd_nested qs es b : Forall closed b -> closed (ICNested qs es b).

Local Hint Resolve minus_no_quote dollar_no_quote colon_no_quote semi_no_quote at_no_quote : core.

Section Parse.
  Variable expr_of : code -> option expr.
  Notation reads := (reads expr_of).
  Notation reads_all := (reads_all expr_of).
  Notation reads_until := (reads_until expr_of).
  Notation next_component := (next_component expr_of).
  Notation attribute_value := (attribute_value expr_of).
  Notation qualifier := (qualifier expr_of).
  Notation prelude := (prelude expr_of).
  Notation content := (content expr_of).
  Notation contents := (contents expr_of).
  Notation scope_content_p := (scope_content_p expr_of).

  Lemma reads_until_suffix : forall stop l vs r, reads_until stop l vs r -> suffix r l.
  Proof.
    intros stop l vs r H. induction H as [|l c r cs r' _ Hr _ IH]; [now left|]. right.
    eapply suffix_proper; [exact IH|]. eapply reads_proper; eauto.
  Qed.
  Lemma reads_until_stop : forall stop l vs r, reads_until stop l vs r -> stop r.
  Proof. intros stop l vs r H. induction H; auto. Qed.

  (** *** Values of declarations *)

  Lemma attribute_value_ok : forall k l ve r, attribute_value k l = POk ve r ->
    suffix r l /\ at_semicolon r
    /\ (snd ve = [] -> reads_until at_semicolon l (fst ve) r /\ Forall value_ok (fst ve)).
  Proof.
    induction k as [|k IH]; intros l ve r H; cbn [Inline.attribute_value] in H.
    - destruct (peek_punct (ch ";") l) eqn:E; [|discriminate]. injection H as <- <-.
      apply peek_punct_iff in E; auto. split; [now left|]. split; [exact E|]. intros _. split; constructor. exact E.
    - destruct (peek_punct (ch ";") l) eqn:E.
      + injection H as <- <-. apply peek_punct_iff in E; auto. split; [now left|]. split; [exact E|].
        intros _. split; constructor. exact E.
      + destruct (next_component l) as [c r1| |] eqn:Ec; try discriminate. cbn [pbind] in H.
        destruct (attribute_value k r1) as [ve' r2| |] eqn:Ev; try discriminate. cbn [pbind] in H.
        apply next_component_iff in Ec. apply peek_punct_false in E; auto.
        apply IH in Ev. destruct Ev as (S1 & S2 & S3). pose proof (reads_proper _ _ _ _ Ec) as P.
        injection H as H <-. split; [right; eapply suffix_proper; eauto|]. split; auto.
        intros Hn. rewrite <- H in Hn |- *. cbn [fst snd] in *. apply app_eq_nil in Hn. destruct Hn as [Hn1 Hn2].
        rewrite Hn1. destruct (S3 Hn2) as [R V]. split.
        * econstructor; eauto.
        * constructor; auto. now apply validate_attribute_iff.
  Qed.
  Lemma attribute_value_complete : forall l vs r, reads_until at_semicolon l vs r ->
    Forall value_ok vs -> forall k, List.length l < k -> attribute_value k l = POk (vs, []) r.
  Proof.
    intros l vs r H. induction H as [l Hs|l c r cs r' Hs Hc _ IH]; intros V k Hk.
    - destruct k as [|k]; [lia|]. cbn [Inline.attribute_value].
      now rewrite (proj2 (peek_punct_iff _ l semi_no_quote) Hs).
    - destruct k as [|k]; [lia|]. cbn [Inline.attribute_value]. inversion V; subst.
      rewrite (proj2 (peek_punct_false _ l semi_no_quote) Hs). pose proof (reads_proper _ _ _ _ Hc) as P.
      apply proper_length in P.
      rewrite (proj2 (next_component_iff _ l c r) Hc). cbn [pbind]. rewrite IH by (auto; lia). cbn [pbind fst snd].
      now rewrite (proj2 (validate_attribute_iff c) H1).
  Qed.
  Lemma attribute_value_no_fuel : forall k l, List.length l < k -> attribute_value k l <> PFuel.
  Proof.
    induction k as [|k IH]; intros l Hk H; [lia|]. cbn [Inline.attribute_value] in H.
    destruct (peek_punct (ch ";") l); [discriminate|].
    destruct (next_component l) as [c r1| |] eqn:Ec; try discriminate.
    - cbn [pbind] in H. apply next_component_iff in Ec. apply reads_proper, proper_length in Ec.
      destruct (attribute_value k r1) eqn:Ev; try discriminate. apply (IH r1); auto. lia.
    - now apply next_component_no_fuel in Ec.
  Qed.

  (** *** Selectors *)

  Lemma qualifier_ok : forall k l qe r, qualifier k l = POk qe r ->
    suffix r l /\ at_brace r
    /\ (snd qe = [] -> reads_until at_brace l (fst qe) r /\ Forall selector_ok (fst qe)).
  Proof.
    induction k as [|k IH]; intros l qe r H; cbn [Inline.qualifier] in H.
    - destruct (peek_group Brace l) eqn:E; [|discriminate]. injection H as <- <-.
      apply peek_group_iff in E. split; [now left|]. split; [exact E|]. intros _. split; constructor. exact E.
    - destruct (peek_group Brace l) eqn:E.
      + injection H as <- <-. apply peek_group_iff in E. split; [now left|]. split; [exact E|].
        intros _. split; constructor. exact E.
      + destruct (next_component l) as [c r1| |] eqn:Ec; try discriminate. cbn [pbind] in H.
        destruct (validate_selector c) as [e|] eqn:Es; [|discriminate].
        destruct (qualifier k r1) as [qe' r2| |] eqn:Ev; try discriminate. cbn [pbind] in H.
        apply next_component_iff in Ec. apply peek_group_false in E.
        apply IH in Ev. destruct Ev as (S1 & S2 & S3). pose proof (reads_proper _ _ _ _ Ec) as P.
        injection H as H <-. split; [right; eapply suffix_proper; eauto|]. split; auto.
        intros Hn. rewrite <- H in Hn |- *. cbn [fst snd] in *. apply app_eq_nil in Hn. destruct Hn as [-> Hn2].
        destruct (S3 Hn2) as [R V]. split.
        * econstructor; eauto.
        * constructor; auto. now apply validate_selector_iff.
  Qed.
  Lemma qualifier_complete : forall l vs r, reads_until at_brace l vs r ->
    Forall selector_ok vs -> forall k, List.length l < k -> qualifier k l = POk (vs, []) r.
  Proof.
    intros l vs r H. induction H as [l Hs|l c r cs r' Hs Hc _ IH]; intros V k Hk.
    - destruct k as [|k]; [lia|]. cbn [Inline.qualifier].
      now rewrite (proj2 (peek_group_iff Brace l) Hs).
    - destruct k as [|k]; [lia|]. cbn [Inline.qualifier]. inversion V; subst.
      rewrite (proj2 (peek_group_false Brace l) Hs). pose proof (reads_proper _ _ _ _ Hc) as P.
      apply proper_length in P.
      rewrite (proj2 (next_component_iff _ l c r) Hc). cbn [pbind].
      rewrite (proj2 (validate_selector_iff c) H1). rewrite IH by (auto; lia). reflexivity.
  Qed.
  Lemma qualifier_no_fuel : forall k l, List.length l < k -> qualifier k l <> PFuel.
  Proof.
    induction k as [|k IH]; intros l Hk H; [lia|]. cbn [Inline.qualifier] in H.
    destruct (peek_group Brace l); [discriminate|].
    destruct (next_component l) as [c r1| |] eqn:Ec; try discriminate.
    - cbn [pbind] in H. apply next_component_iff in Ec. apply reads_proper, proper_length in Ec.
      destruct (validate_selector c); [|discriminate].
      destruct (qualifier k r1) eqn:Ev; try discriminate. apply (IH r1); auto. lia.
    - now apply next_component_no_fuel in Ec.
  Qed.

  (** *** Conditions of at-rules *)

  Definition at_end (l : list rtok) : Prop := at_semicolon l \/ at_brace l.
  Lemma at_end_iff : forall l, peek_punct (ch ";") l || peek_group Brace l = true <-> at_end l.
  Proof. intros l. rewrite orb_true_iff, (peek_punct_iff _ l semi_no_quote), peek_group_iff. reflexivity. Qed.
  Lemma at_end_false : forall l, peek_punct (ch ";") l || peek_group Brace l = false <-> ~ at_end l.
  Proof.
    intros l. rewrite <- at_end_iff. destruct (peek_punct (ch ";") l || peek_group Brace l); split; intros; auto; try discriminate.
    now elim H.
  Qed.
  Lemma prelude_iff : forall l cs r,
    (exists k, prelude k l = POk cs r) <-> reads_until at_end l cs r.
  Proof.
    intros l cs r. split.
    - intros [k H]. revert l cs r H. induction k as [|k IH]; intros l cs r H; cbn [Inline.prelude] in H.
      + destruct (peek_punct (ch ";") l || peek_group Brace l) eqn:E; [|discriminate]. injection H as <- <-.
        constructor. now apply at_end_iff.
      + destruct (peek_punct (ch ";") l || peek_group Brace l) eqn:E.
        { injection H as <- <-. constructor. now apply at_end_iff. }
        destruct (next_component l) as [c r1| |] eqn:Ec; try discriminate. cbn [pbind] in H.
        destruct (prelude k r1) as [cs' r2| |] eqn:Ev; try discriminate. cbn [pbind] in H. injection H as <- <-.
        econstructor; [now apply at_end_false|apply next_component_iff; exact Ec|eauto].
    - intros H. induction H as [l Hs|l c r cs r' Hs Hc _ [k IH]].
      + exists 0. cbn [Inline.prelude]. now rewrite (proj2 (at_end_iff l) Hs).
      + exists (S k). cbn [Inline.prelude]. rewrite (proj2 (at_end_false l) Hs).
        rewrite (proj2 (next_component_iff _ l c r) Hc). cbn [pbind]. now rewrite IH.
  Qed.
  Lemma prelude_complete : forall l cs r, reads_until at_end l cs r ->
    forall k, List.length l < k -> prelude k l = POk cs r.
  Proof.
    intros l vs r H. induction H as [l Hs|l c r cs r' Hs Hc _ IH]; intros k Hk.
    - destruct k as [|k]; [lia|]. cbn [Inline.prelude]. now rewrite (proj2 (at_end_iff l) Hs).
    - destruct k as [|k]; [lia|]. cbn [Inline.prelude].
      rewrite (proj2 (at_end_false l) Hs). pose proof (reads_proper _ _ _ _ Hc) as P.
      apply proper_length in P.
      rewrite (proj2 (next_component_iff _ l c r) Hc). cbn [pbind]. now rewrite IH by lia.
  Qed.
  Lemma prelude_no_fuel : forall k l, List.length l < k -> prelude k l <> PFuel.
  Proof.
    induction k as [|k IH]; intros l Hk H; [lia|]. cbn [Inline.prelude] in H.
    destruct (peek_punct (ch ";") l || peek_group Brace l); [discriminate|].
    destruct (next_component l) as [c r1| |] eqn:Ec; try discriminate.
    - cbn [pbind] in H. apply next_component_iff in Ec. apply reads_proper, proper_length in Ec.
      destruct (prelude k r1) eqn:Ev; try discriminate. apply (IH r1); auto. lia.
    - now apply next_component_no_fuel in Ec.
  Qed.

  (** *** Which kind of item *)

  Lemma punct_reads : forall c j r, c <> 39%N -> c <> ch "-" -> c <> ch "$" ->
    reads (RPunct c j :: r) (CToken (PPunct c j)) r.
  Proof.
    intros c j r H1 H2 H3. constructor; [exact H1| |intros; now elim H3].
    intros [(s & r' & H)|(j' & t & p & r' & H & _)]; [discriminate|]. injection H as H _ _. auto.
  Qed.
  Lemma reads_punct_inv : forall l c j r, reads l (CToken (PPunct c j)) r -> l = RPunct c j :: r.
  Proof. intros l c j r H. inversion H; subst; auto. Qed.

  Lemma scope_S : forall n l,
    let rules g := many_left (scope_content_p n) (List.length g) g in
    ((forall c r, ~ reads l c r) /\ scope_content_p (S n) l = PErr)
    \/ ((exists c r, reads l c r)
        /\ ((starts_at_rule l /\ scope_content_p (S n) l = at_rule_with expr_of rules l)
            \/ (~ starts_at_rule l /\ starts_declaration expr_of l /\ scope_content_p (S n) l = attribute expr_of l)
            \/ (~ starts_at_rule l /\ ~ starts_declaration expr_of l
                /\ scope_content_p (S n) l = qualified_rule_with expr_of rules l))).
  Proof.
    intros n l rules.
    assert (U : scope_content_p (S n) l =
        match next_component l with
        | PErr => PErr
        | PFuel => PFuel
        | POk (CToken (PPunct p j)) r =>
            if char_eqb p (ch "@") then at_rule_with expr_of rules l else qualified_rule_with expr_of rules l
        | POk c r =>
            match attribute_name c with
            | None => qualified_rule_with expr_of rules l
            | Some _ =>
                match next_component r with
                | POk (CToken (PPunct p j)) _ =>
                    if char_eqb p (ch ":") then attribute expr_of l else qualified_rule_with expr_of rules l
                | PFuel => PFuel
                | _ => qualified_rule_with expr_of rules l
                end
            end
        end) by reflexivity.
    rewrite U. clear U.
    destruct (next_component l) as [c r| |] eqn:Ec.
    2:{ left. split; auto. intros c r H. apply next_component_iff in H. congruence. }
    2:{ now apply next_component_no_fuel in Ec. }
    right. apply next_component_iff in Ec. split; [eauto|].
    destruct (attribute_name c) as [nm|] eqn:En.
    - apply names_iff in En.
      assert (NA : ~ starts_at_rule l).
      { intros (j & r' & ->). assert (R := punct_reads (ch "@") j r' ltac:(discriminate) ltac:(discriminate) ltac:(discriminate)).
        destruct (reads_fun _ _ _ _ _ _ Ec R) as [-> _]. inversion En. }
      assert (D : forall j r', r = RPunct (ch ":") j :: r' -> starts_declaration expr_of l).
      { intros j r' ->. exists c, nm, j, r'. auto. }
      assert (ND : (forall j r', r <> RPunct (ch ":") j :: r') -> ~ starts_declaration expr_of l).
      { intros Hn (c' & n' & j & r' & H & _). destruct (reads_fun _ _ _ _ _ _ Ec H) as [_ ->]. now apply (Hn j r'). }
      assert (ND2 : (forall j r', next_component r <> POk (CToken (PPunct (ch ":") j)) r') -> ~ starts_declaration expr_of l).
      { intros Hn. apply ND. intros j r' ->. apply (Hn j r'). apply next_component_iff.
        apply punct_reads; discriminate. }
      assert (M : (starts_declaration expr_of l /\
          match next_component r with
                | POk (CToken (PPunct p j)) _ =>
                    if char_eqb p (ch ":") then attribute expr_of l else qualified_rule_with expr_of rules l
                | PFuel => PFuel
                | _ => qualified_rule_with expr_of rules l
                end = attribute expr_of l) \/ (~ starts_declaration expr_of l /\
          match next_component r with
                | POk (CToken (PPunct p j)) _ =>
                    if char_eqb p (ch ":") then attribute expr_of l else qualified_rule_with expr_of rules l
                | PFuel => PFuel
                | _ => qualified_rule_with expr_of rules l
                end = qualified_rule_with expr_of rules l)).
      { destruct (next_component r) as [c2 r2| |] eqn:E2.
        - destruct c2 as [i a|[p j|t|i]|d cs|e]; try (right; split; [apply ND2; discriminate|reflexivity]).
          destruct (char_eqb p (ch ":")) eqn:Ep.
          + left. split; auto. apply char_eqb_true in Ep. subst p. apply next_component_iff, reads_punct_inv in E2. eauto.
          + right. split; auto. apply ND2. intros j' r' H. injection H as -> _ _. now rewrite char_eqb_refl in Ep.
        - right. split; auto. apply ND2. discriminate.
        - now apply next_component_no_fuel in E2. }
      right. inversion En; subst; cbn [attribute_name]; destruct M as [[M1 M2]|[M1 M2]]; [left|right|left|right]; auto.
    - assert (ND : ~ starts_declaration expr_of l).
      { intros (c' & n' & j & r' & H & Hn). destruct (reads_fun _ _ _ _ _ _ Ec H) as [<- _].
        apply names_iff in Hn. congruence. }
      destruct c as [i a|[p j|t|i]|d cs|e]; try discriminate En; cbn [attribute_name].
      + right. right. split; auto. intros (j & r' & ->).
        assert (R := punct_reads (ch "@") j r' ltac:(discriminate) ltac:(discriminate) ltac:(discriminate)).
        now destruct (reads_fun _ _ _ _ _ _ Ec R).
      + destruct (char_eqb p (ch "@")) eqn:Ep.
        * left. split; auto. apply char_eqb_true in Ep. subst p. apply reads_punct_inv in Ec. exists j, r. auto.
        * right. right. split; auto. intros (j' & r' & ->). apply reads_punct_inv in Ec. injection Ec as H _ _.
          subst p. now rewrite char_eqb_refl in Ep.
      + right. right. split; auto. intros (j & r' & ->).
        assert (R := punct_reads (ch "@") j r' ltac:(discriminate) ltac:(discriminate) ltac:(discriminate)).
        now destruct (reads_fun _ _ _ _ _ _ Ec R).
      + right. right. split; auto. intros (j & r' & ->).
        assert (R := punct_reads (ch "@") j r' ltac:(discriminate) ltac:(discriminate) ltac:(discriminate)).
        now destruct (reads_fun _ _ _ _ _ _ Ec R).
  Qed.

  (** *** From syntax trees back to the grammar *)

  Lemma expect_iff : forall c l r, c <> 39%N ->
    (expect c l = POk tt r <-> exists j, l = RPunct c j :: r).
  Proof.
    intros c l r Hc. unfold expect. split.
    - destruct (peek_punct c l) eqn:E; [|discriminate]. apply peek_punct_iff in E; auto.
      destruct E as (j & r' & ->). cbn. intros H. injection H as <-. eauto.
    - intros (j & ->). now rewrite (proj2 (peek_punct_iff c (RPunct c j :: r) Hc) (ex_intro _ j (ex_intro _ r eq_refl))).
  Qed.
  Lemma scope_with_inv : forall (p : list rtok -> pres (list icontent)) l b r,
    scope_with p l = POk b r -> exists g r', l = RGroup Brace g :: r /\ p g = POk b r'.
  Proof.
    intros p [|[s|c j|t|[| |] g] l] b r H; try discriminate. cbn in H.
    destruct (p g) as [b' r'| |] eqn:E; try discriminate. cbn in H. injection H as <- <-. eauto.
  Qed.
  Lemma at_semicolon_not_brace : forall g r, ~ at_semicolon (RGroup Brace g :: r).
  Proof. intros g r (j & r' & H). discriminate. Qed.

  Lemma attribute_ok : forall l c r, attribute expr_of l = POk c r ->
    proper r l /\ closed c /\ (forall nest i, clean nest c i -> content nest l i r).
  Proof.
    intros l c r H. unfold attribute in H.
    destruct (next_component l) as [cn r0| |] eqn:E0; try discriminate. cbn [pbind] in H.
    destruct (attribute_name cn) as [nm|] eqn:En; [|discriminate].
    destruct (expect (ch ":") r0) as [[] r1| |] eqn:E1; try discriminate. cbn [pbind] in H.
    destruct (attribute_value (S (List.length r1)) r1) as [ve r2| |] eqn:E2; try discriminate. cbn [pbind] in H.
    destruct (expect (ch ";") r2) as [[] r3| |] eqn:E3; try discriminate. cbn [pbind] in H.
    injection H as <- <-.
    apply next_component_iff in E0. apply names_iff in En. apply expect_iff in E1; auto. destruct E1 as (j & ->).
    apply expect_iff in E3; auto. destruct E3 as (j' & ->).
    apply attribute_value_ok in E2. destruct E2 as (S1 & S2 & S3).
    split; [|split].
    - eapply proper_trans; [|eapply reads_proper; exact E0]. eapply proper_trans; [|apply proper_tl].
      eapply proper_suffix; [apply proper_tl|exact S1].
    - constructor.
    - intros nest i Hc. destruct ve as [vs es]. cbn [fst snd] in *. inversion Hc; subst.
      destruct (S3 eq_refl) as [R V]. econstructor; eauto.
  Qed.

  Lemma at_rule_names_iff : forall i,
    existsb (str_eqb (ident_string i)) at_rule_names = true
    <-> ident_text i = lit "media" \/ ident_text i = lit "supports".
  Proof.
    intros i. rewrite ident_string_text. unfold at_rule_names. cbn [existsb]. rewrite orb_false_r, orb_true_iff.
    now rewrite !str_eqb_eq.
  Qed.

  (** What holds of the contents of a scope. *)
  Definition rules_ok (g : list rtok) (b : list icontent) : Prop :=
    ~ at_semicolon g /\ Forall closed b /\ forall nest items, cleans nest b items -> contents nest g items.

  Lemma at_rule_ok : forall p l c r,
    (forall g b r', p g = POk b r' -> toks_size g < toks_size l -> rules_ok g b) ->
    at_rule_with expr_of p l = POk c r ->
    proper r l /\ (closed c \/ at_semicolon r)
    /\ (forall nest i, clean nest c i -> content nest l i r).
  Proof.
    intros p l c r Hp H. unfold at_rule_with in H.
    destruct (expect (ch "@") l) as [[] r0| |] eqn:E0; try discriminate. cbn [pbind] in H.
    apply expect_iff in E0; auto. destruct E0 as (j & ->).
    destruct (parse_ident r0) as [[i r1]|] eqn:E1; [|discriminate]. apply parse_ident_iff in E1.
    destruct (prelude (S (List.length r1)) r1) as [cs r2| |] eqn:E2; try discriminate. cbn [pbind] in H.
    assert (R2 : reads_until at_end r1 cs r2) by (apply prelude_iff; eauto).
    pose proof (reads_until_suffix _ _ _ _ R2) as S2. pose proof (reads_ident_suffix _ _ _ E1) as S1.
    assert (P2 : proper r2 (RPunct (ch "@") j :: r0)).
    { eapply proper_trans; [|apply proper_tl]. eapply suffix_proper; [exact S2|]. exact S1. }
    destruct (peek_punct (ch ";") r2) eqn:Es.
    - injection H as <- <-. apply peek_punct_iff in Es; auto. split; auto. split; auto.
      intros nest i' Hc. inversion Hc.
    - destruct (scope_with p r2) as [b r3| |] eqn:E3; try discriminate. cbn [pbind] in H.
      apply scope_with_inv in E3. destruct E3 as (g & r' & -> & Eg).
      assert (P3 : proper r3 (RPunct (ch "@") j :: r0)) by (eapply proper_trans; [apply proper_tl|exact P2]).
      destruct (Hp _ _ _ Eg) as (_ & C & K).
      { apply proper_size in P2. rewrite (toks_size_cons (RGroup Brace g)), tok_size_group in P2. lia. }
      injection H as <- <-. split; auto. split; [left; now constructor|].
      intros nest i' Hc. inversion Hc; subst.
      assert (En : existsb (str_eqb (ident_string i)) at_rule_names = true)
        by (cbn [existsb at_rule_names];
            destruct (str_eqb (ident_string i) (lit "media") || (str_eqb (ident_string i) (lit "supports") || false)); congruence).
      apply at_rule_names_iff in En. apply ct_at_rule with (r := r1) (g := g); auto.
  Qed.

  Lemma qualified_rule_ok : forall p l c r,
    (forall g b r', p g = POk b r' -> toks_size g < toks_size l -> rules_ok g b) ->
    ~ starts_at_rule l -> ~ starts_declaration expr_of l ->
    qualified_rule_with expr_of p l = POk c r ->
    proper r l /\ closed c
    /\ (forall nest i, clean nest c i -> content nest l i r).
  Proof.
    intros p l c r Hp NA ND H. unfold qualified_rule_with in H.
    destruct (qualifier (S (List.length l)) l) as [qe r1| |] eqn:E1; try discriminate. cbn [pbind] in H.
    apply qualifier_ok in E1. destruct E1 as (S1 & S2 & S3).
    destruct (scope_with p r1) as [b r2| |] eqn:E3; try discriminate. cbn [pbind] in H. injection H as <- <-.
    apply scope_with_inv in E3. destruct E3 as (g & r' & -> & Eg).
    destruct (Hp _ _ _ Eg) as (_ & C & K).
    { apply suffix_size in S1. rewrite (toks_size_cons (RGroup Brace g)), tok_size_group in S1. lia. }
    split; [eapply proper_suffix; [apply proper_tl|exact S1]|]. split; [now constructor|].
    intros nest i Hc. destruct qe as [qs es]. cbn [fst snd] in *. inversion Hc; subst.
    destruct (S3 eq_refl) as [R V]. econstructor; eauto.
  Qed.

  Lemma at_semicolon_refused : forall n l c r, at_semicolon l -> scope_content_p n l <> POk c r.
  Proof.
    intros [|n] l c r (j & l' & ->); [discriminate|].
    assert (R := punct_reads (ch ";") j l' ltac:(discriminate) ltac:(discriminate) ltac:(discriminate)).
    destruct (scope_S n (RPunct (ch ";") j :: l')) as [[Hn E]|[_ [[[j' (r' & Ha)] _]|[[_ [(c' & n' & j' & r' & H & Hn) _]]|(_ & _ & E)]]]].
    - rewrite E. discriminate.
    - discriminate.
    - destruct (reads_fun _ _ _ _ _ _ R H) as [<- _]. inversion Hn.
    - rewrite E. unfold qualified_rule_with. cbn [List.length Inline.qualifier peek_group].
      rewrite (proj2 (next_component_iff _ _ _ _) R). cbn. discriminate.
  Qed.

  Lemma scope_content_ok : forall n l c r, toks_size l < n -> scope_content_p n l = POk c r ->
    proper r l /\ (closed c \/ at_semicolon r)
    /\ (forall nest i, clean nest c i -> content nest l i r).
  Proof.
    induction n as [|n IH]; intros l c r Hs H; [discriminate|].
    assert (M : forall g b r', many_left (scope_content_p n) (List.length g) g = POk b r' ->
                  toks_size g < toks_size l -> rules_ok g b).
    { intros g b r' Hm Hg.
      destruct (many_left_ok _ (scope_content_p n)
                  (fun l c r => ~ at_semicolon l /\ (closed c \/ at_semicolon r)
                                /\ (forall nest i, clean nest c i -> content nest l i r)) n)
        with (k := List.length g) (l := g) (al := b) (r := r') as [_ HR]; auto; try lia.
      { intros l0 a r0 Hl Ha. destruct (IH _ _ _ Hl Ha) as (Q1 & Q2 & Q3). repeat (split; auto).
        intros Hat. now apply (at_semicolon_refused n l0 a r0 Hat). }
      apply HR.
      - split; [intros (j & x & Hx); discriminate|]. split; [constructor|]. intros nest items Hc. inversion Hc. constructor.
      - intros l0 a r0 al (Q1 & Q2 & Q3) (R1 & R2 & R3). split; auto. split.
        + constructor; auto. destruct Q2; auto. contradiction.
        + intros nest items Hc. inversion Hc; subst. econstructor; eauto. }
    destruct (scope_S n l) as [[Hn E]|[_ [[_ E]|[(_ & _ & E)|(NA & ND & E)]]]]; rewrite E in H.
    - discriminate.
    - eapply at_rule_ok; [exact M|exact H].
    - apply attribute_ok in H. intuition.
    - apply qualified_rule_ok in H; auto. intuition.
  Qed.

  Lemma scopes_ok : forall n k l cs r, toks_size l < n -> many_left (scope_content_p n) k l = POk cs r ->
    rules_ok l cs.
  Proof.
    intros n k l cs r Hs Hm.
    destruct (many_left_ok _ (scope_content_p n)
                  (fun l c r => ~ at_semicolon l /\ (closed c \/ at_semicolon r)
                                /\ (forall nest i, clean nest c i -> content nest l i r)) n)
      with (k := k) (l := l) (al := cs) (r := r) as [_ HR]; auto; try lia.
    { intros l0 a r0 Hl Ha. destruct (scope_content_ok _ _ _ _ Hl Ha) as (Q1 & Q2 & Q3). repeat (split; auto).
      intros Hat. now apply (at_semicolon_refused n l0 a r0 Hat). }
    apply HR.
    - split; [intros (j & x & Hx); discriminate|]. split; [constructor|]. intros nest items Hc. inversion Hc. constructor.
    - intros l0 a r0 al (Q1 & Q2 & Q3) (R1 & R2 & R3). split; auto. split.
      + constructor; auto. destruct Q2; auto. contradiction.
      + intros nest items Hc. inversion Hc; subst. econstructor; eauto.
  Qed.

  (** *** No fuel *)

  Lemma attribute_no_fuel : forall l, attribute expr_of l <> PFuel.
  Proof.
    intros l H. unfold attribute in H.
    destruct (next_component l) as [cn r0| |] eqn:E0; try discriminate; [|now apply next_component_no_fuel in E0].
    cbn [pbind] in H. destruct (attribute_name cn) as [nm|] eqn:En; [|discriminate].
    unfold expect in H. destruct (peek_punct (ch ":") r0); [|discriminate]. cbn [pbind] in H.
    destruct (attribute_value (S (List.length (tl r0))) (tl r0)) as [ve r2| |] eqn:E2; try discriminate;
      [|now apply attribute_value_no_fuel in E2; auto].
    cbn [pbind] in H. destruct (peek_punct (ch ";") r2); discriminate.
  Qed.
  Lemma scope_with_no_fuel : forall (p : list rtok -> pres (list icontent)) l,
    (forall g, toks_size g < toks_size l -> p g <> PFuel) -> scope_with p l <> PFuel.
  Proof.
    intros p [|[s|c j|t|[| |] g] l] Hp; try discriminate. cbn. intros H.
    destruct (p g) eqn:E; try discriminate. apply (Hp g); auto. rewrite toks_size_cons, tok_size_group. lia.
  Qed.
  Lemma at_rule_no_fuel : forall p l,
    (forall g, toks_size g < toks_size l -> p g <> PFuel) -> at_rule_with expr_of p l <> PFuel.
  Proof.
    intros p l Hp H. unfold at_rule_with in H.
    destruct (expect (ch "@") l) as [[] r0| |] eqn:E0; try discriminate.
    2:{ unfold expect in E0. now destruct (peek_punct (ch "@") l). }
    cbn [pbind] in H. apply expect_iff in E0; auto. destruct E0 as (j & ->).
    destruct (parse_ident r0) as [[i r1]|] eqn:E1; [|discriminate]. apply parse_ident_iff, reads_ident_suffix in E1.
    destruct (prelude (S (List.length r1)) r1) as [cs r2| |] eqn:E2; try discriminate;
      [|now apply prelude_no_fuel in E2; auto].
    cbn [pbind] in H. destruct (peek_punct (ch ";") r2); [discriminate|].
    destruct (scope_with p r2) eqn:E3; try discriminate. revert E3. apply scope_with_no_fuel. intros g Hg. apply Hp.
    assert (R2 : reads_until at_end r1 cs r2) by (apply prelude_iff; eauto).
    apply reads_until_suffix, suffix_size in R2. apply (proper_size r1) in E1. rewrite toks_size_cons. lia.
  Qed.
  Lemma qualified_rule_no_fuel : forall p l,
    (forall g, toks_size g < toks_size l -> p g <> PFuel) -> qualified_rule_with expr_of p l <> PFuel.
  Proof.
    intros p l Hp H. unfold qualified_rule_with in H.
    destruct (qualifier (S (List.length l)) l) as [qe r1| |] eqn:E1; try discriminate;
      [|now apply qualifier_no_fuel in E1; auto].
    cbn [pbind] in H. apply qualifier_ok in E1. destruct E1 as (S1 & _). apply suffix_size in S1.
    destruct (scope_with p r1) eqn:E3; try discriminate. revert E3. apply scope_with_no_fuel. intros g Hg. apply Hp. lia.
  Qed.
  Lemma scope_content_no_fuel : forall n l, toks_size l < n -> scope_content_p n l <> PFuel.
  Proof.
    induction n as [|n IH]; intros l Hs; [lia|].
    assert (M : forall g, toks_size g < toks_size l -> many_left (scope_content_p n) (List.length g) g <> PFuel).
    { intros g Hg. apply (many_left_no_fuel _ (scope_content_p n) n); auto; try lia.
      intros l0 a r0 Hl Ha. now apply scope_content_ok in Ha. }
    destruct (scope_S n l) as [[Hn E]|[_ [[_ E]|[(_ & _ & E)|(NA & ND & E)]]]]; rewrite E.
    - discriminate.
    - now apply at_rule_no_fuel.
    - apply attribute_no_fuel.
    - now apply qualified_rule_no_fuel.
  Qed.
  Lemma root_no_fuel : forall l, root expr_of l <> PFuel.
  Proof.
    intros l. unfold root. apply (many_left_no_fuel _ _ (S (toks_size l))); auto.
    - apply scope_content_no_fuel.
    - intros l0 a r0 Hl Ha. now apply scope_content_ok in Ha.
  Qed.

  (** *** From the grammar to syntax trees *)

  Lemma reads_until_all : forall stop l vs r cs, reads_until stop l vs r -> reads_all r cs -> reads_all l (vs ++ cs).
  Proof.
    intros stop l vs r cs H Hr. induction H; auto. cbn. econstructor; eauto.
  Qed.
  Lemma reads_all_cons_inv : forall d g r cs, reads_all (RGroup d g :: r) cs ->
    exists gs cs', cs = CBlk d gs :: cs' /\ reads_all g gs /\ reads_all r cs'.
  Proof.
    intros d g r cs H. inversion H; subst. inversion H0; subst; eauto; now apply starts_ident_no_group in H2.
  Qed.
  Lemma reads_ident_all : forall l i r cs, starts_ident l -> reads_ident l i r -> reads_all r cs ->
    exists cs', reads_all l cs'.
  Proof.
    intros l i r cs Hs Hi Hr.
    assert (G : (exists g r', r = RGroup Paren g :: r') \/ forall g r', r <> RGroup Paren g :: r').
    { destruct r as [|[s|c j|t|[| |] g] r]; eauto; right; discriminate. }
    destruct G as [(g & r' & ->)|G].
    - apply reads_all_cons_inv in Hr. destruct Hr as (gs & cs' & _ & R1 & R2).
      eexists. econstructor; [eapply rd_function|]; eauto.
    - eexists. econstructor; [eapply rd_ident|]; eauto.
  Qed.
  Lemma text_starts_ident : forall l i r c s, reads_ident l i r -> ident_text i = c :: s -> c <> ch "-" ->
    starts_ident l.
  Proof.
    intros l i r c s H E Hc. destruct H as [t p l ps r Ht _]. destruct Ht as [j|x].
    - unfold ident_text in E. cbn [map List.concat part_text] in E. injection E as E _. now elim Hc.
    - left. eauto.
  Qed.
  Lemma content_reads :
    (forall nest l i r, content nest l i r -> forall cs, reads_all r cs -> exists cs', reads_all l cs')
    /\ (forall nest l items, contents nest l items -> exists cs', reads_all l cs').
  Proof.
    apply content_mutind.
    - intros nest l c name j r vs j' r' Hr _ Hu _ cs Hcs. eexists. econstructor; [exact Hr|].
      econstructor; [apply punct_reads; discriminate|]. eapply reads_until_all; [exact Hu|].
      econstructor; [apply punct_reads; discriminate|exact Hcs].
    - intros nest j l i r p g body r' Hi Ht Hu _ _ [gs Hg] cs Hcs.
      destruct (reads_ident_all l i r) with (cs := p ++ CBlk Brace gs :: cs) as [cs' H]; auto.
      + destruct Ht as [Ht|Ht]; (eapply text_starts_ident; [exact Hi|exact Ht|discriminate]).
      + eapply reads_until_all; [exact Hu|]. econstructor; [constructor; exact Hg|exact Hcs].
      + eexists. econstructor; [apply punct_reads; discriminate|exact H].
    - intros l sel g body r _ _ Hu _ _ _ [gs Hg] cs Hcs. eexists. eapply reads_until_all; [exact Hu|].
      econstructor; [constructor; exact Hg|exact Hcs].
    - intros nest. eexists. constructor.
    - intros nest l i r items _ IH _ [cs Hcs]. eauto.
  Qed.

  Lemma content_proper : forall nest l i r, content nest l i r -> proper r l.
  Proof.
    intros nest l i r H. destruct H as [nest l c name j r vs j' r' Hr _ Hu _|nest j l i r p g body r' Hi Ht Hu _ _|l sel g body r _ _ Hu _ _ _].
    - eapply proper_trans; [|eapply reads_proper; exact Hr]. eapply proper_trans; [|apply proper_tl].
      eapply proper_suffix; [apply proper_tl|]. eapply reads_until_suffix; eauto.
    - eapply proper_trans; [|apply proper_tl]. eapply proper_trans; [|exact (reads_ident_suffix _ _ _ Hi)].
      eapply proper_suffix; [apply proper_tl|]. eapply reads_until_suffix; eauto.
    - eapply proper_suffix; [apply proper_tl|]. eapply reads_until_suffix; eauto.
  Qed.

  Lemma at_rule_not_declaration : forall l, starts_at_rule l -> ~ starts_declaration expr_of l.
  Proof.
    intros l (j & r & ->) (c & n & j' & r' & H & Hn).
    assert (R := punct_reads (ch "@") j r ltac:(discriminate) ltac:(discriminate) ltac:(discriminate)).
    destruct (reads_fun _ _ _ _ _ _ R H) as [<- _]. inversion Hn.
  Qed.

  Lemma content_complete :
    (forall nest l i r, content nest l i r -> forall n, toks_size l < n ->
       exists c, scope_content_p n l = POk c r /\ clean nest c i)
    /\ (forall nest l items, contents nest l items -> forall n k, toks_size l < n -> List.length l <= k ->
       exists cs, many_left (scope_content_p n) k l = POk cs [] /\ cleans nest cs items).
  Proof.
    apply content_mutind.
    - intros nest l c name j r vs j' r' Hr Hn Hu V n Hs. destruct n as [|n]; [lia|].
      assert (D : starts_declaration expr_of l) by (exists c, name, j, r; auto).
      destruct (scope_S n l) as [[Hx E]|[_ [[Ha E]|[(_ & _ & E)|(NA & ND & E)]]]].
      + elim (Hx _ _ Hr).
      + elim (at_rule_not_declaration l Ha D).
      + exists (ICAttr name vs []). split; [|constructor; eapply Forall_impl; [apply value_no_braces|exact V]]. rewrite E. unfold attribute.
        rewrite (proj2 (next_component_iff _ _ _ _) Hr). cbn [pbind].
        rewrite (proj2 (names_iff _ _) Hn).
        rewrite (proj2 (expect_iff _ _ _ colon_no_quote) (ex_intro _ j eq_refl)). cbn [pbind].
        rewrite (attribute_value_complete _ _ _ Hu V) by lia. cbn [pbind].
        rewrite (proj2 (expect_iff _ _ _ semi_no_quote) (ex_intro _ j' eq_refl)). reflexivity.
      + now elim ND.
    - intros nest j l i r p g body r' Hi Ht Hu Hb Hc IH n Hs. destruct n as [|n]; [lia|].
      pose proof (reads_until_suffix _ _ _ _ Hu) as Su. apply suffix_size in Su.
      pose proof (proper_size _ _ (reads_ident_suffix _ _ _ Hi)) as Si.
      rewrite toks_size_cons, tok_size_group in Su. rewrite toks_size_cons in Hs.
      destruct (IH n (List.length g)) as (b & Eb & Cb); try lia; auto.
      assert (A : starts_at_rule (RPunct (ch "@") j :: l)) by (exists j, l; auto).
      assert (R := punct_reads (ch "@") j l ltac:(discriminate) ltac:(discriminate) ltac:(discriminate)).
      destruct (scope_S n (RPunct (ch "@") j :: l)) as [[Hx E]|[_ [[_ E]|[(NA & _ & E)|(NA & ND & E)]]]].
      + elim (Hx _ _ R).
      + exists (ICAtRule i p (Some b) []). split; [|now constructor]. rewrite E. unfold at_rule_with.
        rewrite (proj2 (expect_iff _ _ _ at_no_quote) (ex_intro _ j eq_refl)). cbn [pbind].
        rewrite (proj2 (parse_ident_iff _ _ _) Hi). rewrite (proj2 (at_rule_names_iff i) Ht).
        rewrite (prelude_complete _ _ _ Hu) by lia. cbn [pbind peek_punct scope_with]. rewrite Eb. reflexivity.
      + now elim NA.
      + now elim NA.
    - intros l sel g body r NA ND Hu Hso Hnb Hc IH n Hs. destruct n as [|n]; [lia|].
      pose proof (reads_until_suffix _ _ _ _ Hu) as Su. apply suffix_size in Su.
      rewrite toks_size_cons, tok_size_group in Su.
      destruct (IH n (List.length g)) as (b & Eb & Cb); try lia; auto.
      destruct (scope_S n l) as [[Hx E]|[_ [[Ha E]|[(_ & Hd & E)|(_ & _ & E)]]]].
      + destruct (proj2 content_reads _ _ _ Hc) as [gs Hg].
        inversion Hu; subst.
        * elim (Hx (CBlk Brace gs) r). now constructor.
        * elim (Hx _ _ H0).
      + now elim NA.
      + now elim ND.
      + exists (ICNested sel [] b). split; [|now constructor]. rewrite E. unfold qualified_rule_with.
        rewrite (qualifier_complete _ _ _ Hu Hso) by lia. cbn [pbind scope_with fst snd]. rewrite Eb. reflexivity.
    - intros nest n k _ _. exists []. split; [destruct k; reflexivity|constructor].
    - intros nest l i r items Hc IH _ IHs n k Hs Hk. pose proof (content_proper _ _ _ _ Hc) as P.
      pose proof (proper_size _ _ P). pose proof (proper_length _ _ P).
      destruct (IH n Hs) as (c & E & Cc). destruct k as [|k]; [lia|].
      destruct (IHs n k) as (cs & Ecs & Ccs); try lia.
      exists (c :: cs). split; [|now constructor]. destruct l as [|t l]; [now destruct P as (t & x & P)|].
      cbn [many_left]. rewrite E. cbn [pbind]. rewrite Ecs. reflexivity.
  Qed.
End Parse.
