(** * InlineFacts: the parser of the inline macros reads what the grammar says. *)

From Coq Require Import String Ascii List NArith Bool Arith Lia.
From Verif Require Import Str Ast Tok Output Inline SpecInline.
Import ListNotations.
Local Open Scope list_scope.

Scheme reads_ind2 := Minimality for reads Sort Prop
  with reads_all_ind2 := Minimality for reads_all Sort Prop.
Combined Scheme reads_mutind from reads_ind2, reads_all_ind2.
Scheme content_ind2 := Minimality for content Sort Prop
  with contents_ind2 := Minimality for contents Sort Prop.
Combined Scheme content_mutind from content_ind2, contents_ind2.

(** ** Looking ahead *)

Lemma char_eqb_refl : forall c, char_eqb c c = true.
Proof. intros c. apply N.eqb_refl. Qed.
Lemma char_eqb_true : forall c d, char_eqb c d = true -> c = d.
Proof. intros c d. apply N.eqb_eq. Qed.
Lemma char_eqb_false : forall c d, char_eqb c d = false -> c <> d.
Proof. intros c d. apply N.eqb_neq. Qed.
Lemma char_eqb_neq : forall c d, c <> d -> char_eqb c d = false.
Proof. intros c d. apply N.eqb_neq. Qed.

Lemma peek_punct_iff : forall c l, c <> 39%N ->
  (peek_punct c l = true <-> exists j r, l = RPunct c j :: r).
Proof.
  intros c l Hc. split.
  - destruct l as [|[s|d j|t|d g] r]; cbn; try discriminate. intros H.
    apply andb_true_iff in H. destruct H as [H _]. apply char_eqb_true in H. subst. eauto.
  - intros (j & r & ->). cbn. now rewrite char_eqb_refl, (char_eqb_neq c 39 Hc).
Qed.
Lemma peek_punct_false : forall c l, c <> 39%N ->
  (peek_punct c l = false <-> ~ exists j r, l = RPunct c j :: r).
Proof.
  intros c l Hc. rewrite <- (peek_punct_iff c l Hc). destruct (peek_punct c l); split; intros; auto; try discriminate.
  now elim H.
Qed.
Lemma peek_group_iff : forall d l, peek_group d l = true <-> exists g r, l = RGroup d g :: r.
Proof.
  intros d l. split.
  - destruct l as [|[s|c j|t|e g] r]; cbn; try discriminate.
    destruct d, e; try discriminate; eauto.
  - intros (g & r & ->). now destruct d.
Qed.
Lemma peek_group_false : forall d l, peek_group d l = false <-> ~ exists g r, l = RGroup d g :: r.
Proof.
  intros d l. rewrite <- peek_group_iff. destruct (peek_group d l); split; intros; auto; try discriminate.
  now elim H.
Qed.
Lemma peek_ident_iff : forall l, peek_ident l = true <-> exists s r, l = RIdent s :: r.
Proof.
  intros l. split.
  - destruct l as [|[s|c j|t|e g] r]; cbn; try discriminate; eauto.
  - intros (s & r & ->). reflexivity.
Qed.

Lemma minus_no_quote : ch "-" <> 39%N.
Proof. discriminate. Qed.
Lemma dollar_no_quote : ch "$" <> 39%N.
Proof. discriminate. Qed.
Lemma colon_no_quote : ch ":" <> 39%N.
Proof. discriminate. Qed.
Lemma semi_no_quote : ch ";" <> 39%N.
Proof. discriminate. Qed.
Lemma at_no_quote : ch "@" <> 39%N.
Proof. discriminate. Qed.
Local Hint Resolve minus_no_quote dollar_no_quote colon_no_quote semi_no_quote at_no_quote : core.

Lemma css_peek_iff : forall l, css_peek l = true <-> starts_ident l.
Proof.
  intros l. unfold css_peek, starts_ident. destruct (peek_punct (ch "-") l) eqn:E.
  - apply peek_punct_iff in E; auto. destruct E as (j & r & ->). cbn [tl]. rewrite orb_true_iff. split.
    + intros [H|H].
      * apply peek_punct_iff in H; auto. destruct H as (j' & r' & ->). right. do 4 eexists. split; eauto. constructor.
      * apply peek_ident_iff in H. destruct H as (s & r' & ->). right. do 4 eexists. split; eauto. constructor.
    + intros [(s & r' & H)|(j' & t & p & r' & H & Hp)]; [discriminate|]. injection H as <- ->.
      inversion Hp; subst.
      * left. apply peek_punct_iff; eauto.
      * right. apply peek_ident_iff; eauto.
  - apply peek_punct_false in E; auto. rewrite peek_ident_iff. split.
    + auto.
    + intros [H|(j' & t & p & r' & H & Hp)]; auto. elim E. eauto.
Qed.
Lemma css_peek_false : forall l, css_peek l = false <-> ~ starts_ident l.
Proof.
  intros l. rewrite <- css_peek_iff. destruct (css_peek l); split; intros; auto; try discriminate. now elim H.
Qed.

(** ** Identifiers *)

Lemma joins_dash : forall p j,
  joins p (IPDash j) <-> match p with IPDash k => k = true | IPIdent _ => True end.
Proof.
  intros p j. split.
  - intros H. inversion H; auto.
  - destruct p as [k|s]; intros H; subst; constructor.
Qed.
Lemma joins_ident : forall p s,
  joins p (IPIdent s) <-> match p with IPDash k => True | IPIdent _ => False end.
Proof.
  intros p s. split.
  - intros H. inversion H; auto.
  - destruct p as [k|s']; intros H; [constructor|easy].
Qed.

Lemma ident_loop_cons : forall p t l,
  (exists q, is_part t q /\ joins p q
             /\ ident_loop p (t :: l) = (q :: fst (ident_loop q l), snd (ident_loop q l)))
  \/ ((forall q, is_part t q -> ~ joins p q) /\ ident_loop p (t :: l) = ([], t :: l)).
Proof.
  intros p t l. destruct t as [s|c j|x|d g].
  - destruct p as [k|s'].
    + left. exists (IPIdent s). split; [constructor|]. split; [constructor|]. cbn.
      now destruct (ident_loop (IPIdent s) l).
    + right. split; [|reflexivity]. intros q H. inversion H; subst. now rewrite joins_ident.
  - destruct (char_eqb c (ch "-")) eqn:E.
    + pose proof (char_eqb_true _ _ E) as E'. subst c.
      assert (D : joins p (IPDash j) \/ ~ joins p (IPDash j)).
      { rewrite joins_dash. destruct p as [[|]|]; auto. }
      destruct D as [D|D].
      * left. exists (IPDash j). split; [constructor|]. split; [exact D|]. rewrite joins_dash in D.
        destruct p as [k|s']; [subst k|]; cbn; rewrite ?char_eqb_refl; cbn;
          now destruct (ident_loop (IPDash j) l).
      * right. split.
        -- intros q H. inversion H; subst. exact D.
        -- rewrite joins_dash in D. destruct p as [[|]|s']; try now elim D. reflexivity.
    + right. split.
      * intros q H. inversion H; subst. now rewrite char_eqb_refl in E.
      * cbn [ident_loop]. rewrite E. destruct p as [k|s']; rewrite ?andb_false_r; reflexivity.
  - right. split; [|destruct p; reflexivity]. intros q H. inversion H.
  - right. split; [|destruct p; reflexivity]. intros q H. inversion H.
Qed.

Lemma ident_loop_run : forall l p, run p l (fst (ident_loop p l)) (snd (ident_loop p l)).
Proof.
  induction l as [|t l IH]; intros p.
  - destruct p; cbn; constructor; intros ? ? ? E; discriminate E.
  - destruct (ident_loop_cons p t l) as [(q & Hq & J & ->)|[H ->]]; cbn.
    + econstructor; eauto.
    + constructor. intros t' q r E. injection E as <- _. apply H.
Qed.
Lemma is_part_fun : forall t p q, is_part t p -> is_part t q -> p = q.
Proof. intros t p q H1 H2. inversion H1; subst; inversion H2; subst; auto. Qed.
Lemma run_ident_loop : forall p l ps r, run p l ps r -> ident_loop p l = (ps, r).
Proof.
  intros p l ps r H. induction H as [p l H|p t q l ps r Ht J _ IH].
  - destruct l as [|t l]; [destruct p; reflexivity|].
    destruct (ident_loop_cons p t l) as [(q & Hq & J & E)|[_ E]]; auto.
    elim (H t q l eq_refl Hq J).
  - destruct (ident_loop_cons p t l) as [(q' & Hq & J' & E)|[Hn E]].
    + rewrite (is_part_fun t q' q Hq Ht) in E. now rewrite E, IH.
    + elim (Hn q Ht J).
Qed.

Lemma parse_part_iff : forall l p r,
  parse_part true true l = Some (p, r) <-> exists t, l = t :: r /\ is_part t p.
Proof.
  intros l p r. split.
  - destruct l as [|[s|c j|x|d g] l]; cbn [parse_part andb]; try discriminate.
    + intros H. injection H as <- <-. eexists. split; [reflexivity|constructor].
    + destruct (char_eqb c (ch "-")) eqn:E; [|discriminate]. intros H. injection H as <- <-.
      apply char_eqb_true in E. subst c. eexists. split; [reflexivity|constructor].
  - intros (t & -> & H). inversion H; subst; reflexivity.
Qed.
Lemma parse_ident_iff : forall l i r, parse_ident l = Some (i, r) <-> reads_ident l i r.
Proof.
  intros l i r. unfold parse_ident. split.
  - destruct (parse_part true true l) as [[p l']|] eqn:E; [|discriminate].
    apply parse_part_iff in E. destruct E as (t & -> & Ht).
    pose proof (ident_loop_run l' p) as R. destruct (ident_loop p l') as [ps r']. cbn in R.
    intros H. injection H as <- <-. econstructor; eauto.
  - intros H. destruct H as [t p l ps r Ht R].
    replace (parse_part true true (t :: l)) with (Some (p, l)) by (symmetry; apply parse_part_iff; eauto).
    now rewrite (run_ident_loop _ _ _ _ R).
Qed.
Lemma run_suffix : forall p l ps r, run p l ps r -> exists x, l = x ++ r.
Proof.
  intros p l ps r H. induction H as [|p t q l ps r _ _ _ [x IH]]; [now exists []|].
  exists (t :: x). now rewrite IH.
Qed.
Lemma reads_ident_suffix : forall l i r, reads_ident l i r -> exists t x, l = t :: x ++ r.
Proof.
  intros l i r H. destruct H as [t p l ps r _ R]. apply run_suffix in R. destruct R as [x ->]. eauto.
Qed.
Lemma starts_ident_parses : forall l, starts_ident l -> exists i r, parse_ident l = Some (i, r).
Proof.
  intros l [(s & r & ->)|(j & t & p & r & -> & H)]; unfold parse_ident; cbn [parse_part].
  - destruct (ident_loop (IPIdent s) r); eauto.
  - rewrite char_eqb_refl. cbn [andb]. destruct (ident_loop (IPDash j) (t :: r)); eauto.
Qed.

(** ** Sizes *)

Lemma toks_size_cons : forall t l, toks_size (t :: l) = tok_size t + toks_size l.
Proof. reflexivity. Qed.
Lemma toks_size_app : forall a b, toks_size (a ++ b) = toks_size a + toks_size b.
Proof. induction a as [|t a IH]; intros b; [reflexivity|]. cbn [app]. rewrite !toks_size_cons, IH. lia. Qed.
Lemma tok_size_pos : forall t, 1 <= tok_size t.
Proof. destruct t; cbn; lia. Qed.
Lemma tok_size_group : forall d g, tok_size (RGroup d g) = S (toks_size g).
Proof. reflexivity. Qed.
Lemma length_toks_size : forall l, List.length l <= toks_size l.
Proof. induction l as [|t l IH]; [auto|]. rewrite toks_size_cons. pose proof (tok_size_pos t). cbn. lia. Qed.

(** [r] is what is left of [l] after at least one token. *)
Definition proper (r l : list rtok) : Prop := exists t x, l = t :: x ++ r.
Lemma proper_size : forall r l, proper r l -> toks_size r < toks_size l.
Proof.
  intros r l (t & x & ->). rewrite toks_size_cons, toks_size_app. pose proof (tok_size_pos t). lia.
Qed.
Lemma proper_length : forall r l, proper r l -> List.length r < List.length l.
Proof. intros r l (t & x & ->). cbn. rewrite app_length. lia. Qed.
Lemma proper_tl : forall t r, proper r (t :: r).
Proof. intros t r. now exists t, []. Qed.
Lemma proper_trans : forall a b c, proper a b -> proper b c -> proper a c.
Proof.
  intros a b c (t & x & ->) (u & y & ->). exists u, (y ++ t :: x). now rewrite <- app_assoc.
Qed.
(** the same, or nothing taken *)
Definition suffix (r l : list rtok) : Prop := r = l \/ proper r l.
Lemma suffix_proper : forall a b c, suffix a b -> proper b c -> proper a c.
Proof. intros a b c [->|H] H'; auto. eapply proper_trans; eauto. Qed.
Lemma proper_suffix : forall a b c, proper a b -> suffix b c -> proper a c.
Proof. intros a b c H [->|H']; auto. eapply proper_trans; eauto. Qed.
Lemma suffix_length : forall r l, suffix r l -> List.length r <= List.length l.
Proof. intros r l [->|H]; auto. apply proper_length in H. lia. Qed.
Lemma suffix_size : forall r l, suffix r l -> toks_size r <= toks_size l.
Proof. intros r l [->|H]; auto. apply proper_size in H. lia. Qed.

(** ** Component values *)

Section Reading.
  Variable expr_of : code -> option expr.
  Notation reads := (reads expr_of).
  Notation reads_all := (reads_all expr_of).
  Notation cv := (cv expr_of).
  Notation component := (component expr_of).
  Notation next_component := (next_component expr_of).

  Lemma reads_proper : forall l c r, reads l c r -> proper r l.
  Proof.
    intros l c r H. destruct H.
    - apply proper_tl.
    - eapply proper_trans; apply proper_tl.
    - apply reads_ident_suffix in H0. eapply proper_trans; [apply proper_tl|exact H0].
    - apply reads_ident_suffix in H0. exact H0.
    - apply proper_tl.
    - apply proper_tl.
  Qed.

  (** What [many_left] gives, for a parser with a specification. *)
  Lemma many_left_ok : forall A (p : list rtok -> pres A) (P : list rtok -> A -> list rtok -> Prop)
      (n : nat),
    (forall l a r, toks_size l < n -> p l = POk a r -> P l a r /\ proper r l) ->
    forall k l al r, toks_size l < n -> many_left p k l = POk al r ->
      r = [] /\
      (forall R : list rtok -> list A -> Prop, R [] [] ->
        (forall l a r al, P l a r -> R r al -> R l (a :: al)) -> R l al).
  Proof.
    intros A p P n Hp. induction k as [|k IH]; intros l al r Hs H.
    - destruct l; [|discriminate]. cbn in H. injection H as <- <-. auto.
    - destruct l as [|t l]; cbn in H.
      + injection H as <- <-. auto.
      + destruct (p (t :: l)) as [a r1| |] eqn:E; try discriminate. cbn in H.
        destruct (many_left p k r1) as [al' r2| |] eqn:E2; try discriminate. cbn in H. injection H as <- <-.
        destruct (Hp _ _ _ Hs E) as [Ha Hr]. apply proper_size in Hr.
        destruct (IH r1 al' r2 ltac:(lia) E2) as [-> HR]. split; auto. intros R R0 R1. apply (R1 _ _ r1 _ Ha), HR; auto.
  Qed.
  Lemma many_left_no_fuel : forall A (p : list rtok -> pres A) (n : nat),
    (forall l, toks_size l < n -> p l <> PFuel) ->
    (forall l a r, toks_size l < n -> p l = POk a r -> proper r l) ->
    forall k l, toks_size l < n -> List.length l <= k -> many_left p k l <> PFuel.
  Proof.
    intros A p n Hp Hr. induction k as [|k IH]; intros l Hs Hl.
    - destruct l; [discriminate|cbn in Hl; lia].
    - destruct l as [|t l]; [discriminate|]. cbn [many_left]. intros H.
      destruct (p (t :: l)) as [a r1| |] eqn:E; try discriminate.
      + cbn in H. pose proof (Hr _ _ _ Hs E) as Pr. pose proof (proper_size _ _ Pr).
        pose proof (proper_length _ _ Pr). destruct (many_left p k r1) as [al' r2| |] eqn:E2; try discriminate.
        eapply (IH r1); eauto; lia.
      + eapply Hp; eauto.
  Qed.
  Lemma many_left_nil : forall A (p : list rtok -> pres A) k l al r, many_left p k l = POk al r -> r = [].
  Proof.
    intros A p. induction k as [|k IH]; intros l al r H; destruct l as [|t l]; cbn in H; try discriminate;
      try (now injection H as <- <-).
    destruct (p (t :: l)) as [a r1| |]; try discriminate. cbn in H.
    destruct (many_left p k r1) as [al' r2| |] eqn:E2; try discriminate. cbn in H. injection H as <- <-. eauto.
  Qed.

  Lemma parse_preserved_ok : forall l c r,
    ~ starts_ident l -> (forall j g r', l <> RPunct (ch "$") j :: RGroup Brace g :: r') ->
    parse_preserved l = POk c r -> reads l c r.
  Proof.
    intros [|[s|c j|t|d g] l] c' r Hi Hd H; cbn in H; try discriminate.
    - destruct (char_eqb c 39) eqn:E; [discriminate|]. injection H as <- <-. apply char_eqb_false in E.
      constructor; auto. intros -> g r' ->. eapply Hd; reflexivity.
    - injection H as <- <-. constructor.
  Qed.
  Lemma parse_preserved_no_fuel : forall l, parse_preserved l <> PFuel.
  Proof.
    intros [|[s|c j|t|d g] l]; cbn; try discriminate. now destruct (char_eqb c 39).
  Qed.

  (** Unfolding of [cv] by cases of what is ahead. *)
  Lemma cv_S : forall n l,
    (exists d g r, l = RGroup d g :: r
       /\ cv (S n) l = pbind (many_left (cv n) (List.length g) g) (fun c _ => POk (CBlk d c) r))
    \/ (exists j g r, l = RPunct (ch "$") j :: RGroup Brace g :: r
       /\ cv (S n) l = match expr_of g with Some e => POk (CExpr e) r | None => PErr end)
    \/ ((forall d g r, l <> RGroup d g :: r)
        /\ (forall j g r', l <> RPunct (ch "$") j :: RGroup Brace g :: r')
        /\ ((~ starts_ident l /\ cv (S n) l = parse_preserved l)
            \/ (starts_ident l /\ exists i r, reads_ident l i r
                /\ ((exists g r', r = RGroup Paren g :: r' /\ cv (S n) l
                       = pbind (many_left (cv n) (List.length g) g) (fun c _ => POk (CFunction i c) r'))
                    \/ ((forall g r', r <> RGroup Paren g :: r') /\ cv (S n) l = POk (CToken (PIdent i)) r))))).
  Proof.
    intros n l.
    assert (G : (exists d g r, l = RGroup d g :: r) \/ forall d g r, l <> RGroup d g :: r).
    { destruct l as [|[s|c j|t|d g] r]; eauto; right; discriminate. }
    destruct G as [(d & g & r & ->)|NG]; [left; exists d, g, r; split; reflexivity|right].
    assert (U : cv (S n) l =
            (if peek_punct (ch "$") l && peek_group Brace (tl l) then
              match tl l with
              | RGroup _ g :: r =>
                  match expr_of g with Some e => POk (CExpr e) r | None => PErr end
              | _ => PErr
              end
            else if negb (css_peek l) then parse_preserved l
            else
              match parse_ident l with
              | None => PErr
              | Some (i, r) =>
                  match r with
                  | RGroup Paren g :: r' =>
                      pbind (many_left (cv n) (List.length g) g) (fun c _ => POk (CFunction i c) r')
                  | _ => POk (CToken (PIdent i)) r
                  end
              end)).
    { destruct l as [|[s|c j|t|d g] r]; try reflexivity. elim (NG d g r eq_refl). }
    rewrite U. clear U.
    destruct (peek_punct (ch "$") l && peek_group Brace (tl l)) eqn:E.
    - left. apply andb_true_iff in E. destruct E as [E1 E2]. apply peek_punct_iff in E1; auto.
      destruct E1 as (j & r & ->). cbn [tl] in *. apply peek_group_iff in E2. destruct E2 as (g & r' & ->).
      exists j, g, r'. split; reflexivity.
    - right. split; auto. split.
      { intros j g r' ->. cbn [tl] in E. replace (peek_punct (ch "$") (RPunct (ch "$") j :: RGroup Brace g :: r')) with true in E; [|reflexivity].
        discriminate. }
      destruct (css_peek l) eqn:Ec; cbn [negb].
      + right. apply css_peek_iff in Ec. split; auto.
        destruct (starts_ident_parses l Ec) as (i & r & Hi). rewrite Hi. apply parse_ident_iff in Hi.
        exists i, r. split; auto. destruct r as [|[s|c j|t|[| |] g] r]; try (right; split; [discriminate|reflexivity]).
        left. eauto.
      + left. apply css_peek_false in Ec. auto.
  Qed.

  Lemma cv_sound : forall n l c r, toks_size l < n -> cv n l = POk c r -> reads l c r.
  Proof.
    induction n as [|n IH]; intros l c r Hs H; [discriminate|].
    assert (M : forall g cs r', toks_size g < n -> many_left (cv n) (List.length g) g = POk cs r' -> reads_all g cs).
    { intros g cs r' Hg Hm.
      destruct (many_left_ok _ (cv n) reads n (fun l a r Hl Hc => conj (IH l a r Hl Hc) (reads_proper _ _ _ (IH l a r Hl Hc)))
                  _ _ _ _ Hg Hm) as [_ R].
      apply R; [constructor|]. intros; econstructor; eauto. }
    destruct (cv_S n l) as [(d & g & r1 & -> & E)|[(j & g & r1 & -> & E)|(NG & ND & [[NI E]|[SI (i & r1 & Hi & [(g & r2 & -> & E)|[NP E]])]])]];
      rewrite E in H.
    - destruct (many_left (cv n) (List.length g) g) as [cs r'| |] eqn:Em; try discriminate. cbn in H.
      injection H as <- <-. constructor. eapply M; [|exact Em]. rewrite toks_size_cons, tok_size_group in Hs. lia.
    - destruct (expr_of g) eqn:Eg; [|discriminate]. injection H as <- <-. now constructor.
    - apply parse_preserved_ok; auto.
    - destruct (many_left (cv n) (List.length g) g) as [cs r'| |] eqn:Em; try discriminate. cbn in H.
      injection H as <- <-. econstructor; eauto. eapply M; [|exact Em].
      apply reads_ident_suffix in Hi. destruct Hi as (t & x & ->).
      rewrite toks_size_cons, toks_size_app, toks_size_cons, tok_size_group in Hs. lia.
    - injection H as <- <-. constructor; auto.
  Qed.

  Lemma cv_no_fuel : forall n l, toks_size l < n -> cv n l <> PFuel.
  Proof.
    induction n as [|n IH]; intros l Hs H; [lia|].
    assert (M : forall g, toks_size g < n -> many_left (cv n) (List.length g) g <> PFuel).
    { intros g Hg. apply (many_left_no_fuel _ (cv n) n); auto.
      intros l' a r Hl Hc. eapply reads_proper, cv_sound; eauto. }
    destruct (cv_S n l) as [(d & g & r1 & -> & E)|[(j & g & r1 & -> & E)|(NG & ND & [[NI E]|[SI (i & r1 & Hi & [(g & r2 & -> & E)|[NP E]])]])]];
      rewrite E in H.
    - destruct (many_left (cv n) (List.length g) g) as [cs r'| |] eqn:Em; try discriminate.
      apply (M g); auto. rewrite toks_size_cons, tok_size_group in Hs. lia.
    - now destruct (expr_of g).
    - now apply parse_preserved_no_fuel in H.
    - destruct (many_left (cv n) (List.length g) g) as [cs r'| |] eqn:Em; try discriminate.
      apply (M g); auto. apply reads_ident_suffix in Hi. destruct Hi as (t & x & ->).
      rewrite toks_size_cons, toks_size_app, toks_size_cons, tok_size_group in Hs. lia.
    - discriminate.
  Qed.

  Lemma reads_ident_fun : forall l i r i' r', reads_ident l i r -> reads_ident l i' r' -> i = i' /\ r = r'.
  Proof. intros l i r i' r' H H'. apply parse_ident_iff in H, H'. rewrite H in H'. now injection H' as <- <-. Qed.

  Lemma starts_ident_no_group : forall d g r, ~ starts_ident (RGroup d g :: r).
  Proof. intros d g r [(s & r' & H)|(j & t & p & r' & H & _)]; discriminate. Qed.
  Lemma starts_ident_no_dollar : forall j r, ~ starts_ident (RPunct (ch "$") j :: r).
  Proof. intros j r [(s & r' & H)|(j' & t & p & r' & H & _)]; discriminate. Qed.
  Lemma starts_ident_no_lit : forall t r, ~ starts_ident (RLit t :: r).
  Proof. intros j r [(s & r' & H)|(j' & t & p & r' & H & _)]; discriminate. Qed.

  Lemma cv_complete :
    (forall l c r, reads l c r -> forall n, toks_size l < n -> cv n l = POk c r)
    /\ (forall l cs, reads_all l cs -> forall n k, toks_size l < n -> List.length l <= k ->
          many_left (cv n) k l = POk cs []).
  Proof.
    apply reads_mutind.
    - intros d g cs r _ IH n Hs. destruct n as [|n]; [lia|]. rewrite toks_size_cons, tok_size_group in Hs.
      change (pbind (many_left (cv n) (List.length g) g) (fun c _ => POk (CBlk d c) r) = POk (CBlk d cs) r).
      rewrite IH; auto. lia.
    - intros j g e r He n Hs. destruct n as [|n]; [lia|].
      destruct (cv_S n (RPunct (ch "$") j :: RGroup Brace g :: r))
        as [(d & g' & r1 & E & _)|[(j' & g' & r1 & E & ->)|(NG & ND & _)]]; try discriminate.
      + injection E as <- <- <-. now rewrite He.
      + elim (ND j g r eq_refl).
    - intros l i g cs r Hi Hr _ IH n Hs. destruct n as [|n]; [lia|].
      destruct (cv_S n l) as [(d & g' & r1 & -> & E)|[(j & g' & r1 & -> & E)|(NG & ND & [[NI E]|[SI (i' & r1 & Hi' & Q)]])]].
      + elim (starts_ident_no_group _ _ _ Hi).
      + elim (starts_ident_no_dollar _ _ Hi).
      + now elim NI.
      + destruct (reads_ident_fun _ _ _ _ _ Hr Hi') as [<- <-].
        destruct Q as [(g' & r2 & E1 & E)|[NP E]]; [|elim (NP g r eq_refl)].
        injection E1 as <- <-. rewrite E. apply reads_ident_suffix in Hr. destruct Hr as (t & x & ->).
        rewrite toks_size_cons, toks_size_app, toks_size_cons, tok_size_group in Hs.
        rewrite IH; auto. lia.
    - intros l i r Hi Hr NP n Hs. destruct n as [|n]; [lia|].
      destruct (cv_S n l) as [(d & g' & r1 & -> & E)|[(j & g' & r1 & -> & E)|(NG & ND & [[NI E]|[SI (i' & r1 & Hi' & Q)]])]].
      + elim (starts_ident_no_group _ _ _ Hi).
      + elim (starts_ident_no_dollar _ _ Hi).
      + now elim NI.
      + destruct (reads_ident_fun _ _ _ _ _ Hr Hi') as [<- <-].
        destruct Q as [(g' & r2 & E1 & E)|[_ E]]; [elim (NP _ _ E1)|exact E].
    - intros c j r Hc Hi Hd n Hs. destruct n as [|n]; [lia|].
      destruct (cv_S n (RPunct c j :: r)) as [(d & g' & r1 & E0 & E)|[(j' & g' & r1 & E0 & E)|(NG & ND & [[NI E]|[SI _]])]].
      + discriminate.
      + injection E0 as -> <- ->. elim (Hd eq_refl g' r1 eq_refl).
      + rewrite E. cbn. now rewrite (char_eqb_neq c 39 Hc).
      + now elim Hi.
    - intros t r n Hs. destruct n as [|n]; [lia|].
      destruct (cv_S n (RLit t :: r)) as [(d & g' & r1 & E0 & E)|[(j' & g' & r1 & E0 & E)|(NG & ND & [[NI E]|[SI _]])]];
        try discriminate; [exact E|]. now apply starts_ident_no_lit in SI.
    - intros n k _ _. destruct k; reflexivity.
    - intros l c r cs H IHc _ IHcs n k Hs Hk. pose proof (reads_proper _ _ _ H) as P.
      pose proof (proper_size _ _ P). pose proof (proper_length _ _ P).
      destruct k as [|k]; [lia|]. destruct l as [|t l]; [now destruct P as (t & x & P)|].
      cbn [many_left]. rewrite IHc by lia. cbn [pbind]. rewrite IHcs by lia. reflexivity.
  Qed.

  Lemma component_iff : forall l c r, component l = POk c r <-> reads l c r.
  Proof.
    intros l c r. unfold component. split.
    - apply cv_sound. lia.
    - intros H. apply cv_complete; auto.
  Qed.
  Lemma reads_nonempty : forall c r, ~ reads [] c r.
  Proof. intros c r H. apply reads_proper in H. now destruct H as (t & x & H). Qed.
  Lemma next_component_iff : forall l c r, next_component l = POk c r <-> reads l c r.
  Proof.
    intros [|t l] c r; [|apply component_iff]. split; [discriminate|]. intros H. elim (reads_nonempty _ _ H).
  Qed.
  Lemma next_component_no_fuel : forall l, next_component l <> PFuel.
  Proof. intros [|t l]; [discriminate|]. apply cv_no_fuel. auto. Qed.
  Lemma reads_fun : forall l c r c' r', reads l c r -> reads l c' r' -> c = c' /\ r = r'.
  Proof.
    intros l c r c' r' H H'. apply component_iff in H, H'. rewrite H in H'. now injection H' as <- <-.
  Qed.
End Reading.
