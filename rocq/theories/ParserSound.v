(** * ParserSound: an accepted text is fully accounted for. *)

From Coq Require Import String Ascii List NArith Bool Arith Lia.
From Verif Require Import Str StrFacts Ast Nom SpecSays NomFacts CssParser.
Import ListNotations.
Local Open Scope list_scope.

Ltac each := repeat apply Forall_cons; try apply Forall_nil.

(** ** Blank space *)

Lemma blank_app a b : blank a -> blank b -> blank (a ++ b).
Proof.
  induction 1; intros Hb; auto.
  - cbn. constructor; auto.
  - rewrite <- !app_assoc. now apply blank_comment; auto.
Qed.

Lemma blank_ws_all w : Forall (fun c => In c css_ws) w -> blank w.
Proof. induction 1; constructor; auto. Qed.

Lemma padded_intro {A} (R : str -> A -> Prop) t a : R t a -> padded R t a.
Proof. intros H. exists [], t, []. rewrite app_nil_r. repeat split; auto; constructor. Qed.

Lemma padded_weaken {A} (R R' : str -> A -> Prop) t a :
  (forall t a, R t a -> R' t a) -> padded R t a -> padded R' t a.
Proof. intros H (w & u & w' & -> & H1 & H2 & H3). exists w, u, w'. auto. Qed.

Lemma padded_pad {A} (R : str -> A -> Prop) w t w' a :
  blank w -> blank w' -> padded R t a -> padded R (w ++ t ++ w') a.
Proof.
  intros Hw Hw' (x & u & y & -> & H1 & H2 & H3). exists (w ++ x), u, (y ++ w').
  rewrite <- !app_assoc. auto using blank_app.
Qed.

Lemma padded_idem {A} (R : str -> A -> Prop) t a : padded (padded R) t a -> padded R t a.
Proof. intros (w & u & w' & -> & H1 & H2 & H3). now apply padded_pad. Qed.

(** Body of a comment: the pieces never spell a star followed by a slash. *)
Lemma not_char_slash i r u : not_p (char_p (ch "/")) i = ROk r u ->
  r = i /\ match i with [] => True | c :: _ => c <> ch "/" end.
Proof.
  unfold not_p, char_p. destruct i as [|c i]; [intros [= <-]; auto|].
  destruct (char_eqb c (ch "/")) eqn:E; [discriminate|]. intros [= <-].
  split; auto. now apply char_eqb_neq.
Qed.

Definition cmt_body : parser (list str) :=
  many0 (alt [is_not (lit "*"); terminated (tag (lit "*")) (not_p (char_p (ch "/")))]).

Lemma no_star_slash_cons_plain c t :
  c <> ch "*" -> ~ (exists a b, t = a ++ lit "*/" ++ b) -> ~ (exists a b, c :: t = a ++ lit "*/" ++ b).
Proof.
  intros Hc H (a & b & E). destruct a as [|x a].
  - apply Hc. now apply (f_equal (hd 0%N)) in E.
  - apply H. exists a, b. now apply (f_equal (@tl _)) in E.
Qed.

Lemma no_star_slash_run a t :
  Forall (fun c => ~ In c (lit "*")) a -> ~ (exists x y, t = x ++ lit "*/" ++ y) ->
  ~ (exists x y, a ++ t = x ++ lit "*/" ++ y).
Proof.
  intros Ha Ht. induction Ha as [|c a Hc _ IH]; cbn; auto.
  apply no_star_slash_cons_plain; auto. intros ->. apply Hc. now left.
Qed.

Lemma cmt_body_spec n i r l :
  many0_fuel n (alt [is_not (lit "*"); terminated (tag (lit "*")) (not_p (char_p (ch "/")))]) i
    = ROk r l ->
  exists t, i = t ++ r /\ (r <> [] -> ~ (exists a b, t ++ [hd 0%N r] = a ++ lit "*/" ++ b)).
Proof.
  revert i r l. induction n as [|n IH]; intros i r l; [discriminate|].
  cbn [many0_fuel alt]. destruct (is_not (lit "*") i) as [r1 a1| | |] eqn:E; try discriminate.
  - destruct (sound_is_not _ _ _ _ E) as (t & -> & -> & _ & Ht).
    destruct (Nat.eqb _ _); [discriminate|]. intros E2. apply bind_ok in E2.
    destruct E2 as (r2 & l2 & E2 & [= <- <-]). destruct (IH _ _ _ E2) as (t2 & -> & Ht2).
    exists (a1 ++ t2). split; [now rewrite app_assoc|]. intros Hr. rewrite <- app_assoc.
    apply no_star_slash_run; auto.
  - unfold terminated at 1. destruct (tag (lit "*") i) as [r1 a1| | |] eqn:E1; try discriminate;
      cbn [bind].
    + destruct (sound_tag _ _ _ _ E1) as (t & -> & -> & ->).
      destruct (not_p _ r1) as [r3 u| | |] eqn:E3; try discriminate; cbn [bind].
      * apply not_char_slash in E3. destruct E3 as [-> Hr1].
        destruct (Nat.eqb _ _); [discriminate|]. intros E2. apply bind_ok in E2.
        destruct E2 as (r2 & l2 & E2 & [= <- <-]). destruct (IH _ _ _ E2) as (t2 & -> & Ht2).
        exists (lit "*" ++ t2). split; [now rewrite app_assoc|]. intros Hr. specialize (Ht2 Hr).
        intros (a & b & Eq). destruct a as [|x a].
        -- assert (Eq' : t2 ++ [hd 0%N r2] = ch "/" :: b)
             by (apply (f_equal (@tl _)) in Eq; exact Eq).
           destruct t2 as [|y t2].
           ++ destruct r2 as [|z r2]; [now apply Hr|]. apply Hr1.
              now apply (f_equal (hd 0%N)) in Eq'.
           ++ apply Hr1. now apply (f_equal (hd 0%N)) in Eq'.
        -- apply Ht2. exists a, b. apply (f_equal (@tl _)) in Eq. exact Eq.
      * intros [= <- <-]. exists []. split; auto. intros _ (a & b & Eq).
        apply (f_equal (@List.length _)) in Eq. rewrite !app_length in Eq. cbn in Eq. lia.
    + intros [= <- <-]. exists []. split; auto. intros _ (a & b & Eq).
      apply (f_equal (@List.length _)) in Eq. rewrite !app_length in Eq. cbn in Eq. lia.
Qed.

Lemma sound_cmt : sound cmt (fun t _ => blank t).
Proof.
  intros i r a E. unfold cmt, delimited, preceded, terminated in E.
  apply bind_ok in E. destruct E as (r1 & a1 & E1 & E).
  apply bind_ok in E. destruct E as (r2 & a2 & E2 & E).
  apply bind_ok in E. destruct E as (r3 & a3 & E3 & [= <- <-]).
  apply bind_ok in E2. destruct E2 as (r2' & l2 & E2 & [= <- <-]).
  destruct (sound_tag _ _ _ _ E1) as (t1 & -> & -> & ->).
  destruct (sound_tag _ _ _ _ E3) as (t3 & -> & -> & ->).
  apply cmt_body_spec in E2. destruct E2 as (body & -> & Hb).
  exists (lit "/*" ++ body ++ lit "*/"). rewrite <- !app_assoc. split; auto.
  replace (lit "/*" ++ body ++ lit "*/") with (lit "/*" ++ body ++ lit "*/" ++ [])
    by now rewrite app_nil_r.
  apply blank_comment; [|constructor]. intros (x & y & ->). apply Hb; [discriminate|].
  exists x, (y ++ [hd 0%N (lit "*/" ++ r3)]). now rewrite <- !app_assoc.
Qed.

Lemma sound_sp : sound sp (fun t _ => blank t).
Proof.
  eapply sound_weaken.
  { apply sound_recognize. apply sound_many0 with (R := fun t _ => blank t). apply sound_alt.
    constructor; [|constructor; [apply sound_cmt|constructor]].
    eapply sound_weaken; [apply sound_take_while1|]. cbn beta.
    intros t a (-> & _ & H). apply blank_ws_all. rewrite forallb_forall in H.
    apply Forall_forall. intros c Hc. now apply mem_In, H. }
  cbn beta. intros t a (_ & l & H). clear a. induction H; [constructor|now apply blank_app].
Qed.

Lemma sound_trimmed {A} (p : parser A) R : sound p R -> sound (trimmed p) (padded R).
Proof.
  intros H. eapply sound_weaken.
  { unfold trimmed. eapply sound_delimited; [apply sound_sp|exact H|apply sound_sp]. }
  intros t b (u & v & w & -> & (_ & Hu) & Hv & (_ & Hw)). now exists u, v, w.
Qed.

Lemma sound_non_empty {A} (p : parser A) R : sound p R -> sound (expect_non_empty p) R.
Proof. intros H i r a. destruct i; cbn; [discriminate|]. apply H. Qed.

(** ** Tokens *)

Lemma star_concat {A} (R : str -> A -> Prop) (P : str -> Prop) t l :
  (forall t a, R t a -> P t) -> star R t l ->
  exists ts, List.length ts = List.length l /\ Forall P ts /\ t = List.concat ts.
Proof.
  intros H. induction 1 as [|t a t' l Ha _ (ts & IH1 & IH2 & IH3)].
  - exists []. auto.
  - exists (t :: ts). cbn. rewrite IH3, IH1. repeat split; auto. constructor; eauto.
Qed.

Lemma star_pieces {A} (R : str -> A -> Prop) (P : str -> Prop) t l :
  (forall t a, R t a -> P t) -> l <> [] -> star R t l -> pieces P t.
Proof.
  intros H Hl Hs. destruct (star_concat R P t l H Hs) as (ts & H1 & H2 & H3).
  exists ts. repeat split; auto. destruct ts; [destruct l; [easy|discriminate]|discriminate].
Qed.

Lemma name_char_run (P : char -> Prop) l :
  Forall (Forall P) l -> Forall P (List.concat l).
Proof. induction 1; cbn; [constructor|]. apply Forall_app. auto. Qed.

Lemma non_ascii_name c : negb (is_ascii c) = true -> (128 <= c)%N.
Proof. unfold is_ascii. rewrite negb_true_iff. now rewrite N.ltb_ge. Qed.

Lemma forallb_Forall {A} (f : A -> bool) (P : A -> Prop) l :
  (forall x, f x = true -> P x) -> forallb f l = true -> Forall P l.
Proof. intros H E. rewrite forallb_forall in E. apply Forall_forall. auto. Qed.

Lemma sound_ident : sound ident (fun t a => t = a /\ name t).
Proof.
  eapply sound_weaken.
  { apply sound_recognize. eapply sound_preceded.
    - apply sound_alt with
        (R := fun t _ => exists c r, t = c :: r /\ name_start c /\ Forall name_start r).
      each.
      + eapply sound_weaken; [apply sound_tag|]. intros t a (-> & _). exists (ch "-"), [].
        split; auto. split; auto. now left.
      + eapply sound_weaken; [apply sound_tag|]. intros t a (-> & _). exists (ch "_"), [].
        split; auto. split; auto. right. now left.
      + eapply sound_weaken; [apply sound_take_while1|]. intros t a (-> & Hn & H).
        apply forallb_Forall with (P := name_start) in H; [|intros x Hx; unfold name_start; auto].
        destruct a as [|x a]; [easy|]. inversion H; eauto.
      + eapply sound_weaken; [apply sound_take_while1|]. intros t a (-> & Hn & H).
        apply forallb_Forall with (P := name_start) in H;
          [|intros x Hx; apply non_ascii_name in Hx; unfold name_start; auto].
        destruct a as [|x a]; [easy|]. inversion H; eauto.
    - apply sound_many0. apply sound_alt with (R := fun t _ => Forall name_char t).
      each.
      + eapply sound_weaken; [apply sound_tag|]. intros t a (-> & _). each.
        unfold name_char, name_start. cbn. auto.
      + eapply sound_weaken; [apply sound_tag|]. intros t a (-> & _). each.
        unfold name_char, name_start. cbn. auto.
      + eapply sound_weaken; [apply sound_take_while1|]. intros t a (-> & Hn & H).
        eapply forallb_Forall; [|exact H]. intros x Hx. unfold is_ascii_alnum in Hx.
        apply orb_true_iff in Hx. unfold name_char, name_start. tauto.
      + eapply sound_weaken; [apply sound_take_while1|]. intros t a (-> & Hn & H).
        eapply forallb_Forall; [|exact H]. intros x Hx. apply non_ascii_name in Hx.
        unfold name_char, name_start. tauto. }
  cbn beta. intros t a (-> & b & u & v & -> & (_ & c & r & -> & Hc & Hr) & Hv). split; auto.
  exists c, (r ++ v). repeat split; auto. apply Forall_app. split.
  - eapply Forall_impl; [|exact Hr]. intros x Hx. now left.
  - destruct (star_concat _ (Forall name_char) _ _ (fun t a H => H) Hv) as (ts & _ & H & ->).
    now apply name_char_run.
Qed.

Lemma sound_string : sound string_p (fun t _ => blank_around string_text t).
Proof.
  eapply sound_weaken.
  { apply sound_trimmed. apply sound_non_empty. apply sound_recognize.
    eapply sound_preceded; [apply sound_tag|]. eapply sound_terminated; [|apply sound_tag].
    apply sound_many0. apply sound_alt with (R := fun t _ => forall b, string_body b -> string_body (t ++ b)).
    each.
    - eapply sound_weaken; [apply sound_is_not|]. intros t a (-> & _ & H) b Hb.
      induction H as [|x t Hx _ IH]; cbn [app]; auto. constructor; auto.
      + intros ->. apply Hx. now left.
      + intros ->. apply Hx. right. now left.
    - eapply sound_weaken.
      { apply sound_recognize. eapply sound_preceded; [apply sound_tag|apply sound_anychar]. }
      intros t a (-> & c & u & v & -> & (_ & -> & _) & ->) b Hb. now apply sb_escape. }
  intros t a (w & u & w' & -> & Hw & Hw' & -> & l & x & y & -> & (_ & -> & _) & b & z & -> & Hb & (_ & -> & _)).
  exists w, ([34%N] ++ b ++ [34%N]), w'. repeat split; auto. exists b. split; auto.
  clear - Hb. induction Hb as [|t a t' l Ha _ IH]; [constructor|]. now apply Ha.
Qed.

Lemma sound_interpolation : sound interpolation (fun t _ => blank_around interp_text t).
Proof.
  eapply sound_weaken.
  { apply sound_trimmed. apply sound_non_empty.
    eapply sound_delimited; [apply sound_tag| |apply sound_tag].
    apply sound_trimmed. apply sound_recognize. eapply sound_preceded.
    - apply sound_take_while1.
    - apply sound_many0.
      apply sound_alt with (R := fun t _ => Forall (fun x => is_ascii_alnum x = true \/ x = ch "_") t).
      each.
      + eapply sound_weaken; [apply sound_take_while1|]. intros t a (-> & Hn & H).
        eapply forallb_Forall; [|exact H]. auto.
      + eapply sound_weaken; [apply sound_tag|]. intros t a (-> & _). each. now right. }
  intros t a (w & u & w' & -> & Hw & Hw' & x & y & z & -> & (_ & -> & _) & Hy & (_ & -> & _)).
  exists w, (lit "${" ++ y ++ lit "}"), w'. repeat split; auto.
  destruct Hy as (v & n & v' & -> & Hv & Hv' & -> & b & c & d & -> & (c' & -> & Hn & Hf) & Hd).
  exists v, (c' ++ d), v'. split; [now rewrite <- !app_assoc|]. repeat split; auto.
  destruct c' as [|c0 x0]; [easy|]. exists c0, (x0 ++ d). split; auto.
  cbn [forallb] in Hf. apply andb_true_iff in Hf. destruct Hf as [Hc0 Hf]. split; auto.
  apply Forall_app. split.
  - eapply forallb_Forall; [|exact Hf]. intros x1 Hx1. unfold is_ascii_alnum. left. now rewrite Hx1.
  - destruct (star_concat _ (Forall (fun x => is_ascii_alnum x = true \/ x = ch "_")) _ _
                (fun t a H => H) Hd) as (ts & _ & H & ->).
    now apply name_char_run.
Qed.

Lemma sound_recognize_text {A} (p : parser A) (P : str -> Prop) :
  sound p (fun t _ => P t) -> sound (recognize p) (fun t _ => P t).
Proof. intros H. eapply sound_weaken; [apply sound_recognize, H|]. intros t a (_ & b & Ht). exact Ht. Qed.

Lemma sound_pieces {A} (p : parser A) (P : str -> Prop) :
  sound p (fun t _ => P t) -> sound (recognize (many1 p)) (fun t a => t = a /\ pieces P t).
Proof.
  intros H. eapply sound_weaken; [apply sound_recognize, sound_many1, H|].
  intros t a (-> & l & Hl & Hs). split; auto. eapply star_pieces; [|exact Hl|exact Hs]. auto.
Qed.

Lemma sound_value : sound style_attr_value
  (padded (fun t a => exists v, a = trim v /\ t = v /\ pieces value_piece t)).
Proof.
  apply sound_trimmed. eapply sound_weaken.
  { apply sound_map, sound_pieces. apply sound_alt with (R := fun t _ => value_piece t).
    each.
    - eapply sound_weaken; [apply sound_is_not|]. intros t a (-> & H). left. exact H.
    - eapply sound_weaken; [apply sound_recognize_text, sound_interpolation|].
      intros t a H. right. right. now left.
    - eapply sound_weaken; [apply sound_string|]. intros t a H. right. now left.
    - eapply sound_weaken.
      { apply sound_recognize. eapply sound_preceded; [apply sound_tag|apply sound_none_of]. }
      intros t a (-> & c & u & v & -> & (_ & -> & _) & -> & Hc). right. right. right.
      exists c. split; auto. intros Hin. apply Hc. cbn in Hin |- *. tauto. }
  intros t a (v & (-> & H) & ->). eauto.
Qed.

Lemma sound_attribute : sound attribute (padded decl_text).
Proof.
  apply sound_trimmed, sound_non_empty. eapply sound_weaken.
  { apply sound_map. eapply sound_separated_pair; [|apply sound_tag|apply sound_value].
    apply sound_trimmed, sound_ident. }
  intros t a ((k & v) & (u & c & w & -> & Hk & (_ & -> & _) & Hv) & ->). cbn [fst snd] in *.
  destruct Hv as (x & y & z & -> & Hx & Hz & v' & -> & -> & Hv).
  exists u, k, (x ++ v' ++ z), v'. repeat split; auto. exists x, v', z. auto.
Qed.

Lemma says_decls_blank_l f w t l : blank w -> says_decls f t l -> says_decls f (w ++ t) l.
Proof.
  intros Hw H. destruct H as [t a Hf H|t a w' H Hw'|t a t' l H Hl].
  - apply sd_last; auto. rewrite <- (app_nil_r t), app_assoc, <- app_assoc. apply padded_pad; auto. constructor.
  - rewrite app_assoc. apply sd_last_semi; auto.
    rewrite <- (app_nil_r t). apply padded_pad; auto. constructor.
  - rewrite app_assoc. apply sd_cons; auto.
    rewrite <- (app_nil_r t). apply padded_pad; auto. constructor.
Qed.

Lemma says_decls_blank_r f w t l : blank w -> says_decls f t l -> says_decls f (t ++ w) l.
Proof.
  intros Hw H. induction H as [t a Hf H|t a w' H Hw'|t a t' l H Hl IH].
  - apply sd_last; auto. apply (padded_pad decl_text [] t w); auto. constructor.
  - rewrite <- !app_assoc. apply sd_last_semi; auto. now apply blank_app.
  - rewrite <- !app_assoc. now apply sd_cons.
Qed.

Lemma sound_attributes d : sound (attributes d) (says_decls d).
Proof.
  unfold attributes. eapply sound_weaken.
  { apply sound_trimmed, sound_non_empty. eapply sound_terminated.
    - eapply sound_separated_list1; [apply sound_tag|apply sound_attribute].
    - eapply sound_preceded; [apply sound_opt, sound_sp|].
      instantiate (1 := fun t _ => t = lit ";" \/ d = false /\ t = []).
      destruct d.
      + eapply sound_weaken; [apply sound_map, sound_tag|]. intros t a (_ & (-> & _) & _). auto.
      + eapply sound_weaken; [apply sound_opt, sound_tag|].
        intros t a [(-> & _)|(_ & _ & -> & _)]; auto. }
  intros t l (w & u & w' & -> & Hw & Hw' & x & y & -> & Hx & (_ & sp1 & semi & -> & (o & Hsp) & Hsemi)).
  apply says_decls_blank_l; auto. apply says_decls_blank_r; auto.
  assert (Hb : blank sp1) by (destruct Hsp as [(-> & _)|(b & _ & Hb)]; [constructor|exact Hb]).
  destruct Hx as (v & a & z & l' & -> & -> & Hv & Hz). clear Hsp.
  revert v a Hv. induction Hz as [|t2 a2 z l' H2 Hz IH]; intros v a Hv.
  - rewrite app_nil_r. destruct Hsemi as [->|(-> & ->)].
    + rewrite <- (app_nil_r (v ++ sp1 ++ lit ";")), <- !app_assoc, app_assoc.
      apply sd_last_semi; [|constructor]. apply (padded_pad decl_text [] v sp1); auto. constructor.
    + rewrite app_nil_r. apply sd_last; auto. apply (padded_pad decl_text [] v sp1); auto. constructor.
  - destruct H2 as (c & t2' & -> & (_ & -> & _) & H2). rewrite <- !app_assoc.
    apply sd_cons; auto. rewrite app_assoc. now apply IH.
Qed.

Lemma sound_selector : sound selector_p selector_text.
Proof.
  eapply sound_weaken.
  { apply sound_trimmed, sound_non_empty, sound_map, sound_pieces.
    apply sound_alt with (R := fun t _ => selector_piece t). each.
    - eapply sound_weaken.
      { apply sound_recognize. eapply sound_preceded; [apply sound_none_of|apply sound_opt, sound_is_not]. }
      intros t a (-> & o & u & v & -> & (c & -> & Hc) & Hv). left. exists c, v.
      repeat split; auto. destruct Hv as [(-> & _)|(x & _ & -> & _ & Hx)]; [constructor|].
      eapply Forall_impl; [|exact Hx]. cbn beta. intros y Hy Hin. apply Hy. cbn in Hin |- *. tauto.
    - eapply sound_weaken; [apply sound_string|]. intros t a H. right. now left.
    - eapply sound_weaken; [apply sound_recognize_text, sound_interpolation|].
      intros t a H. right. now right. }
  intros t s (w & u & w' & -> & Hw & Hw' & x & (-> & Hx) & ->). exists x. split; auto.
  exists w, x, w'. auto.
Qed.

Lemma sound_condition : sound condition selector_list.
Proof.
  eapply sound_weaken.
  { apply sound_trimmed, sound_non_empty, sound_many1. eapply sound_terminated;
      [apply sound_selector|apply sound_opt, sound_tag]. }
  intros t l (w & u & w' & -> & Hw & Hw' & Hl & Hs). split; auto. exists w, u, w'.
  repeat split; auto. eapply star_weaken; [|exact Hs].
  intros t a (x & y & -> & Hx & o & Ho). exists x, y. repeat split; auto.
  destruct Ho as [(-> & _)|(_ & _ & -> & _)]; auto.
Qed.

Lemma sound_at_rule_condition (names : list str) ps :
  Forall (fun p => sound p (fun t a => In t names)) ps ->
  sound (at_rule_condition ps) (at_text names).
Proof.
  intros H. eapply sound_weaken.
  { apply sound_trimmed, sound_non_empty, sound_map. eapply sound_pair.
    - apply sound_recognize. eapply sound_terminated; [apply sound_alt, H|apply sound_tag].
    - apply sound_map, sound_pieces. apply sound_alt with (R := fun t _ => condition_piece t).
      each.
      + eapply sound_weaken; [apply sound_is_not|]. intros t a (-> & Ht). left. exact Ht.
      + eapply sound_weaken; [apply sound_recognize_text, sound_interpolation|].
        intros t a Ht. now right. }
  intros t cond (w & u & w' & -> & Hw & Hw' & (x & y) & (m & v & -> & (Hm & z) & Hv) & ->).
  cbn [fst snd] in *. destruct z as (_ & n & sp1 & -> & Hn & _ & -> & _). subst x.
  destruct Hv as (c & (-> & Hc) & ->).
  exists w, n, c, w'. rewrite <- !app_assoc. repeat split; auto.
Qed.

Lemma sound_tag_in n names : In n names -> sound (tag n) (fun t _ => In t names).
Proof. intros H. eapply sound_weaken; [apply sound_tag|]. now intros t a (-> & _). Qed.

Lemma sound_other_condition : sound other_condition (at_text group_names).
Proof.
  apply sound_at_rule_condition. each; apply sound_tag_in; cbn [group_names In]; tauto.
Qed.

Lemma sound_keyframes_condition :
  sound (at_rule_condition [tag (lit "@keyframes"); fail_p]) (at_text [lit "@keyframes"]).
Proof.
  apply sound_at_rule_condition. each; [|apply sound_fail].
  apply sound_tag_in. now left.
Qed.

(** ** Contents *)

(** A nested rule as parsed by [rule_block(.., Other)]. *)
Definition rule_text (t : str) (r : rbc) : Prop :=
  exists w ct cond body content w', t = w ++ ct ++ lit "{" ++ body ++ lit "}" ++ w'
    /\ blank w /\ blank w' /\ at_text group_names ct cond /\ says_content body content
    /\ r = CRule cond content.

Lemma says_content_blank_l w t c : blank w -> says_content t c -> says_content (w ++ t) c.
Proof.
  intros Hw H. destruct H.
  - apply sc_end. now apply blank_app.
  - rewrite app_assoc. apply sc_decls; auto. now apply says_decls_blank_l.
  - rewrite app_assoc. apply sc_rule; auto. now apply blank_app.
Qed.

Lemma says_content_blank_r w t c : blank w -> says_content t c -> says_content (t ++ w) c.
Proof.
  intros Hw H. induction H.
  - apply sc_end. now apply blank_app.
  - rewrite <- app_assoc. now apply sc_decls.
  - rewrite <- !app_assoc. now apply sc_rule.
Qed.

Lemma sound_contents_loop rule :
  sound rule rule_text -> sound (contents_loop rule) says_content.
Proof.
  intros H. eapply sound_weaken.
  { apply sound_map, sound_many0.
    apply sound_alt with (R := fun t l => (exists al, l = map CAttr al /\ says_decls false t al)
                                       \/ (exists r, l = [r] /\ rule_text t r)).
    each.
    - eapply sound_weaken; [apply sound_map, sound_attributes|]. intros t a (al & Hal & ->). eauto.
    - eapply sound_weaken; [apply sound_map, H|]. intros t a (r & Hr & ->). eauto. }
  intros t c (ls & Hs & ->). induction Hs as [|t l t' ls Hl _ IH]; cbn [List.concat].
  - apply sc_end. constructor.
  - destruct Hl as [(al & -> & Hal)|(r & -> & w & ct & cond & body & content & w' & -> & Hw & Hw' & Hct & Hb & ->)].
    + now apply sc_decls.
    + rewrite <- !app_assoc. cbn [app]. now apply sc_rule.
Qed.

Lemma sound_rule_block_other d : sound (rule_block_other d) rule_text.
Proof.
  induction d as [|d IH]; [intros i r a E; discriminate|]. cbn [rule_block_other].
  eapply sound_weaken.
  { apply sound_trimmed, sound_non_empty, sound_map.
    eapply sound_separated_pair; [apply sound_other_condition|apply sound_tag|].
    eapply sound_terminated; [apply sound_non_empty, sound_contents_loop, IH|apply sound_tag]. }
  intros t r (w & u & w' & -> & Hw & Hw' & (cond & content) & (ct & c & b & -> & Hct & (_ & -> & _) & Hb) & ->).
  cbn [fst snd] in *. destruct Hb as (body & cl & -> & Hbody & (_ & -> & _)).
  exists w, ct, cond, body, content, w'. rewrite <- !app_assoc. repeat split; auto.
Qed.

Lemma sound_frame d : sound (rule_block_frame d) frame_text.
Proof.
  eapply sound_weaken.
  { apply sound_trimmed, sound_non_empty, sound_map.
    eapply sound_separated_pair; [apply sound_map, sound_recognize, sound_condition|apply sound_tag|].
    eapply sound_terminated;
      [apply sound_non_empty, sound_contents_loop, sound_rule_block_other|apply sound_tag]. }
  intros t r (w & u & w' & -> & Hw & Hw' & (cond & content) & (ct & c & b & -> & Hct & (_ & -> & _) & Hb) & ->).
  cbn [fst snd] in *. destruct Hb as (body & cl & -> & Hbody & (_ & -> & _)).
  destruct Hct as (x & (-> & l & Hl) & ->).
  exists w, ct, body, content, w'. rewrite <- !app_assoc. repeat split; eauto.
Qed.

(** One element of a scope. *)
Definition elem_text (t : str) (s : scope_content) : Prop :=
  forall t' c, says_scope t' c -> says_scope (t ++ t') (s :: c).

Lemma sound_dangling : sound dangling_block elem_text.
Proof.
  eapply sound_weaken; [apply sound_trimmed, sound_non_empty, sound_map, sound_attributes|].
  intros t s (w & u & w' & -> & Hw & Hw' & l & Hl & ->) t' c Hc.
  apply ss_decls; auto. now apply says_decls_blank_l, says_decls_blank_r.
Qed.

Lemma sound_block d : sound (block d) elem_text.
Proof.
  eapply sound_weaken.
  { apply sound_trimmed, sound_non_empty, sound_map. eapply sound_pair; [apply sound_condition|].
    eapply sound_delimited; [apply sound_tag| |apply sound_tag].
    apply sound_trimmed, sound_trimmed, sound_non_empty, sound_contents_loop, sound_rule_block_other. }
  intros t s (w & u & w' & -> & Hw & Hw' & (sels & content) & (ct & c & -> & Hct & Hc) & ->) t' l Hl.
  cbn [fst snd] in *. destruct Hc as (o & body & cl & -> & (_ & -> & _) & Hb & (_ & -> & _)).
  apply padded_idem in Hb. destruct Hb as (x & y & z & -> & Hx & Hz & Hy).
  replace ((w ++ (ct ++ lit "{" ++ (x ++ y ++ z) ++ lit "}") ++ w') ++ t')
    with (w ++ ct ++ lit "{" ++ (x ++ y ++ z) ++ lit "}" ++ w' ++ t') by now rewrite <- !app_assoc.
  apply ss_block; auto. now apply says_content_blank_l, says_content_blank_r.
Qed.

Lemma sound_keyframes d : sound (keyframes d) elem_text.
Proof.
  eapply sound_weaken.
  { apply sound_trimmed, sound_map.
    eapply sound_separated_pair; [apply sound_keyframes_condition|apply sound_tag|].
    eapply sound_terminated; [apply sound_many0, sound_frame|apply sound_tag]. }
  intros t s (w & u & w' & -> & Hw & Hw' & (cond & content) & (ct & c & b & -> & Hct & (_ & -> & _) & Hb) & ->) t' l Hl.
  cbn [fst snd] in *. destruct Hb as (body & cl & -> & Hbody & (_ & -> & _)).
  replace ((w ++ (ct ++ lit "{" ++ body ++ lit "}") ++ w') ++ t')
    with (w ++ ct ++ lit "{" ++ body ++ lit "}" ++ w' ++ t') by now rewrite <- !app_assoc.
  now apply ss_keyframes.
Qed.

Lemma says_scope_blank_l w t c : blank w -> says_scope t c -> says_scope (w ++ t) c.
Proof.
  intros Hw H. destruct H; try (rewrite app_assoc).
  - apply ss_end. now apply blank_app.
  - apply ss_decls; auto. now apply says_decls_blank_l.
  - apply ss_block; auto. now apply blank_app.
  - apply ss_rule; auto. now apply blank_app.
  - apply ss_keyframes; auto. now apply blank_app.
Qed.

Lemma says_scope_app t c t' c' : says_scope t c -> says_scope t' c' -> says_scope (t ++ t') (c ++ c').
Proof.
  intros H H'. induction H; rewrite <- ?app_assoc; cbn [app].
  - now apply says_scope_blank_l.
  - now apply ss_decls.
  - now apply ss_block.
  - now apply ss_rule.
  - now apply ss_keyframes.
Qed.

Lemma says_scope_blank_r w t c : blank w -> says_scope t c -> says_scope (t ++ w) c.
Proof. intros Hw H. rewrite <- (app_nil_r c). apply says_scope_app; auto. now apply ss_end. Qed.

Lemma sound_scope_contents d : sound (scope_contents d) says_scope.
Proof.
  induction d as [|d IH]; [intros i r a E; discriminate|]. cbn [scope_contents].
  eapply sound_weaken.
  { apply sound_trimmed, sound_non_empty, sound_many0.
    apply sound_alt with (R := elem_text). each.
    - apply sound_dangling.
    - apply sound_block.
    - eapply sound_weaken.
      { apply sound_trimmed, sound_non_empty, sound_map.
        eapply sound_separated_pair; [|apply sound_tag|].
        - apply (sound_at_rule_condition group_names).
          each; apply sound_tag_in; cbn [group_names In]; tauto.
        - eapply sound_terminated; [apply IH|apply sound_tag]. }
      intros t s (w & u & w' & -> & Hw & Hw' & (cond & content) & (ct & c & b & -> & Hct & (_ & -> & _) & Hb) & ->) t' l Hl.
      cbn [fst snd] in *. destruct Hb as (body & cl & -> & Hbody & (_ & -> & _)).
      replace ((w ++ (ct ++ lit "{" ++ body ++ lit "}") ++ w') ++ t')
        with (w ++ ct ++ lit "{" ++ body ++ lit "}" ++ w' ++ t') by now rewrite <- !app_assoc.
      now apply ss_rule.
    - apply sound_keyframes. }
  intros t l (w & u & w' & -> & Hw & Hw' & Hs).
  apply says_scope_blank_l; auto. apply says_scope_blank_r; auto.
  induction Hs as [|t a t' l Ha _ IHs]; [apply ss_end; constructor|]. now apply Ha.
Qed.

Lemma sound_sheet d : sound (sheet_p d) says_sheet.
Proof.
  eapply sound_weaken.
  { apply sound_trimmed, sound_map, sound_many0, sound_trimmed, sound_non_empty, sound_scope_contents. }
  intros t l (w & u & w' & -> & Hw & Hw' & ls & Hs & ->).
  apply says_scope_blank_l; auto. apply says_scope_blank_r; auto.
  induction Hs as [|t a t' l (x & y & z & -> & Hx & Hz & Hy) _ IHs]; cbn [List.concat].
  - apply ss_end. constructor.
  - apply says_scope_app; auto. now apply says_scope_blank_l, says_scope_blank_r.
Qed.
