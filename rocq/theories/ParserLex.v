(** * ParserLex: what the token parsers do on well-formed text. *)

From Coq Require Import String Ascii List NArith Bool Arith Lia.
From Verif Require Import Str StrFacts Ast Nom SpecSays SpecGrammar NomFacts CssParser
  ParserSound ParserTotal.
Import ListNotations.
Local Open Scope list_scope.

(** ** Repetition *)

Lemma many0_fuel_enough {A} (p : parser A) n m i :
  shrinks p -> List.length i < n -> List.length i < m -> many0_fuel n p i = many0_fuel m p i.
Proof.
  intros S. revert m i. induction n as [|n IH]; intros m i Hn Hm; [lia|].
  destruct m as [|m]; [lia|]. cbn. destruct (p i) eqn:E; auto.
  destruct (Nat.eqb_spec (List.length rest) (List.length i)); auto.
  apply shrinks_le in E; auto. rewrite (IH m); auto; lia.
Qed.

Lemma many0_stop_at {A} (p : parser A) i : p i = RErr -> many0 p i = ROk i [].
Proof. intros H. unfold many0. cbn. now rewrite H. Qed.

Lemma many0_step {A} (p : parser A) i r a :
  shrinks p -> p i = ROk r a -> List.length r < List.length i ->
  many0 p i = bind (many0 p r) (fun r' l => ROk r' (a :: l)).
Proof.
  intros S E H. unfold many0 at 1. cbn. rewrite E.
  destruct (Nat.eqb_spec (List.length r) (List.length i)); [lia|].
  unfold many0. rewrite (many0_fuel_enough p (List.length i) (Datatypes.S (List.length r))); auto.
Qed.

(** If [p] consumes a non-empty part of every text in [G] put before [X], and stops at [X],
    then repeating it consumes exactly the text. *)
Lemma many0_covers {A} (p : parser A) (G : str -> Prop) X :
  shrinks p -> p X = RErr ->
  (forall t, G t -> t <> [] ->
     exists t1 t2 a, t = t1 ++ t2 /\ t1 <> [] /\ G t2 /\ p (t ++ X) = ROk (t2 ++ X) a) ->
  forall t, G t -> exists l, many0 p (t ++ X) = ROk X l.
Proof.
  intros S HX HG t. remember (List.length t) as n eqn:Hn. revert t Hn.
  induction n as [n IH] using lt_wf_ind. intros t Hn Ht.
  destruct t as [|c t].
  - exists []. now apply many0_stop_at.
  - destruct (HG _ Ht) as (t1 & t2 & a & E & H1 & H2 & H3); [discriminate|].
    assert (Hl : List.length t2 < List.length (c :: t)).
    { rewrite E, app_length. destruct t1; [easy|]. cbn. lia. }
    destruct (IH (List.length t2)) with (t := t2) as [l El]; auto; [lia|].
    exists (a :: l). rewrite (many0_step p _ _ _ S H3).
    + rewrite El. reflexivity.
    + rewrite !app_length. lia.
Qed.

Lemma many1_covers {A} (p : parser A) (G : str -> Prop) X :
  shrinks p -> p X = RErr ->
  (forall t, G t -> t <> [] ->
     exists t1 t2 a, t = t1 ++ t2 /\ t1 <> [] /\ G t2 /\ p (t ++ X) = ROk (t2 ++ X) a) ->
  forall t, G t -> t <> [] -> exists l, many1 p (t ++ X) = ROk X l.
Proof.
  intros S HX HG t Ht Hn. destruct (HG _ Ht Hn) as (t1 & t2 & a & E & H1 & H2 & H3).
  destruct (many0_covers p G X S HX HG t2 H2) as [l El].
  exists (a :: l). unfold many1. rewrite H3. cbn [bind]. now rewrite El.
Qed.

Lemma recognize_ok {A} (p : parser A) t X a : p (t ++ X) = ROk X a -> recognize p (t ++ X) = ROk X t.
Proof. intros E. unfold recognize. rewrite E. cbn [bind]. now rewrite firstn_app_l. Qed.

Lemma tag_ok t X : tag t (t ++ X) = ROk X t.
Proof. unfold tag. rewrite starts_with_app, skipn_app, skipn_all, Nat.sub_diag. reflexivity. Qed.

Lemma tag_err c t X : match X with [] => True | x :: _ => x <> c end -> tag (c :: t) X = RErr.
Proof.
  unfold tag. destruct X as [|x X]; cbn; auto. intros H. apply char_eqb_neq in H.
  unfold char_eqb in *. rewrite N.eqb_sym in H. now rewrite H.
Qed.

Lemma tag_opt_err c t X : match X with [] => True | x :: _ => x <> c end ->
  opt (tag (c :: t)) X = ROk X None.
Proof. intros H. unfold opt. now rewrite tag_err. Qed.

Lemma span_app f a X :
  forallb f a = true -> match X with [] => True | c :: _ => f c = false end ->
  span f (a ++ X) = (a, X).
Proof.
  intros H HX. induction a as [|c a IH]; cbn in *.
  - destruct X as [|x X]; auto. cbn. now rewrite HX.
  - apply andb_true_iff in H. destruct H as [-> H]. now rewrite (IH H).
Qed.

Lemma take_while1_ok f a X :
  a <> [] -> forallb f a = true -> match X with [] => True | c :: _ => f c = false end ->
  take_while1 f (a ++ X) = ROk X a.
Proof.
  intros Hn H HX. unfold take_while1. rewrite span_app; auto. destruct a; [easy|reflexivity].
Qed.

Lemma take_while1_err f X : match X with [] => True | c :: _ => f c = false end -> take_while1 f X = RErr.
Proof. intros H. unfold take_while1. destruct X as [|c X]; cbn; auto. now rewrite H. Qed.

Lemma is_not_err set X : match X with [] => True | c :: _ => In c set end -> is_not set X = RErr.
Proof.
  intros H. apply take_while1_err. destruct X; auto. apply negb_false_iff. now apply mem_In.
Qed.

(** Every text splits into its longest prefix of [f]-chars and the rest. *)
Lemma split_run (f : char -> bool) (s : str) : exists a b, s = a ++ b /\ forallb f a = true
  /\ match b with [] => True | c :: _ => f c = false end.
Proof.
  destruct (span f s) as [a b] eqn:E. apply span_spec in E. destruct E as (-> & H1 & H2).
  now exists a, b.
Qed.

(** ** Blank space *)

(** The text after the leading blank space. *)
Definition dsp (i : str) : str := match sp i with ROk r _ => r | _ => i end.

Lemma sp_dsp i : exists w, sp i = ROk (dsp i) w /\ i = w ++ dsp i /\ blank w.
Proof.
  destruct (sp_ok i) as (r & w & E & Hi & Hw). unfold dsp. rewrite E. eauto.
Qed.

Lemma trimmed_eq {A} (f : parser A) i :
  trimmed f i = bind (f (dsp i)) (fun r a => ROk (dsp r) a).
Proof.
  unfold trimmed, delimited, preceded, terminated.
  destruct (sp_dsp i) as (w & -> & _). cbn [bind].
  destruct (f (dsp i)) as [r a| | |]; cbn [bind]; auto.
  destruct (sp_dsp r) as (w' & -> & _). reflexivity.
Qed.

Lemma shrinks_sp_item : shrinks sp_item.
Proof. apply shrinks_alt. each; [apply shrinks_take_while1|apply shrinks_cmt]. Qed.

Lemma dsp_many0 i r l : many0 sp_item i = ROk r l -> dsp i = r.
Proof.
  intros E. unfold dsp, sp, recognize.
  change (alt [take_while1 (fun c => mem c sp_chars); cmt]) with sp_item. now rewrite E.
Qed.

Lemma dsp_step i r a : sp_item i = ROk r a -> dsp i = dsp r.
Proof.
  intros E. assert (Hl := sp_item_consumes _ _ _ E).
  destruct (sp_dsp r) as (w & Er & _).
  unfold sp, recognize in Er. change (alt [take_while1 (fun c => mem c sp_chars); cmt]) with sp_item in Er.
  apply bind_ok in Er. destruct Er as (r' & l & Er & [= Hr _]). subst r'.
  apply dsp_many0 with (l := a :: l). rewrite (many0_step _ _ _ _ shrinks_sp_item E Hl), Er. reflexivity.
Qed.

Lemma dsp_stop i : sp_item i = RErr -> dsp i = i.
Proof. intros E. unfold dsp. now rewrite (sp_item_sp _ E). Qed.

Lemma dsp_idem i : dsp (dsp i) = dsp i.
Proof.
  apply dsp_stop. destruct (sp_dsp i) as (w & E & _). eapply sp_stop, E.
Qed.

(** Text at which no blank space starts. *)
Definition solid (X : str) : Prop :=
  match X with
  | [] => True
  | c :: X' => ~ In c css_ws /\ (c = ch "/" -> match X' with d :: _ => d <> ch "*" | [] => True end)
  end.

Lemma cmt_err X : (match X with c :: d :: _ => c = ch "/" -> d <> ch "*" | _ => True end) -> cmt X = RErr.
Proof.
  intros H. unfold cmt, delimited, preceded, tag at 1.
  destruct X as [|c [|d X]]; cbn [starts_with lit map list_ascii_of_string]; auto.
  - now rewrite andb_false_r.
  - destruct (char_eqb (N_of_ascii "/") c) eqn:E1; auto.
    destruct (char_eqb (N_of_ascii "*") d) eqn:E2; auto.
    apply char_eqb_eq in E1, E2. subst. exfalso. now apply H.
Qed.

Lemma solid_item X : solid X -> sp_item X = RErr.
Proof.
  intros H. unfold sp_item. cbn [alt]. rewrite take_while1_err.
  - rewrite cmt_err; auto. destruct X as [|c [|d X]]; auto. destruct H as [_ H]. exact H.
  - destruct X as [|c X]; auto. destruct H as [H _]. now apply mem_not_In.
Qed.

Lemma dsp_solid X : solid X -> dsp X = X.
Proof. intros H. now apply dsp_stop, solid_item. Qed.

Lemma dsp_ws c y : In c css_ws -> dsp (c :: y) = dsp y.
Proof.
  intros H. destruct (split_run (fun c => mem c sp_chars) y) as (a & b & -> & Ha & Hb).
  assert (Hc : mem c sp_chars = true) by now apply mem_In.
  assert (E : dsp (c :: a ++ b) = dsp b).
  { eapply dsp_step. unfold sp_item. cbn [alt]. change (c :: a ++ b) with ((c :: a) ++ b).
    rewrite take_while1_ok; auto; [discriminate|]. cbn [forallb]. now rewrite Hc. }
  rewrite E. destruct a as [|x a]; auto. symmetry.
  eapply dsp_step. unfold sp_item. cbn [alt]. rewrite take_while1_ok; auto. discriminate.
Qed.

(** A comment is parsed whole. *)
Lemma cmt_ok body y :
  ~ (exists a b, body = a ++ lit "*/" ++ b) -> cmt (lit "/*" ++ body ++ lit "*/" ++ y) = ROk y body.
Proof.
  intros H. unfold cmt.
  set (p := alt [is_not (lit "*"); terminated (tag (lit "*")) (not_p (char_p (ch "/")))]).
  assert (Sp : shrinks p).
  { apply shrinks_alt. each; [apply shrinks_is_not|].
    apply shrinks_terminated; [apply shrinks_tag|apply shrinks_not]. }
  destruct (many0_covers p (fun t => ~ (exists a b, t = a ++ lit "*/" ++ b)) (lit "*/" ++ y) Sp)
    with (t := body) as [l El]; auto.
  - clear body H. intros t Ht Hn.
    destruct (split_run (fun c => negb (mem c (lit "*"))) t) as (a & b & -> & Ha & Hb).
    destruct a as [|x a].
    + destruct b as [|c b]; [easy|]. cbn [app] in *. apply negb_false_iff, mem_In in Hb.
      destruct Hb as [<-|[]].
      exists (lit "*"), b, (lit "*"). split; [reflexivity|]. split; [discriminate|]. split.
      { intros (x & z & ->). apply Ht. now exists (ch "*" :: x), z. }
      unfold p. cbn [alt]. rewrite is_not_err by now left. unfold terminated.
      match goal with |- context [tag (lit "*") ?x] => change x with (lit "*" ++ (b ++ lit "*/" ++ y)) end.
      rewrite tag_ok. cbn [bind]. unfold not_p, char_p.
      destruct b as [|d b]; [reflexivity|]. cbn [app].
      destruct (char_eqb d (ch "/")) eqn:E; [|reflexivity].
      apply char_eqb_eq in E. subst d. exfalso. apply Ht. now exists [], b.
    + exists (x :: a), b, (x :: a). split; [reflexivity|]. split; [discriminate|]. split.
      { intros (u & z & ->). apply Ht. exists ((x :: a) ++ u), z. now rewrite <- !app_assoc. }
      unfold p. cbn [alt]. unfold is_not. rewrite <- app_assoc.
      rewrite take_while1_ok; auto; [discriminate|]. destruct b; [reflexivity|exact Hb].
  - unfold delimited, preceded, terminated. rewrite tag_ok. cbn [bind].
    rewrite (recognize_ok _ _ _ _ El). cbn [bind]. now rewrite tag_ok.
Qed.

Lemma dsp_blank w x : blank w -> dsp (w ++ x) = dsp x.
Proof.
  induction 1 as [|c w Hc _ IH|body w Hb _ IH]; auto.
  - cbn [app]. now rewrite dsp_ws.
  - rewrite <- IH. rewrite <- !app_assoc. eapply dsp_step. unfold sp_item. cbn [alt].
    rewrite take_while1_err.
    + now rewrite cmt_ok.
    + reflexivity.
Qed.

Lemma ws_blank w : ws w -> blank w.
Proof. apply blank_ws_all. Qed.

Lemma dsp_ws_solid w x : blank w -> solid x -> dsp (w ++ x) = x.
Proof. intros H1 H2. rewrite dsp_blank; auto. now apply dsp_solid. Qed.

(** ** Identifiers *)

Definition not_name_start (X : str) : Prop :=
  match X with [] => True | c :: _ => ~ name_char c end.

Lemma name_char_cases c : name_char c ->
  c = ch "-" \/ c = ch "_" \/ is_ascii_alnum c = true \/ is_ascii c = false.
Proof.
  unfold name_char, name_start, is_ascii_alnum, is_ascii. rewrite orb_true_iff, N.ltb_ge. tauto.
Qed.

Lemma alnum_name c : is_ascii_alnum c = true -> name_char c.
Proof. unfold is_ascii_alnum, name_char, name_start. rewrite orb_true_iff. tauto. Qed.
Lemma alpha_name c : is_ascii_alpha c = true -> name_char c.
Proof. unfold name_char, name_start. tauto. Qed.
Lemma nonascii_name c : negb (is_ascii c) = true -> name_char c.
Proof. intros H. apply non_ascii_name in H. unfold name_char, name_start. tauto. Qed.

Lemma Forall_forallb {A} (f : A -> bool) (P : A -> Prop) l :
  (forall x, P x -> f x = true) -> Forall P l -> forallb f l = true.
Proof. intros H. induction 1; cbn; auto. now rewrite H, IHForall. Qed.

(** One element of the repetition in [ident]. *)
Definition name_piece : parser str :=
  alt [tag (lit "-"); tag (lit "_"); alphanumeric1; take_while1 (fun c => negb (is_ascii c))].

Lemma take_run f (t X : str) c :
  f c = true -> (match X with [] => True | d :: _ => f d = false end) ->
  exists t1 t2, c :: t = t1 ++ t2 /\ t1 <> [] /\ take_while1 f ((c :: t) ++ X) = ROk (t2 ++ X) t1.
Proof.
  intros Hc HX. destruct (split_run f (c :: t)) as (a & b & E & Ha & Hb).
  exists a, b. split; auto. assert (a <> []).
  { intros ->. cbn in E. rewrite <- E in Hb. congruence. }
  split; auto. rewrite E, <- app_assoc. apply take_while1_ok; auto.
  destruct b; auto.
Qed.

Lemma not_name_false X (f : char -> bool) :
  (forall c, f c = true -> name_char c) -> not_name_start X ->
  match X with [] => True | d :: _ => f d = false end.
Proof.
  intros Hf H. destruct X as [|d X]; auto. destruct (f d) eqn:E; auto. elim H. now apply Hf.
Qed.

Lemma dash_name : name_char (ch "-").
Proof. left. now left. Qed.
Lemma underscore_name : name_char (ch "_").
Proof. left. right. now left. Qed.

Lemma name_piece_stop X : not_name_start X -> name_piece X = RErr.
Proof.
  intros H. unfold name_piece, alphanumeric1. cbn [alt].
  change (lit "-") with [ch "-"]. change (lit "_") with [ch "_"].
  rewrite !tag_err, !take_while1_err; auto;
    try (apply (not_name_false X _ nonascii_name H));
    try (apply (not_name_false X _ alnum_name H));
    destruct X; auto; intros ->; apply H; [apply underscore_name|apply dash_name].
Qed.

Lemma shrinks_name_piece : shrinks name_piece.
Proof.
  apply shrinks_alt. each; try apply shrinks_tag; apply shrinks_take_while1.
Qed.

Lemma tag1_ok c t X : tag [c] ((c :: t) ++ X) = ROk (t ++ X) [c].
Proof. apply (tag_ok [c] (t ++ X)). Qed.

Lemma name_piece_ok t X : not_name_start X -> Forall name_char t -> t <> [] ->
  exists t1 t2 a, t = t1 ++ t2 /\ t1 <> [] /\ Forall name_char t2 /\ name_piece (t ++ X) = ROk (t2 ++ X) a.
Proof.
  intros HX Ht Hn. destruct t as [|c t]; [easy|]. inversion Ht as [|? ? Hc Ht' ]; subst.
  unfold name_piece. cbn [alt]. change (lit "-") with [ch "-"]. change (lit "_") with [ch "_"].
  destruct (N.eq_dec c (ch "-")) as [->|N1].
  { exists [ch "-"], t, [ch "-"]. rewrite tag1_ok.
    repeat split; auto. discriminate. }
  rewrite (tag_err (ch "-") []) by exact N1.
  destruct (N.eq_dec c (ch "_")) as [->|N2].
  { exists [ch "_"], t, [ch "_"]. rewrite tag1_ok.
    repeat split; auto. discriminate. }
  rewrite (tag_err (ch "_") []) by exact N2.
  apply name_char_cases in Hc. destruct Hc as [?|[?|[Hc|Hc]]]; try easy.
  - destruct (take_run is_ascii_alnum t X c Hc) as (t1 & t2 & E1 & E2 & E3).
    { apply (not_name_false X _ alnum_name HX). }
    exists t1, t2, t1. unfold alphanumeric1. rewrite E3. repeat split; auto.
    rewrite E1 in Ht. apply Forall_app in Ht. tauto.
  - unfold alphanumeric1. rewrite take_while1_err.
    + destruct (take_run (fun c => negb (is_ascii c)) t X c) as (t1 & t2 & E1 & E2 & E3).
      { now rewrite Hc. }
      { apply (not_name_false X _ nonascii_name HX). }
      exists t1, t2, t1. rewrite E3. repeat split; auto.
      rewrite E1 in Ht. apply Forall_app in Ht. tauto.
    + cbn. unfold is_ascii_alnum, is_ascii_alpha, is_ascii_digit. unfold is_ascii in Hc.
      apply N.ltb_ge in Hc.
      destruct (N.leb_spec c 90), (N.leb_spec c 122), (N.leb_spec c 57); try lia.
Qed.

Lemma name_start_err c : name_start c -> is_ascii_digit c = false.
Proof.
  unfold name_start, is_ascii_alpha, is_ascii_digit.
  intros [->|[->|[H|H]]]; auto.
  - apply orb_true_iff in H. rewrite !andb_true_iff, !N.leb_le in H.
    destruct (N.leb_spec c 57); [|now rewrite andb_false_r]. lia.
  - destruct (N.leb_spec c 57); [|now rewrite andb_false_r]. lia.
Qed.

Lemma ident_ok k X : name k -> not_name_start X -> ident (k ++ X) = ROk X k.
Proof.
  intros (c & r & -> & Hc & Hr) HX. unfold ident.
  match goal with |- recognize (preceded ?p (many0 ?q)) _ = _ => set (first := p); change q with name_piece end.
  assert (Hf : exists t1 t2 a, c :: r = t1 ++ t2 /\ Forall name_char t2 /\ first ((c :: r) ++ X) = ROk (t2 ++ X) a).
  { unfold first. cbn [alt]. change (lit "-") with [ch "-"]. change (lit "_") with [ch "_"].
    destruct (N.eq_dec c (ch "-")) as [->|N1].
    { exists [ch "-"], r, [ch "-"]. rewrite tag1_ok. auto. }
    rewrite (tag_err (ch "-") []) by exact N1.
    destruct (N.eq_dec c (ch "_")) as [->|N2].
    { exists [ch "_"], r, [ch "_"]. rewrite tag1_ok. auto. }
    rewrite (tag_err (ch "_") []) by exact N2.
    assert (Hall : forall t1 t2, c :: r = t1 ++ t2 -> t1 <> [] -> Forall name_char t2).
    { intros t1 t2 E Hn. destruct t1 as [|x t1]; [easy|]. injection E as -> ->.
      apply Forall_app in Hr. tauto. }
    destruct (is_ascii_alpha c) eqn:Ea.
    - destruct (take_run is_ascii_alpha r X c Ea) as (t1 & t2 & E1 & E2 & E3).
      { apply (not_name_false X _ alpha_name HX). }
      exists t1, t2, t1. unfold alpha1. rewrite E3. repeat split; auto. eauto.
    - destruct Hc as [?|[?|[?|Hc]]]; try easy; try congruence.
      unfold alpha1. rewrite take_while1_err by exact Ea.
      destruct (take_run (fun c => negb (is_ascii c)) r X c) as (t1 & t2 & E1 & E2 & E3).
      { apply negb_true_iff. unfold is_ascii. apply N.ltb_ge. exact Hc. }
      { apply (not_name_false X _ nonascii_name HX). }
      exists t1, t2, t1. rewrite E3. repeat split; auto. eauto. }
  destruct Hf as (t1 & t2 & a & E1 & E2 & E3).
  destruct (many0_covers name_piece (Forall name_char) X shrinks_name_piece) with (t := t2) as [l El]; auto.
  - now apply name_piece_stop.
  - intros t Ht Hn. now apply name_piece_ok.
  - apply recognize_ok with (a := l). unfold preceded. rewrite E3. exact El.
Qed.

Lemma ident_err X : match X with [] => True | c :: _ => ~ name_start c end -> ident X = RErr.
Proof.
  intros H. unfold ident, recognize, preceded. cbn [alt].
  change (lit "-") with [ch "-"]. change (lit "_") with [ch "_"].
  assert (H1 : forall c, (c = ch "-" \/ c = ch "_") -> tag [c] X = RErr).
  { intros c Hc. apply tag_err. destruct X as [|x X]; auto. intros ->. apply H.
    destruct Hc as [->| ->]; [now left|right; now left]. }
  rewrite (H1 (ch "-")), (H1 (ch "_")); auto. unfold alpha1. rewrite !take_while1_err; auto.
  - destruct X as [|x X]; auto. destruct (negb (is_ascii x)) eqn:E; auto. elim H.
    apply non_ascii_name in E. right. right. now right.
  - destruct X as [|x X]; auto. destruct (is_ascii_alpha x) eqn:E; auto. elim H.
    right. right. now left.
Qed.
