(** * ParserTokens: strings, interpolations, values, selectors and conditions. *)

From Coq Require Import String Ascii List NArith Bool Arith Lia.
From Verif Require Import Str StrFacts Ast Nom SpecSays SpecGrammar NomFacts CssParser
  ParserSound ParserTotal ParserLex.
Import ListNotations.
Local Open Scope list_scope.

Definition head_not (set : str) (X : str) : Prop :=
  match X with [] => True | c :: _ => ~ In c set end.

Lemma non_empty_app {A} (p : parser A) t X : t <> [] -> expect_non_empty p (t ++ X) = p (t ++ X).
Proof. destruct t; [easy|reflexivity]. Qed.

Lemma preceded_ok {A B} (p : parser A) (q : parser B) i r a :
  p i = ROk r a -> preceded p q i = q r.
Proof. intros E. unfold preceded. now rewrite E. Qed.
Lemma terminated_ok {A B} (p : parser A) (q : parser B) i r a r' b :
  p i = ROk r a -> q r = ROk r' b -> terminated p q i = ROk r' a.
Proof. intros E E'. unfold terminated. rewrite E. cbn [bind]. now rewrite E'. Qed.
Lemma pair_ok {A B} (p : parser A) (q : parser B) i r a r' b :
  p i = ROk r a -> q r = ROk r' b -> pair_p p q i = ROk r' (a, b).
Proof. intros E E'. unfold pair_p. rewrite E. cbn [bind]. now rewrite E'. Qed.
Lemma map_ok {A B} (f : A -> B) p i r a : p i = ROk r a -> map_p f p i = ROk r (f a).
Proof. intros E. unfold map_p. now rewrite E. Qed.
Lemma preceded_err {A B} (p : parser A) (q : parser B) i : p i = RErr -> preceded p q i = RErr.
Proof. intros E. unfold preceded. now rewrite E. Qed.
Lemma terminated_err {A B} (p : parser A) (q : parser B) i : p i = RErr -> terminated p q i = RErr.
Proof. intros E. unfold terminated. now rewrite E. Qed.
Lemma pair_err {A B} (p : parser A) (q : parser B) i : p i = RErr -> pair_p p q i = RErr.
Proof. intros E. unfold pair_p. now rewrite E. Qed.
Lemma map_err {A B} (f : A -> B) p i : p i = RErr -> map_p f p i = RErr.
Proof. intros E. unfold map_p. now rewrite E. Qed.
Lemma recognize_err {A} (p : parser A) i : p i = RErr -> recognize p i = RErr.
Proof. intros E. unfold recognize. now rewrite E. Qed.
Lemma non_empty_err {A} (p : parser A) i : p i = RErr -> expect_non_empty p i = RErr.
Proof. destruct i; auto. Qed.
Lemma trimmed_ok {A} (f : parser A) i r a : f (dsp i) = ROk r a -> trimmed f i = ROk (dsp r) a.
Proof. intros E. rewrite trimmed_eq, E. reflexivity. Qed.
Lemma trimmed_err {A} (f : parser A) i : f (dsp i) = RErr -> trimmed f i = RErr.
Proof. intros E. rewrite trimmed_eq, E. reflexivity. Qed.
Lemma alt_err_cons {A} (p : parser A) ps i : p i = RErr -> alt (p :: ps) i = alt ps i.
Proof. intros E. cbn [alt]. now rewrite E. Qed.
Lemma alt_ok_cons {A} (p : parser A) ps i r a : p i = ROk r a -> alt (p :: ps) i = ROk r a.
Proof. intros E. cbn [alt]. now rewrite E. Qed.
Lemma many1_err {A} (p : parser A) i : p i = RErr -> many1 p i = RErr.
Proof. intros E. unfold many1. now rewrite E. Qed.

(** ** Strings *)

Definition string_char : parser str :=
  alt [is_not (lit "\" ++ dquote); recognize (preceded (tag (lit "\")) anychar)].

Lemma string_body_tail c t : string_body (c :: t) -> c <> 92%N -> string_body t.
Proof. intros H Hc. inversion H; subst; auto. congruence. Qed.

Lemma string_body_run f a b :
  (forall c, f c = true -> c <> 92%N) -> forallb f a = true -> string_body (a ++ b) -> string_body b.
Proof.
  intros Hf. induction a as [|c a IH]; auto. cbn [forallb app]. rewrite andb_true_iff.
  intros [Hc Ha] H. apply IH; auto. eapply string_body_tail; [exact H|]. now apply Hf.
Qed.

Lemma string_char_ok t y : string_body t -> t <> [] ->
  exists t1 t2 a, t = t1 ++ t2 /\ t1 <> [] /\ string_body t2
    /\ string_char (t ++ dquote ++ y) = ROk (t2 ++ dquote ++ y) a.
Proof.
  intros Ht Hn. destruct Ht as [|c b H1 H2 Hb|c b Hb]; [easy| |].
  - destruct (take_run (fun c => negb (mem c (lit "\" ++ dquote))) b (dquote ++ y) c)
      as (t1 & t2 & E1 & E2 & E3).
    { apply negb_true_iff, mem_not_In. cbn. intros [E|[E|[]]]; [now apply H1|now apply H2]. }
    { reflexivity. }
    exists t1, t2, t1. unfold string_char. cbn [alt]. unfold is_not. rewrite E3.
    repeat split; auto.
    assert (Hr : forallb (fun c => negb (mem c (lit "\" ++ dquote))) t1 = true).
    { destruct (sound_take_while1 _ _ _ _ E3) as (t & Et & -> & _ & Hf). exact Hf. }
    apply (string_body_run _ t1 t2) in Hr; auto.
    + intros x Hx ->. discriminate.
    + rewrite <- E1. now apply sb_char.
  - exists [92%N; c], b, [92%N; c]. split; [reflexivity|]. split; [discriminate|]. split; auto.
    unfold string_char. cbn [alt]. rewrite is_not_err by now left.
    change ((92%N :: c :: b) ++ dquote ++ y) with ([92%N; c] ++ (b ++ dquote ++ y)).
    erewrite recognize_ok; reflexivity.
Qed.

Lemma string_p_ok s y : string_text s -> string_p (s ++ y) = ROk (dsp y) s.
Proof.
  intros (b & -> & Hb). unfold string_p. rewrite trimmed_eq, dsp_solid.
  2:{ split; [cbn; intuition discriminate|]. intros E. discriminate. }
  destruct (many0_covers string_char string_body (dquote ++ y)) with (t := b) as [l El]; auto.
  - apply shrinks_alt. each; [apply shrinks_is_not|].
    apply shrinks_recognize, shrinks_preceded; [apply shrinks_tag|apply shrinks_anychar].
  - intros t Ht Hn. now apply string_char_ok.
  - rewrite non_empty_app by discriminate. erewrite recognize_ok; [reflexivity|].
    erewrite preceded_ok; [|rewrite <- app_assoc; apply (tag_ok dquote)].
    eapply terminated_ok; [rewrite <- app_assoc; exact El|apply (tag_ok dquote)].
Qed.

Lemma string_p_err X : match dsp X with [] => True | c :: _ => c <> 34%N end -> string_p X = RErr.
Proof.
  intros H. apply trimmed_err, non_empty_err, recognize_err, preceded_err.
  apply (tag_err 34%N []). exact H.
Qed.

(** ** Interpolations *)

Definition interp_char : parser str := alt [alphanumeric1; tag (lit "_")].

Lemma blank_head w c X : blank w -> (w ++ c :: X) <> [] ->
  exists d Y, w ++ c :: X = d :: Y /\ (In d (lit "/" ++ css_ws) \/ d = c).
Proof.
  intros H _. destruct H as [|x w Hx _|body w _ _].
  - exists c, X. auto.
  - exists x, (w ++ c :: X). split; auto. left. apply in_or_app. auto.
  - exists (ch "/"). eexists. split; [reflexivity|]. left. now left.
Qed.

Lemma interp_char_ok t X :
  Forall (fun x => is_ascii_alnum x = true \/ x = ch "_") t -> t <> [] ->
  match X with [] => True | d :: _ => is_ascii_alnum d = false end ->
  exists t1 t2 a, t = t1 ++ t2 /\ t1 <> []
    /\ Forall (fun x => is_ascii_alnum x = true \/ x = ch "_") t2
    /\ interp_char (t ++ X) = ROk (t2 ++ X) a.
Proof.
  intros Ht Hn HX. destruct t as [|c t]; [easy|]. inversion Ht as [|? ? Hc Ht']; subst.
  destruct (is_ascii_alnum c) eqn:E.
  - destruct (take_run is_ascii_alnum t X c E HX) as (t1 & t2 & E1 & E2 & E3).
    exists t1, t2, t1. repeat split; auto.
    + rewrite E1 in Ht. apply Forall_app in Ht. tauto.
    + unfold interp_char. now apply alt_ok_cons.
  - destruct Hc as [Hc| ->]; [congruence|].
    exists [ch "_"], t, [ch "_"]. repeat split; auto. discriminate.
Qed.

Lemma alnum_alpha c : is_ascii_alnum c = false -> is_ascii_alpha c = false.
Proof. unfold is_ascii_alnum. rewrite orb_false_iff. tauto. Qed.

Lemma interp_name_ok n X : interp_name n ->
  match X with [] => True | d :: _ => is_ascii_alnum d = false /\ d <> ch "_" end ->
  recognize (preceded alpha1 (many0 interp_char)) (n ++ X) = ROk X n.
Proof.
  intros (c & r & -> & Hc & Hr) HX.
  assert (HX1 : match X with [] => True | d :: _ => is_ascii_alnum d = false end)
    by (destruct X; tauto).
  destruct (take_run is_ascii_alpha r X c Hc) as (t1 & t2 & E1 & E2 & E3).
  { destruct X; auto. now apply alnum_alpha. }
  assert (Ht2 : Forall (fun x => is_ascii_alnum x = true \/ x = ch "_") t2).
  { destruct t1 as [|x t1]; [easy|]. injection E1 as -> ->. apply Forall_app in Hr. tauto. }
  destruct (many0_covers interp_char (Forall (fun x => is_ascii_alnum x = true \/ x = ch "_")) X)
    with (t := t2) as [l El]; auto.
  - apply shrinks_alt. each; [apply shrinks_take_while1|apply shrinks_tag].
  - unfold interp_char. rewrite alt_err_cons; [|now apply take_while1_err].
    rewrite alt_err_cons; auto. apply (tag_err (ch "_") []). destruct X; tauto.
  - intros t Ht Hn. now apply interp_char_ok.
  - apply recognize_ok with (a := l). erewrite preceded_ok; [exact El|exact E3].
Qed.

Lemma alpha_solid c X : is_ascii_alpha c = true -> solid (c :: X).
Proof.
  intros H. split.
  - intros Hin. cbn in Hin. destruct Hin as [<-|[<-|[<-|[<-|[]]]]]; discriminate.
  - intros ->. discriminate.
Qed.

Lemma interpolation_ok s y : interp_text s -> exists a, interpolation (s ++ y) = ROk (dsp y) a.
Proof.
  intros (w & n & w' & -> & Hw & Hw' & Hn). exists n.
  unfold interpolation. apply trimmed_ok. rewrite dsp_solid.
  2:{ split; [cbn; intuition discriminate|]. intros E. discriminate. }
  rewrite non_empty_app by discriminate. unfold delimited.
  erewrite preceded_ok; [|rewrite <- app_assoc; apply tag_ok].
  eapply terminated_ok; [|apply (tag_ok (lit "}"))].
  erewrite trimmed_ok.
  2:{ rewrite <- !app_assoc. rewrite dsp_ws_solid; auto.
      - apply (interp_name_ok n (w' ++ lit "}" ++ y)); auto.
        destruct (blank_head w' (ch "}") y Hw') as (d & Y & E & Hd); [now destruct w'|].
        change (lit "}" ++ y) with (ch "}" :: y). rewrite E.
        destruct Hd as [Hd| ->]; [|split; [reflexivity|discriminate]].
        cbn in Hd. destruct Hd as [<-|[<-|[<-|[<-|[<-|[]]]]]]; split; (reflexivity || discriminate).
      - destruct Hn as (c & r & -> & Hc & _). now apply alpha_solid. }
  rewrite dsp_ws_solid; auto. split; [cbn; intuition discriminate|]. intros E; discriminate.
Qed.

Lemma interpolation_err X :
  match dsp X with [] => True | c :: _ => c <> ch "$" end -> interpolation X = RErr.
Proof.
  intros H. apply trimmed_err, non_empty_err, preceded_err.
  apply (tag_err (ch "$") (lit "{")). exact H.
Qed.

(** ** Trimmed text *)

Lemma css_ws_uni c : In c css_ws -> is_uni_ws c = true.
Proof. cbn. intros [<-|[<-|[<-|[<-|[]]]]]; reflexivity. Qed.

Lemma ws_uni w : ws w -> forallb is_uni_ws w = true.
Proof. intros H. eapply Forall_forallb; [|exact H]. apply css_ws_uni. Qed.

Lemma trim_id_head c t : trim (c :: t) = c :: t -> is_uni_ws c = false.
Proof.
  intros H. destruct (is_uni_ws c) eqn:E; auto. exfalso.
  assert (L : List.length (trim (c :: t)) <= List.length t).
  { unfold trim. cbn [trim_start]. rewrite E.
    destruct (trim_end_split (trim_start t)) as (w & E1 & _).
    destruct (trim_start_split t) as (w2 & E2 & _).
    apply (f_equal (@List.length _)) in E1, E2. rewrite app_length in E1, E2. lia. }
  rewrite H in L. cbn in L. lia.
Qed.

Lemma trim_id_last u c : trim (u ++ [c]) = u ++ [c] -> is_uni_ws c = false.
Proof.
  intros H. destruct (is_uni_ws c) eqn:E; auto. exfalso.
  rewrite trim_ws_r in H by (cbn; now rewrite E).
  assert (L : List.length (trim u) <= List.length u).
  { unfold trim. destruct (trim_end_split (trim_start u)) as (w & E1 & _).
    destruct (trim_start_split u) as (w2 & E2 & _).
    apply (f_equal (@List.length _)) in E1, E2. rewrite app_length in E1, E2. lia. }
  rewrite H, app_length in L. cbn in L. lia.
Qed.

Lemma tight_trim_r v w : trim v = v -> ws w -> trim (v ++ w) = v.
Proof. intros H Hw. rewrite trim_ws_r; auto. now apply ws_uni. Qed.

(** ** Atoms *)

Lemma atom_head s : atom s -> exists c r, s = c :: r /\ (c = 34%N \/ c = ch "$").
Proof.
  intros [(b & -> & _)|(w & n & w' & -> & _)].
  - exists 34%N. eexists. split; [reflexivity|]. auto.
  - exists (ch "$"). eexists. split; [reflexivity|]. auto.
Qed.

Lemma atom_last s : atom s -> exists r c, s = r ++ [c] /\ In c (lit "}" ++ [34%N]).
Proof.
  intros [(b & -> & _)|(w & n & w' & -> & _)].
  - exists ([34%N] ++ b), 34%N. rewrite <- app_assoc. split; auto. cbn. auto.
  - exists (lit "${" ++ w ++ n ++ w'), (ch "}"). rewrite <- !app_assoc. split; auto. cbn. auto.
Qed.

Lemma atom_nonempty s : atom s -> s <> [].
Proof. intros H. apply atom_head in H. destruct H as (c & r & -> & _). discriminate. Qed.

Lemma ws_not_atom_end t : ws t -> ~ exists a u w, t = a ++ u ++ w /\ atom u /\ ws w.
Proof.
  intros H (a & u & w & -> & Hu & _). apply atom_last in Hu. destruct Hu as (r & c & -> & Hc).
  unfold ws in H. rewrite !Forall_app in H. destruct H as (_ & (_ & H) & _). inversion H as [|? ? Hc' _]; subst.
  cbn in Hc, Hc'. destruct Hc as [<-|[<-|[]]]; intuition discriminate.
Qed.

(** An atom is consumed by one of the two parsers, up to the blank space after it. *)
Lemma atom_alt s y ps : atom s ->
  exists a, alt (recognize interpolation :: string_p :: ps) (s ++ y) = ROk (dsp y) a.
Proof.
  intros [H|H].
  - exists s. rewrite alt_err_cons; [|apply recognize_err, interpolation_err].
    + apply alt_ok_cons. now apply string_p_ok.
    + destruct H as (b & -> & _). rewrite dsp_solid; [discriminate|].
      split; [cbn; intuition discriminate|]. intros E; discriminate.
  - destruct (interpolation_ok s y H) as [a Ha].
    unfold recognize. cbn [alt]. rewrite Ha. cbn [bind]. eauto.
Qed.

Lemma atom_alt_sel s y :  atom s ->
  exists a, alt [string_p; recognize interpolation] (s ++ y) = ROk (dsp y) a.
Proof.
  intros [H|H].
  - exists s. apply alt_ok_cons. now apply string_p_ok.
  - destruct (interpolation_ok s y H) as [a Ha]. rewrite alt_err_cons.
    + unfold recognize. cbn [alt]. rewrite Ha. cbn [bind]. eauto.
    + apply string_p_err. destruct H as (w & n & w' & -> & _).
      rewrite dsp_solid; [discriminate|].
      split; [cbn; intuition discriminate|]. intros E; discriminate.
Qed.

(** ** Values *)

Definition value_set : str := lit "${;}/" ++ [34%N].

Definition value_chunk : parser str :=
  alt [is_not (lit "${;}/" ++ dquote);
       recognize interpolation;
       string_p;
       recognize (preceded (tag (lit "/")) (none_of (lit "${;}" ++ dquote ++ lit "*")))].

Lemma value_text_tail c t : value_text (c :: t) -> ~ In c value_set -> value_text t.
Proof.
  intros H Hc. inversion H as [|? ? ? ?|d v Hd Hv E|s v Hs Hv E]; subst; auto.
  - exfalso. apply Hc. cbn. tauto.
  - exfalso. apply Hc. apply atom_head in Hs. destruct Hs as (x & r & -> & Hx).
    injection E as -> _. destruct Hx as [->| ->]; cbn; tauto.
Qed.

Lemma value_text_drop a b :
  Forall (fun c => ~ In c value_set) a -> value_text (a ++ b) -> value_text b.
Proof. induction 1; auto. intros H'. apply IHForall. eapply value_text_tail; eauto. Qed.

Lemma css_ws_plain c : In c css_ws -> ~ In c value_set.
Proof. cbn. intros [<-|[<-|[<-|[<-|[]]]]]; intuition discriminate. Qed.

Lemma value_text_app a b : value_text a -> value_text b -> value_text (a ++ b).
Proof.
  intros Ha Hb. induction Ha; cbn [app]; auto.
  - now apply vt_plain.
  - now apply vt_slash.
  - rewrite <- app_assoc. now apply vt_atom.
Qed.

Lemma ws_value w : ws w -> value_text w.
Proof.
  induction 1 as [|c w Hc _ IH]; [constructor|]. apply vt_plain; auto. now apply css_ws_plain.
Qed.

Lemma value_solid t Y : value_text t -> t <> [] -> head_not css_ws t -> solid (t ++ Y).
Proof.
  intros H Hn Hh. destruct H as [|c v Hc Hv|c v Hc Hv|s v Hs Hv]; [easy| | |].
  - split; auto. intros ->. exfalso. apply Hc. cbn. tauto.
  - split; auto. intros _ ->. apply Hc. cbn. tauto.
  - apply atom_head in Hs. destruct Hs as (c & r & -> & Hc). split; auto.
    intros ->. destruct Hc; discriminate.
Qed.

(** Dropping the white space in front of the rest of a value. *)
Lemma value_dsp v Y :
  value_text v ->
  (solid Y \/ ~ ws v) ->
  exists a b, v = a ++ b /\ ws a /\ value_text b /\ dsp (v ++ Y) = b ++ Y.
Proof.
  intros Hv H. destruct (split_run (fun c => mem c css_ws) v) as (a & b & -> & Ha & Hb).
  assert (Hwa : ws a).
  { eapply forallb_Forall; [|exact Ha]. intros c Hc. now apply mem_In. }
  exists a, b. repeat split; auto.
  - eapply value_text_drop; [|exact Hv]. eapply Forall_impl; [|exact Hwa]. apply css_ws_plain.
  - rewrite <- app_assoc, dsp_blank by now apply ws_blank. apply dsp_solid.
    destruct b as [|c b].
    + rewrite app_nil_r in H. destruct H as [H|H]; [exact H|]. now elim H.
    + apply value_solid; [|discriminate|].
      * eapply value_text_drop; [|exact Hv]. eapply Forall_impl; [|exact Hwa]. apply css_ws_plain.
      * cbn [head_not]. now apply mem_not_In.
Qed.

Lemma shrinks_value_chunk : shrinks value_chunk.
Proof.
  apply shrinks_alt. each.
  - apply shrinks_is_not.
  - apply shrinks_recognize, shrinks_interpolation.
  - apply shrinks_string.
  - apply shrinks_recognize, shrinks_preceded; [apply shrinks_tag|apply shrinks_none_of].
Qed.

Definition value_end (Y : str) : Prop :=
  match Y with [] => True | c :: _ => In c value_set end.

Definition no_atom_end (t : str) : Prop := ~ exists a u w, t = a ++ u ++ w /\ atom u /\ ws w.

Lemma no_atom_end_suffix a b : no_atom_end (a ++ b) -> no_atom_end b.
Proof. intros H (x & u & w & -> & Hu). apply H. exists (a ++ x), u, w. now rewrite <- app_assoc. Qed.

Lemma value_chunk_ok Y t :
  value_end Y ->
  value_text t -> (solid Y \/ no_atom_end t) -> t <> [] ->
  exists t1 t2 a, t = t1 ++ t2 /\ t1 <> [] /\ (value_text t2 /\ (solid Y \/ no_atom_end t2))
    /\ value_chunk (t ++ Y) = ROk (t2 ++ Y) a.
Proof.
  intros HY Ht He Hn.
  assert (Hsuf : forall t1 t2, t = t1 ++ t2 -> solid Y \/ no_atom_end t2).
  { intros t1 t2 ->. destruct He as [He|He]; auto. right. eapply no_atom_end_suffix, He. }
  destruct Ht as [|c v Hc Hv|c v Hc Hv|s v Hs Hv]; [easy| | |].
  - destruct (take_run (fun c => negb (mem c value_set)) v Y c) as (t1 & t2 & E1 & E2 & E3).
    { apply negb_true_iff, mem_not_In. exact Hc. }
    { destruct Y; auto. apply negb_false_iff, mem_In. exact HY. }
    exists t1, t2, t1. repeat split; auto.
    + destruct (sound_take_while1 _ _ _ _ E3) as (t & Et & -> & _ & Hf).
      apply (value_text_drop t1).
      * eapply forallb_Forall; [|exact Hf]. intros x Hx. apply negb_true_iff in Hx. now apply mem_not_In.
      * rewrite <- E1. now apply vt_plain.
    + eauto.
    + unfold value_chunk. now apply alt_ok_cons.
  - exists [ch "/"; c], v, [ch "/"; c]. repeat split; auto; [discriminate|now apply (Hsuf [ch "/"; c])|].
    assert (Hso : solid (ch "/" :: c :: v ++ Y)).
    { split; [cbn; intuition discriminate|]. intros _ ->. apply Hc. cbn. tauto. }
    unfold value_chunk. cbn [app].
    rewrite alt_err_cons by (apply is_not_err; cbn; tauto).
    rewrite alt_err_cons by (apply recognize_err, interpolation_err; rewrite (dsp_solid _ Hso); discriminate).
    rewrite alt_err_cons by (apply string_p_err; rewrite (dsp_solid _ Hso); discriminate).
    apply alt_ok_cons. change (ch "/" :: c :: v ++ Y) with ([ch "/"; c] ++ (v ++ Y)).
    eapply recognize_ok. erewrite preceded_ok; [|apply (tag1_ok (ch "/") [c])].
    cbn [app]. unfold none_of. destruct (mem c (lit "${;}" ++ dquote ++ lit "*")) eqn:E; [|reflexivity].
    exfalso. apply mem_In in E. apply Hc. cbn in E |- *. tauto.
  - destruct (value_dsp v Y Hv) as (a & b & -> & Ha & Hb & Hd).
    { destruct He as [He|He]; auto. right. intros Hw. apply He. exists [], s, v. auto. }
    assert (Hs' := Hs). apply atom_head in Hs'. destruct Hs' as (c & r & Es & Hc).
    destruct (atom_alt s ((a ++ b) ++ Y)
      [recognize (preceded (tag (lit "/")) (none_of (lit "${;}" ++ dquote ++ lit "*")))] Hs) as [x Hx].
    exists (s ++ a), b, x. repeat split; auto.
    + now rewrite app_assoc.
    + subst s. discriminate.
    + apply (Hsuf (s ++ a)). now rewrite <- app_assoc.
    + unfold value_chunk. rewrite <- app_assoc. rewrite alt_err_cons.
      * rewrite Hx. f_equal. exact Hd.
      * apply is_not_err. subst s. cbn [app]. destruct Hc as [->| ->]; cbn; tauto.
Qed.

Lemma value_many T Y :
  value_end Y -> value_chunk Y = RErr ->
  value_text T -> T <> [] -> (solid Y \/ no_atom_end T) ->
  exists l, many1 value_chunk (T ++ Y) = ROk Y l.
Proof.
  intros HY HE HT Hn He.
  apply (many1_covers value_chunk (fun t => value_text t /\ (solid Y \/ no_atom_end t)) Y
           shrinks_value_chunk HE); auto.
  intros t [Ht He'] Hnt. now apply value_chunk_ok.
Qed.

(** Where values stop: at [;], [}] or [{], possibly after comments. *)
Definition stop_char (X : str) : Prop :=
  match X with [] => True | c :: _ => In c (lit ";}{") end.

Lemma stop_solid X : stop_char X -> solid X.
Proof.
  destruct X as [|c X]; cbn; auto. intros [<-|[<-|[<-|[]]]]; split; intuition discriminate.
Qed.

Lemma value_chunk_stop w X :
  blank w -> stop_char X -> match w with [] => True | c :: _ => c = ch "/" end ->
  value_chunk (w ++ X) = RErr /\ value_end (w ++ X).
Proof.
  intros Hw HX Hc.
  assert (Hd : dsp (w ++ X) = X) by (apply dsp_ws_solid; auto; now apply stop_solid).
  assert (He : value_end (w ++ X)).
  { destruct w as [|c w]; [|rewrite Hc; cbn; tauto].
    destruct X as [|x X]; cbn in *; auto. intuition. }
  split; auto. unfold value_chunk.
  rewrite alt_err_cons by (apply is_not_err; exact He).
  rewrite alt_err_cons.
  2:{ apply recognize_err, interpolation_err. rewrite Hd. destruct X as [|x X]; auto.
      cbn in HX. intros ->. intuition discriminate. }
  rewrite alt_err_cons.
  2:{ apply string_p_err. rewrite Hd. destruct X as [|x X]; auto.
      cbn in HX. intros ->. intuition discriminate. }
  rewrite alt_err_cons; [reflexivity|]. apply recognize_err.
  destruct Hw as [|c w Hcw Hw|body w Hb Hw].
  - apply preceded_err. apply (tag_err (ch "/") []). destruct X as [|x X]; auto. cbn [app].
    intros ->. cbn in HX. intuition discriminate.
  - exfalso. subst c. cbn in Hcw. intuition discriminate.
  - erewrite preceded_ok.
    2:{ change (lit "/*" ++ body ++ lit "*/" ++ w) with (lit "/" ++ (lit "*" ++ body ++ lit "*/" ++ w)).
        rewrite <- app_assoc. apply tag_ok. }
    reflexivity.
Qed.

Lemma blank_split w : blank w -> exists a b, w = a ++ b /\ ws a /\ blank b
  /\ match b with [] => True | c :: _ => c = ch "/" end.
Proof.
  induction 1 as [|c w Hc Hw (a & b & -> & Ha & Hb & Hh)|body w Hb Hw IH].
  - exists [], []. repeat split; constructor.
  - exists (c :: a), b. repeat split; auto. now constructor.
  - exists [], (lit "/*" ++ body ++ lit "*/" ++ w). split; [reflexivity|].
    split; [constructor|]. split; [now apply blank_comment|]. reflexivity.
Qed.

Lemma tight_no_atom_end v w :
  tight v -> (forall u c, v = u ++ [c] -> ~ In c (lit "}" ++ [34%N])) -> ws w -> no_atom_end (v ++ w).
Proof.
  intros [Hn Ht] Hv Hw (a & u & w' & E & Hu & Hw').
  destruct (atom_last u Hu) as (r & c & -> & Hc).
  assert (Hwc : ~ In c css_ws).
  { cbn in Hc |- *. destruct Hc as [<-|[<-|[]]]; intuition discriminate. }
  destruct (exists_last Hn) as (v0 & x & ->).
  assert (Hx : ~ In x css_ws).
  { intros Hin. apply css_ws_uni in Hin. apply trim_id_last in Ht. congruence. }
  apply (Hv v0 x eq_refl).
  replace x with c; auto.
  assert (E2 : (v0 ++ [x]) ++ w = (a ++ r ++ [c]) ++ w') by (rewrite <- !app_assoc in *; exact E).
  clear E Hv Ht Hn Hu. revert w' Hw' E2.
  induction w as [|y w IH] using rev_ind; intros w' Hw' E2.
  - destruct w' as [|y w' _] using rev_ind.
    + rewrite !app_nil_r in E2. rewrite (app_assoc a) in E2. apply app_inj_tail in E2. symmetry. tauto.
    + rewrite app_nil_r, (app_assoc _ w') in E2. apply app_inj_tail in E2. destruct E2 as [_ ->].
      apply Forall_app in Hw'. destruct Hw' as [_ Hy]. inversion Hy; subst. easy.
  - destruct w' as [|z w' _] using rev_ind.
    + rewrite app_nil_r, (app_assoc _ w), (app_assoc a) in E2. apply app_inj_tail in E2.
      destruct E2 as [_ <-]. apply Forall_app in Hw. destruct Hw as [_ Hy]. inversion Hy; subst. easy.
    + rewrite (app_assoc _ w), (app_assoc _ w') in E2. apply app_inj_tail in E2.
      apply Forall_app in Hw, Hw'. apply (IH (proj1 Hw) w' (proj1 Hw')). tauto.
Qed.

Lemma tight_head v : tight v -> head_not css_ws v.
Proof.
  intros [Hn Ht]. destruct v as [|c v]; [easy|]. cbn [head_not]. intros Hin.
  apply css_ws_uni in Hin. apply trim_id_head in Ht. congruence.
Qed.

Lemma value_p_ok w2 v w3 X :
  blank w2 -> value_text v -> tight v -> blank w3 ->
  (forall u c, v = u ++ [c] -> In c (lit "}" ++ [34%N]) -> ws w3) ->
  stop_char X ->
  style_attr_value (w2 ++ v ++ w3 ++ X) = ROk X v.
Proof.
  intros Hw2 Hv Htv Hw3 He HX. destruct (blank_split _ Hw3) as (a & b & -> & Ha & Hb & Hh).
  destruct (value_chunk_stop b X Hb HX Hh) as [H1 H2].
  assert (Hvn : v <> []) by now destruct Htv.
  assert (HT : value_text (v ++ a)) by (apply value_text_app; auto using ws_value).
  destruct (value_many (v ++ a) (b ++ X) H2 H1 HT) as [l El].
  - intros E. apply app_eq_nil in E. tauto.
  - destruct b as [|x b].
    + left. now apply stop_solid.
    + right. apply tight_no_atom_end; auto. intros u c -> Hc.
      specialize (He u c eq_refl Hc). apply Forall_app in He. destruct He as [_ He].
      inversion He as [|? ? Hx _]; subst. cbn in Hx. intuition discriminate.
  - unfold style_attr_value. rewrite trimmed_eq, dsp_blank by auto. rewrite dsp_solid.
    2:{ apply value_solid; auto. now apply tight_head. }
    erewrite map_ok.
    2:{ replace (v ++ (a ++ b) ++ X) with ((v ++ a) ++ (b ++ X)) by now rewrite <- !app_assoc.
        eapply recognize_ok, El. }
    cbn [bind]. rewrite dsp_ws_solid by auto using stop_solid.
    rewrite tight_trim_r; auto. now destruct Htv.
Qed.
