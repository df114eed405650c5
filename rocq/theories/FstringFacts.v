(** * FstringFacts: the placeholder scanner reads back what is written. *)

From Coq Require Import String Ascii List NArith Bool Arith Lia.
From Verif Require Import Str StrFacts Ast Nom SpecSays SpecGrammar NomFacts CssParser
  ParserSound ParserTotal ParserLex ParserTokens Tok Fstring SpecMacro.
Import ListNotations.
Local Open Scope list_scope.

Definition ffrag_of (p : piece) : ffrag :=
  match p with
  | Text s => FLiteral s
  | DollarBrace => FLiteral (lit "${")
  | Hole _ n _ => FInterpolation n
  end.

Definition f_item : parser ffrag :=
  alt [map_p (fun _ => FLiteral (lit "${")) (tag (lit "$${")); f_literal; f_interpolation].

(** ** Writing, then scanning *)

Lemma opt_f_sp w X : blanks w ->
  match X with [] => w = [] | c :: _ => ~ In c sp_chars end ->
  exists a, opt f_sp (w ++ X) = ROk X a.
Proof.
  intros Hw HX. unfold opt, f_sp, expect_non_empty.
  destruct (w ++ X) as [|c r] eqn:E.
  - apply app_eq_nil in E. destruct E as [-> ->]. eauto.
  - rewrite <- E. unfold take_while. rewrite span_app.
    + eauto.
    + clear -Hw. induction Hw as [|c w Hc _ IH]; auto. cbn [forallb]. rewrite IH, andb_true_r.
      now apply mem_In.
    + destruct X as [|x X]; auto. now apply mem_not_In.
Qed.

Lemma opt_f_sp_total i : exists r a, opt f_sp i = ROk r a
  /\ exists w, i = w ++ r /\ blanks w.
Proof.
  unfold opt, f_sp, expect_non_empty. destruct i as [|c i]; [exists [], None; split; auto; exists []; split; auto; constructor|].
  unfold take_while. destruct (span (fun c => mem c sp_chars) (c :: i)) as [a b] eqn:E.
  apply span_spec in E. destruct E as (E & H1 & H2). exists b, (Some a). split; auto.
  exists a. split; auto. apply Forall_forall. intros x Hx.
  rewrite forallb_forall in H1. apply H1 in Hx. now apply mem_In in Hx.
Qed.

Lemma alpha_not_sp c : is_ascii_alpha c = true -> ~ In c sp_chars.
Proof. intros H Hin. cbn in Hin. destruct Hin as [<-|[<-|[<-|[<-|[]]]]]; discriminate. Qed.

Lemma sp_not_alnum c : In c sp_chars -> is_ascii_alnum c = false /\ c <> ch "_".
Proof. cbn. intros [<-|[<-|[<-|[<-|[]]]]]; split; (reflexivity || discriminate). Qed.

Lemma hole_inside w n w' X : blanks w -> placeholder_name n -> blanks w' ->
  f_trimmed f_name (w ++ n ++ w' ++ lit "}" ++ X) = ROk (lit "}" ++ X) n.
Proof.
  intros Hw Hn Hw'. unfold f_trimmed, delimited, preceded, terminated.
  destruct (opt_f_sp w (n ++ w' ++ lit "}" ++ X) Hw) as [a ->].
  { destruct Hn as (c & r & -> & Hc & _). now apply alpha_not_sp. }
  cbn [bind]. unfold f_name. change (alt [alphanumeric1; tag (lit "_")]) with interp_char.
  rewrite (interp_name_ok n (w' ++ lit "}" ++ X)); auto.
  2:{ destruct Hw' as [|c w' Hc _]; [now split|]. now apply sp_not_alnum. }
  cbn [bind]. destruct (opt_f_sp w' (lit "}" ++ X) Hw') as [b ->]; [|reflexivity].
  cbn. intuition discriminate.
Qed.

Lemma f_item_hole w n w' X : blanks w -> placeholder_name n -> blanks w' ->
  f_item (write_piece (Hole w n w') ++ X) = ROk X (FInterpolation n).
Proof.
  intros Hw Hn Hw'. unfold f_item. cbn [alt].
  unfold f_interpolation, f_literal, map_p at 1.
  assert (E : write_piece (Hole w n w') ++ X = lit "${" ++ (w ++ n ++ w' ++ lit "}" ++ X)).
  { unfold write_piece. now rewrite <- !app_assoc. }
  rewrite E. set (r := w ++ n ++ w' ++ lit "}" ++ X).
  change (tag (lit "$${") (lit "${" ++ r)) with (@RErr str). cbn [bind].
  change (expect_non_empty (map_p FLiteral (is_not (lit "${"))) (lit "${" ++ r)) with (@RErr ffrag).
  cbn iota. change (expect_non_empty ?p (lit "${" ++ r)) with (p (lit "${" ++ r)).
  unfold map_p, delimited, preceded, terminated. rewrite tag_ok. cbn [bind].
  unfold cut, r. rewrite hole_inside by assumption. cbn [bind].
  rewrite tag_ok. reflexivity.
Qed.

Lemma f_item_text s X : piece_ok (Text s) ->
  match X with [] => True | c :: _ => c = ch "$" \/ c = ch "{" end ->
  f_item (s ++ X) = ROk X (FLiteral s).
Proof.
  intros [Hn Hs] HX. unfold f_item. cbn [alt].
  destruct s as [|c s]; [easy|]. inversion Hs as [|? ? [H1 H2] Hs']; subst.
  unfold map_p at 1. change (lit "$${") with (ch "$" :: lit "${").
  rewrite tag_err by exact H1. cbn [bind].
  unfold f_literal. change (expect_non_empty ?p ((c :: s) ++ X)) with (p ((c :: s) ++ X)).
  unfold map_p, is_not. rewrite take_while1_ok; [reflexivity|discriminate| |].
  - clear -Hs. induction Hs as [|x u [H1 H2] _ IH]; auto. cbn [forallb]. rewrite IH, andb_true_r.
    apply negb_true_iff, mem_not_In. cbn. intros [<-|[<-|[]]]; [now apply H1|now apply H2].
  - destruct X as [|x X]; auto. apply negb_false_iff, mem_In.
    destruct HX as [-> | ->]; cbn; auto.
Qed.

Lemma f_item_dollar X : f_item (lit "$${" ++ X) = ROk X (FLiteral (lit "${")).
Proof. reflexivity. Qed.

Lemma shrinks_f_sp : shrinks f_sp.
Proof.
  intros i r a E. unfold f_sp, expect_non_empty in E. destruct i as [|c i]; [discriminate|].
  unfold take_while in E. destruct (span _ _) as [x y] eqn:E1. injection E as <- <-.
  apply span_spec in E1. destruct E1 as (-> & _). eauto.
Qed.
Lemma shrinks_cut {A} (p : parser A) : shrinks p -> shrinks (cut p).
Proof. intros H i r a E. apply (H i r a). unfold cut in E. destruct (p i); auto; discriminate. Qed.
Lemma shrinks_f_name : shrinks f_name.
Proof.
  apply shrinks_recognize, shrinks_preceded; [apply shrinks_take_while1|].
  apply shrinks_many0, shrinks_alt. each; [apply shrinks_take_while1|apply shrinks_tag].
Qed.
Lemma shrinks_f_trimmed {A} (p : parser A) : shrinks p -> shrinks (f_trimmed p).
Proof.
  intros H. apply shrinks_preceded; [apply shrinks_opt, shrinks_f_sp|].
  apply shrinks_terminated; auto. apply shrinks_opt, shrinks_f_sp.
Qed.
Lemma shrinks_f_item : shrinks f_item.
Proof.
  apply shrinks_alt. each.
  - apply shrinks_map, shrinks_tag.
  - apply shrinks_non_empty, shrinks_map, shrinks_is_not.
  - apply shrinks_non_empty, shrinks_map, shrinks_preceded; [apply shrinks_tag|].
    apply shrinks_terminated; [|apply shrinks_tag]. apply shrinks_cut, shrinks_f_trimmed, shrinks_f_name.
Qed.

Lemma write_head p ps : Forall piece_ok (p :: ps) ->
  write_piece p <> [] /\ (match p with Text _ => True | _ => hd_error (write_piece p) = Some (ch "$") end).
Proof.
  intros H. inversion H as [|? ? Hp _]; subst. destruct p; cbn; split; auto; try discriminate.
  now destruct Hp.
Qed.

Lemma many_pieces ps : Forall piece_ok ps -> texts_apart ps ->
  many0 f_item (write ps) = ROk [] (map ffrag_of ps).
Proof.
  induction ps as [|p ps IH]; intros Hok Ha.
  - now apply many0_stop_at.
  - pose proof (write_head _ _ Hok) as [Hne _]. inversion Hok as [|? ? Hp Hps]; subst.
    assert (Ha' : texts_apart ps) by (destruct p, ps as [|[]]; cbn in Ha |- *; tauto).
    specialize (IH Hps Ha').
    assert (E : f_item (write_piece p ++ write ps) = ROk (write ps) (ffrag_of p)).
    { destruct p as [s| |w n w'].
      - apply f_item_text; auto. destruct ps as [|q ps]; [exact I|].
        pose proof (write_head _ _ Hps) as [_ Hh]. destruct q; [destruct Ha|now left|now left].
      - apply f_item_dollar.
      - destruct Hp as (Hw & Hn & Hw'). now apply f_item_hole. }
    change (write (p :: ps)) with (write_piece p ++ write ps).
    rewrite (many0_step f_item _ _ _ shrinks_f_item E).
    + rewrite IH. reflexivity.
    + rewrite app_length. destruct (write_piece p); [easy|cbn; lia].
Qed.

Theorem scan_write ps : Forall piece_ok ps -> texts_apart ps ->
  scan (write ps) = Scanned (map ffrag_of ps).
Proof.
  intros H1 H2. unfold scan, f_fragments, all_consuming.
  change (alt _) with f_item. rewrite many_pieces by assumption. reflexivity.
Qed.

(** ** Scanned text was written *)

(** Merge texts next to each other. *)
Fixpoint merge (ps : list piece) : list piece :=
  match ps with
  | [] => []
  | Text s :: r =>
      match merge r with
      | Text t :: r' => Text (s ++ t) :: r'
      | r' => Text s :: r'
      end
  | p :: r => p :: merge r
  end.

Lemma merge_ok ps : Forall piece_ok ps -> Forall piece_ok (merge ps).
Proof.
  induction 1 as [|p ps Hp _ IH]; [constructor|]. destruct p; cbn; auto.
  destruct (merge ps) as [|[t| |w n w'] r]; try (constructor; assumption).
  inversion IH as [|? ? Ht Hr]; subst. destruct Ht as [Ht1 Ht2].
  constructor; auto. destruct Hp as [H1 H2]. split; [destruct s; easy|]. now apply Forall_app.
Qed.
Lemma merge_apart ps : texts_apart (merge ps).
Proof.
  induction ps as [|p ps IH]; cbn; auto. destruct p; cbn; auto.
  destruct (merge ps) as [|[t| |] r]; cbn in *; auto.
Qed.
Lemma merge_write ps : write (merge ps) = write ps.
Proof.
  induction ps as [|p ps IH]; auto. destruct p; cbn [merge]; unfold write in *; cbn [flat_map];
    try (now rewrite IH).
  rewrite <- IH. destruct (merge ps) as [|[t| |] r]; cbn; auto. now rewrite app_assoc.
Qed.
Lemma merge_value v ps :
  flat_map (piece_value v) (merge ps) = flat_map (piece_value v) ps.
Proof.
  induction ps as [|p ps IH]; auto. destruct p; cbn [merge]; cbn [flat_map];
    try (now rewrite IH).
  rewrite <- IH. destruct (merge ps) as [|[t| |] r]; cbn; auto. now rewrite app_assoc.
Qed.
Lemma merge_holes ps w n w' : In (Hole w n w') (merge ps) <-> In (Hole w n w') ps.
Proof.
  induction ps as [|p ps IH]; [tauto|]. destruct p; cbn [merge]; cbn [In]; rewrite <- ?IH; try tauto.
  destruct (merge ps) as [|[t| |] r]; cbn; intuition congruence.
Qed.

Lemma sound_cut {A} (p : parser A) R : sound p R -> sound (cut p) R.
Proof.
  intros H i r a E. apply (H i r a). unfold cut in E. destruct (p i); auto; discriminate.
Qed.
Lemma sound_opt_f_sp : sound (opt f_sp) (fun t _ => blanks t).
Proof.
  intros i r a E. destruct (opt_f_sp_total i) as (r' & a' & E' & w & Hw & Hb).
  rewrite E in E'. injection E' as -> ->. eauto.
Qed.

Lemma sound_f_name : sound f_name (fun t a => t = a /\ placeholder_name a).
Proof.
  eapply sound_weaken.
  { apply sound_recognize. eapply sound_preceded; [apply sound_take_while1|].
    apply sound_many0.
    apply sound_alt with (R := fun t _ => Forall (fun x => is_ascii_alnum x = true \/ x = ch "_") t).
    each.
    - eapply sound_weaken; [apply sound_take_while1|]. intros t a (-> & Hn & H).
      eapply forallb_Forall; [|exact H]. auto.
    - eapply sound_weaken; [apply sound_tag|]. intros t a (-> & _). each. now right. }
  intros t a (-> & l & u & v & -> & (x & -> & Hn & Hf) & Hv). split; auto.
  rename x into u.
  destruct u as [|c u]; [easy|]. cbn in Hf. apply andb_true_iff in Hf. destruct Hf as [Hc Hf].
  exists c, (u ++ v). split; auto. split; auto. apply Forall_app. split.
  - eapply forallb_Forall; [|exact Hf]. intros y Hy. left. unfold is_ascii_alnum. now rewrite Hy.
  - clear -Hv. induction Hv as [|t a t' l Ha _ IH]; [constructor|]. now apply Forall_app.
Qed.

Lemma sound_f_item : sound f_item (fun t a => exists p, piece_ok p /\ t = write_piece p /\ a = ffrag_of p).
Proof.
  apply sound_alt. each.
  - eapply sound_weaken; [apply sound_map, sound_tag|]. intros t a (b & [-> _] & ->).
    exists DollarBrace. now split.
  - eapply sound_weaken; [apply sound_non_empty, sound_map, sound_is_not|].
    intros t a (b & (-> & Hn & Hf) & ->). exists (Text b). repeat split; auto.
    eapply Forall_impl; [|exact Hf]. cbn. intros c Hc. split; intros ->; apply Hc; auto.
  - eapply sound_weaken.
    { apply sound_non_empty, sound_map. eapply sound_delimited; [apply sound_tag| |apply sound_tag].
      apply sound_cut. eapply sound_delimited; [apply sound_opt_f_sp|apply sound_f_name|apply sound_opt_f_sp]. }
    intros t a H.
    destruct H as (b & (x & y & z & -> & (_ & -> & _) & Hy & (_ & -> & _)) & ->).
    destruct Hy as (w & m & w' & -> & (wa & Hw) & (-> & Hn) & (wb & Hw')).
    exists (Hole w b w'). repeat split; auto. cbn [write_piece]. now rewrite <- !app_assoc.
Qed.

Lemma star_pieces t l :
  star (fun t a => exists p, piece_ok p /\ t = write_piece p /\ a = ffrag_of p) t l ->
  exists ps, Forall piece_ok ps /\ t = write ps.
Proof.
  induction 1 as [|t a t' l (p & Hp & -> & ->) _ (ps & Hps & ->)].
  - exists []. split; auto.
  - exists (p :: ps). split; auto.
Qed.

Theorem scan_written s l : scan s = Scanned l ->
  exists ps, Forall piece_ok ps /\ texts_apart ps /\ s = write ps /\ l = map ffrag_of ps.
Proof.
  intros H. unfold scan, f_fragments, all_consuming in H. change (alt _) with f_item in H.
  destruct (many0 f_item s) as [r a| | |] eqn:E; try discriminate. cbn [bind] in H.
  destruct r as [|c r]; [|discriminate]. injection H as <-.
  destruct (sound_many0 _ _ sound_f_item _ _ _ E) as (t & Ht & Hs).
  rewrite app_nil_r in Ht. subst t. destruct (star_pieces _ _ Hs) as (ps & Hps & ->).
  exists (merge ps). split; [now apply merge_ok|]. split; [apply merge_apart|].
  split; [now rewrite merge_write|].
  rewrite <- merge_write, many_pieces in E; [|now apply merge_ok|apply merge_apart].
  now injection E as <-.
Qed.

(** The notation is unambiguous. *)
Lemma write_inj ps qs : Forall piece_ok ps -> Forall piece_ok qs -> write ps = write qs ->
  map ffrag_of (merge ps) = map ffrag_of (merge qs).
Proof.
  intros Hp Hq E.
  pose proof (scan_write (merge ps) (merge_ok _ Hp) (merge_apart _)) as E1.
  pose proof (scan_write (merge qs) (merge_ok _ Hq) (merge_apart _)) as E2.
  rewrite merge_write in E1, E2. congruence.
Qed.

(** The scanner never runs out of fuel. *)
Lemma many0_fuel_no_fuel {A} (p : parser A) n i : shrinks p -> (forall i, p i <> RFuel) ->
  List.length i < n -> many0_fuel n p i <> RFuel.
Proof.
  intros S H. revert i. induction n as [|n IH]; intros i Hi; [lia|]. cbn.
  destruct (p i) as [r a| | |] eqn:E; try discriminate; [|now apply H in E].
  destruct (Nat.eqb_spec (List.length r) (List.length i)); [discriminate|].
  apply shrinks_le in E; auto. specialize (IH r). destruct (many0_fuel n p r); cbn; try discriminate.
  apply IH. lia.
Qed.

Lemma f_name_no_fuel i : f_name i <> RFuel.
Proof.
  unfold f_name, recognize, preceded.
  pose proof (safe_take_while1 (List.length i) is_ascii_alpha i (le_n _)) as [_ H].
  unfold alpha1. destruct (take_while1 is_ascii_alpha i) as [r a| | |]; cbn [bind]; try easy.
  assert (many0 (alt [alphanumeric1; tag (lit "_")]) r <> RFuel).
  { apply (safe_many0 (List.length r)); auto.
    - apply shrinks_alt. each; [apply shrinks_take_while1|apply shrinks_tag].
    - apply safe_alt. each; [apply safe_take_while1|apply safe_tag]. }
  destruct (many0 _ r); cbn; congruence.
Qed.

Lemma f_item_no_fuel i : f_item i <> RFuel.
Proof.
  unfold f_item. cbn [alt]. unfold map_p at 1.
  assert (T : forall t i, tag t i <> RFuel /\ tag t i <> RFail).
  { intros t j. unfold tag. destruct (starts_with t j); now split. }
  destruct (T (lit "$${") i) as [T1 T2]. destruct (tag (lit "$${") i); cbn [bind]; try congruence.
  clear T1 T2. unfold f_literal, f_interpolation, expect_non_empty. destruct i as [|c i]; [discriminate|].
  pose proof (safe_is_not (List.length (c :: i)) (lit "${") (c :: i) (le_n _)) as [H1 H2].
  unfold map_p at 1. destruct (is_not (lit "${") (c :: i)); cbn [bind]; try congruence.
  clear H1 H2. unfold map_p, delimited, preceded, terminated.
  destruct (T (lit "${") (c :: i)) as [T1 T2].
  destruct (tag (lit "${") (c :: i)) as [r a| | |]; cbn [bind]; try congruence.
  unfold cut, f_trimmed, delimited, preceded, terminated.
  destruct (opt_f_sp_total r) as (r1 & a1 & -> & _). cbn [bind].
  pose proof (f_name_no_fuel r1). destruct (f_name r1) as [r2 a2| | |]; cbn [bind]; try congruence.
  destruct (opt_f_sp_total r2) as (r3 & a3 & -> & _). cbn [bind].
  destruct (T (lit "}") r3) as [T3 T4]. destruct (tag (lit "}") r3); cbn; congruence.
Qed.

Theorem scan_no_fuel s : scan s <> ScanFuel.
Proof.
  unfold scan, f_fragments, all_consuming. change (alt _) with f_item.
  pose proof (many0_fuel_no_fuel f_item (S (List.length s)) s shrinks_f_item f_item_no_fuel (Nat.lt_succ_diag_r _)) as H.
  unfold many0. destruct (many0_fuel _ _ _) as [[|] | | |]; cbn; congruence.
Qed.
