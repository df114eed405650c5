(** * ParserEmpty: blank space between empty braces is rejected where it is not skipped (C16). *)

From Coq Require Import String Ascii List NArith Bool Arith Lia.
From Verif Require Import Str StrFacts Ast Nom CssParser SpecSays NomFacts ParserSound ParserTotal SpecGrammar ParserLex ParserTokens ParserSel ParserGrammar ParserComplete.
Import ListNotations.
Local Open Scope list_scope.

(** A text at whose start nothing of a sheet can be read is rejected. *)
Lemma no_elem_rejected css : dsp css <> [] -> (forall d, scope_elem (S (S d)) css = RErr) -> parse css = Rejected.
Proof.
  intros Hn H.
  assert (H' : forall d, scope_elem (S (S d)) (dsp css) = RErr) by (intros d; now rewrite scope_elem_dsp).
  assert (E : forall d, scope (S (S (S d))) (dsp css) = ROk (dsp css) []).
  { intros d. unfold scope. rewrite trimmed_eq, dsp_idem.
    destruct (dsp css) as [|c D] eqn:Ed; [congruence|]. cbn [expect_non_empty scope_contents].
    change (alt _) with (scope_elem (S (S d))). rewrite trimmed_eq, <- Ed, dsp_idem, Ed. cbn [expect_non_empty].
    rewrite many0_stop_at by apply H'. cbn [bind]. now rewrite <- Ed, !dsp_idem. }
  assert (G : forall d, sheet_p (S (S (S d))) css = RErr).
  { intros d. unfold sheet_p. rewrite trimmed_eq. unfold map_p, many0. cbn [many0_fuel].
    rewrite E, Nat.eqb_refl. reflexivity. }
  unfold parse. destruct css as [|c css]; [now elim Hn|]. cbn [List.length]. now rewrite G.
Qed.

Lemma blank_not_brace w X : blank w -> w <> [] -> tag (lit "}") (w ++ X) = RErr.
Proof.
  intros Hw Hn. apply tag_err. destruct Hw as [|c w Hc Hw|body w Hb Hw]; [congruence| |].
  - cbn [app]. intros ->. cbn in Hc. intuition discriminate.
  - cbn. discriminate.
Qed.

Lemma blank_brace_dsp w Y : blank w -> dsp (w ++ lit "}" ++ Y) = lit "}" ++ Y.
Proof. intros H. rewrite dsp_blank by auto. apply brace_dsp. now exists Y. Qed.

Lemma pair_err_r {A B} (p : parser A) (q : parser B) i r a :
  p i = ROk r a -> q r = RErr -> pair_p p q i = RErr.
Proof. intros E1 E2. unfold pair_p. rewrite E1. cbn [bind]. now rewrite E2. Qed.
Lemma terminated_err_r {A B} (p : parser A) (q : parser B) i r a :
  p i = ROk r a -> q r = RErr -> terminated p q i = RErr.
Proof. intros E1 E2. unfold terminated. rewrite E1. cbn [bind]. now rewrite E2. Qed.

(** ** Frames and nested rules *)

(** Blank space directly before the closing brace of a rule that only trims around its items. *)
Lemma blank_rule_err cond d t r c w Y :
  cond (dsp (t ++ lit "{" ++ w ++ lit "}" ++ Y)) = ROk r c -> r = lit "{" ++ w ++ lit "}" ++ Y ->
  blank w -> w <> [] ->
  rule_block_with cond (rule_block_other (S d)) (t ++ lit "{" ++ w ++ lit "}" ++ Y) = RErr.
Proof.
  intros E -> Hw Hn. unfold rule_block_with. apply trimmed_err, non_empty_err, map_err.
  eapply pair_err_r; [exact E|]. erewrite preceded_ok by apply tag_ok.
  assert (B : dsp (w ++ lit "}" ++ Y) = lit "}" ++ Y) by now apply blank_brace_dsp.
  assert (B2 : brace (lit "}" ++ Y)) by now exists Y.
  assert (L : contents_loop (rule_block_other (S d)) (w ++ lit "}" ++ Y) = ROk (w ++ lit "}" ++ Y) []).
  { unfold contents_loop. change (alt _) with (item (S d)). change (@nil rbc) with (List.concat (@nil (list rbc))). apply map_ok, many0_stop_at. rewrite <- item_dsp, B. now apply item_brace. }
  eapply (terminated_err_r _ _ _ (w ++ lit "}" ++ Y) []).
  - unfold rule_block_contents, expect_non_empty.
    destruct (w ++ lit "}" ++ Y) eqn:Eb; [destruct w; discriminate|]. exact L.
  - now apply blank_not_brace.
Qed.

Lemma blank_frame_err d w0 ct l v w Y :
  blank w0 -> writes_sels (ct ++ v) l -> tight ct -> hd_error ct <> Some (ch "/") -> ws v ->
  blank w -> w <> [] ->
  rule_block_frame (S d) (w0 ++ ct ++ v ++ lit "{" ++ w ++ lit "}" ++ Y) = RErr.
Proof.
  intros Hw0 Hsl Htc Hh Hv Hw Hn. unfold rule_block_frame.
  replace (w0 ++ ct ++ v ++ lit "{" ++ w ++ lit "}" ++ Y)
    with ((w0 ++ ct ++ v) ++ lit "{" ++ w ++ lit "}" ++ Y) by now rewrite <- !app_assoc.
  eapply blank_rule_err; auto. rewrite <- !app_assoc. rewrite dsp_ws_solid; auto.
  - eapply frame_condition_ok; eauto.
  - destruct ct as [|c ct]; [now destruct Htc|]. split.
    + apply (tight_head _ Htc).
    + intros ->. now elim Hh.
Qed.

Lemma blank_nested_err d t cond w Y :
  writes_at group_names t cond -> blank w -> w <> [] ->
  rule_block_other (S (S d)) (t ++ lit "{" ++ w ++ lit "}" ++ Y) = RErr.
Proof.
  intros Ht Hw Hn. cbn [rule_block_other]. eapply blank_rule_err; auto.
  unfold other_condition. rewrite at_cond_dsp. eapply at_cond_ok; eauto using group_at, other_tags.
Qed.

(** ** Keyframes *)

Lemma keyframes_body_err d t cond r :
  writes_at [lit "@keyframes"] t cond ->
  terminated (many0 (rule_block_frame d)) (tag (lit "}")) r = RErr ->
  keyframes d (t ++ lit "{" ++ r) = RErr.
Proof.
  intros Ht Hr. unfold keyframes. apply trimmed_err, map_err.
  eapply pair_err_r.
  - rewrite at_cond_dsp. eapply at_cond_ok; eauto using keyframes_at, keyframes_tags.
  - erewrite preceded_ok by apply tag_open. exact Hr.
Qed.

Lemma keyframes_rejected t cond r :
  writes_at [lit "@keyframes"] t cond ->
  (forall d, terminated (many0 (rule_block_frame (S d))) (tag (lit "}")) r = RErr) ->
  parse (t ++ lit "{" ++ r) = Rejected.
Proof.
  intros Ht Hr.
  destruct (at_dsp _ _ _ (lit "{" ++ r) keyframes_at Ht) as [Z EZ].
  apply no_elem_rejected; [rewrite EZ; discriminate|]. intros d. unfold scope_elem.
  rewrite !alt_err_cons; [reflexivity| | | |].
  - eapply keyframes_body_err; eauto.
  - apply at_rule_err. eapply at_group_fails_keyframes; eauto.
  - apply block_err. rewrite EZ. cbn. tauto.
  - apply dangling_err, attributes_err. rewrite EZ. cbn. tauto.
Qed.

Lemma blank_keyframes_rejected t cond w Y :
  writes_at [lit "@keyframes"] t cond -> blank w -> w <> [] ->
  parse (t ++ lit "{" ++ w ++ lit "}" ++ Y) = Rejected.
Proof.
  intros Ht Hw Hn. eapply keyframes_rejected; eauto. intros d.
  eapply terminated_err_r; [apply many0_stop_at|now apply blank_not_brace].
  assert (E : rule_block_frame (S d) (w ++ lit "}" ++ Y) = rule_block_frame (S d) (lit "}" ++ Y))
    by now apply trimmed_blank.
  rewrite E. apply frame_brace. now exists Y.
Qed.

Lemma blank_in_frame_rejected t cond w0 ct l v w Y :
  writes_at [lit "@keyframes"] t cond ->
  blank w0 -> writes_sels (ct ++ v) l -> tight ct -> hd_error ct <> Some (ch "/") -> ws v ->
  blank w -> w <> [] ->
  parse (t ++ lit "{" ++ w0 ++ ct ++ v ++ lit "{" ++ w ++ lit "}" ++ Y) = Rejected.
Proof.
  intros Ht Hw0 Hsl Htc Hh Hv Hw Hn. eapply keyframes_rejected; eauto. intros d.
  eapply terminated_err_r; [apply many0_stop_at; eapply blank_frame_err; eauto|].
  destruct w0 as [|c w0]; [|apply (blank_not_brace (c :: w0)); auto; discriminate].
  cbn [app]. apply tag_err. destruct (sels_dsp _ _ (w ++ lit "}" ++ Y) Hsl) as (t' & Ht' & Ed & _).
  destruct ct as [|c ct]; [now destruct Htc|]. cbn [app]. intros ->.
  destruct (sels_many _ _ (w ++ lit "}" ++ Y) Hsl) as [_ (r & a & E)].
  revert E. cbn [app]. unfold sel_item. rewrite terminated_err; [discriminate|].
  apply selector_err. rewrite brace_dsp by (eexists; reflexivity). cbn. tauto.
Qed.

(** ** A rule nested in a block *)

(** A selector list does not start with a character that no selector starts with. *)
Lemma sels_first t sels X' c r : writes_sels t sels -> dsp (t ++ ch "{" :: X') = c :: r ->
  ~ In c (lit ",}@{").
Proof.
  intros Ht E Hc. destruct (sels_dsp _ _ X' Ht) as (t' & Ht' & Ed & _).
  destruct (sels_many _ _ X' Ht') as [_ (r' & a & Es)]. revert Es. unfold sel_item.
  rewrite terminated_err; [discriminate|]. apply selector_err. rewrite <- Ed, dsp_idem, E. exact Hc.
Qed.

Lemma at_first c r tags : c <> ch "@" ->
  Forall (fun t => exists n, t = tag (ch "@" :: n)) tags -> alt tags (c :: r) = RErr.
Proof.
  intros Hc H. induction H as [|t l [n ->] H IH]; [reflexivity|].
  rewrite alt_err_cons; auto. apply tag_err. exact Hc.
Qed.

Lemma block_rejected t sels r :
  writes_sels t sels ->
  (forall d, terminated (trimmed (block_contents (rule_block_other (S (S d))))) (tag (lit "}")) r = RErr) ->
  parse (t ++ lit "{" ++ r) = Rejected.
Proof.
  intros Ht Hr. change (lit "{" ++ r) with (ch "{" :: r).
  destruct (sels_dsp _ _ r Ht) as (t' & Ht' & Ed & _).
  destruct (dsp (t ++ ch "{" :: r)) as [|c Z] eqn:EZ.
  { destruct t'; discriminate. }
  assert (Hc := sels_first _ _ _ _ _ Ht EZ).
  assert (Hc' : c <> ch "@") by (intros ->; apply Hc; cbn; tauto).
  apply no_elem_rejected; [rewrite EZ; discriminate|]. intros d. unfold scope_elem.
  rewrite !alt_err_cons; [reflexivity| | | |].
  - apply keyframes_err. rewrite EZ. rewrite alt_err_cons; [reflexivity|]. now apply tag_err.
  - apply at_rule_err. rewrite EZ. apply at_first; auto.
    repeat (apply Forall_cons; [eexists; reflexivity|]). apply Forall_nil.
  - unfold block. apply trimmed_err, non_empty_err, map_err. eapply pair_err_r.
    + rewrite EZ, Ed. apply condition_ok. exact Ht'.
    + unfold delimited. erewrite preceded_ok by apply tag_open. apply Hr.
  - apply dangling_err. apply (attributes_block_err r). eapply sels_seltoks; eauto.
Qed.

Lemma blank_in_nested_rejected t sels w0 at_ cond w Y :
  writes_sels t sels -> blank w0 -> writes_at group_names at_ cond -> blank w -> w <> [] ->
  parse (t ++ lit "{" ++ w0 ++ at_ ++ lit "{" ++ w ++ lit "}" ++ Y) = Rejected.
Proof.
  intros Ht Hw0 Hat Hw Hn. eapply block_rejected; eauto. intros d.
  set (A := at_ ++ lit "{" ++ w ++ lit "}" ++ Y).
  destruct (at_dsp _ _ _ (lit "{" ++ w ++ lit "}" ++ Y) group_at Hat) as [Z EZ]. fold A in EZ.
  assert (I : item (S (S d)) A = RErr).
  { unfold item. rewrite !alt_err_cons; [reflexivity| |].
    - apply map_err. eapply blank_nested_err; eauto.
    - apply map_err, attributes_err. rewrite EZ. cbn. tauto. }
  rewrite <- item_dsp, EZ in I.
  eapply terminated_err_r with (r := ch "@" :: Z).
  - rewrite trimmed_blank by auto. unfold block_contents. rewrite !trimmed_eq, dsp_idem, EZ.
    cbn [expect_non_empty]. unfold contents_loop. change (alt _) with (item (S (S d))).
    unfold map_p. rewrite many0_stop_at by exact I. cbn [bind]. rewrite <- EZ, !dsp_idem. reflexivity.
  - apply tag_err. discriminate.
Qed.
