(** * VFacts: the parser with errors is the parser, and where its errors are. *)

From Coq Require Import String Ascii List NArith Bool Arith Lia.
From Verif Require Import Str StrFacts Ast Nom CssParser VNom VParser SpecSays NomFacts ParserSound ParserTotal.
Import ListNotations.
Local Open Scope list_scope.

Definition erase {A} (x : vres A) : res A :=
  match x with VOk r a => ROk r a | VErr _ => RErr | VFail _ => RFail | VFuel => RFuel end.

(** [p] is [q] with errors. *)
Definition era {A} (p : vparser A) (q : parser A) : Prop := forall i, erase (p i) = q i.

Lemma era_context {A} s (p : vparser A) q : era p q -> era (context s p) q.
Proof. intros H i. rewrite <- H. unfold context. now destruct (p i). Qed.
Lemma era_tag t : era (vtag t) (tag t).
Proof. intros i. unfold vtag, tag. now destruct (starts_with t i). Qed.
Lemma era_while1 k f : era (vwhile1 k f) (take_while1 f).
Proof. intros i. unfold vwhile1, take_while1. destruct (span f i) as [[|c a] b]; reflexivity. Qed.
Lemma era_none_of s : era (vnone_of s) (none_of s).
Proof. intros [|c r]; cbn; auto. now destruct (mem c s). Qed.
Lemma era_anychar : era vanychar anychar.
Proof. now intros [|c r]. Qed.
Lemma era_char x : era (vchar x) (char_p x).
Proof. intros [|c r]; cbn; auto. now destruct (char_eqb c x). Qed.
Lemma era_fail {A} : era (@vfail A) fail_p.
Proof. now intros i. Qed.
Lemma era_map {A B} (f : A -> B) p q : era p q -> era (vmap f p) (map_p f q).
Proof. intros H i. unfold vmap, map_p. rewrite <- H. now destruct (p i). Qed.
Lemma era_not {A} (p : vparser A) q : era p q -> era (vnot p) (not_p q).
Proof. intros H i. unfold vnot, not_p. rewrite <- H. now destruct (p i). Qed.
Lemma era_opt {A} (p : vparser A) q : era p q -> era (vopt p) (opt q).
Proof. intros H i. unfold vopt, opt. rewrite <- H. now destruct (p i). Qed.
Lemma era_recognize {A} (p : vparser A) q : era p q -> era (vrecognize p) (recognize q).
Proof. intros H i. unfold vrecognize, recognize. rewrite <- H. now destruct (p i). Qed.
Lemma era_alt {A} (ps : list (vparser A)) qs : Forall2 era ps qs -> era (valt ps) (alt qs).
Proof.
  intros H i. unfold valt. generalize (@nil (str * vkind)). induction H as [|p q ps qs Hp _ IH]; intros e; cbn; auto.
  rewrite <- Hp. destruct (p i); cbn; auto.
Qed.
Lemma era_pair {A B} (p : vparser A) (p' : vparser B) q q' : era p q -> era p' q' -> era (vpair p p') (pair_p q q').
Proof.
  intros H H' i. unfold vpair, pair_p. rewrite <- H. destruct (p i); cbn; auto. rewrite <- H'. now destruct (p' rest).
Qed.
Lemma era_preceded {A B} (p : vparser A) (p' : vparser B) q q' : era p q -> era p' q' -> era (vpreceded p p') (preceded q q').
Proof. intros H H' i. unfold vpreceded, preceded. rewrite <- H. destruct (p i); cbn; auto. Qed.
Lemma era_terminated {A B} (p : vparser A) (p' : vparser B) q q' : era p q -> era p' q' -> era (vterminated p p') (terminated q q').
Proof.
  intros H H' i. unfold vterminated, terminated. rewrite <- H. destruct (p i); cbn; auto. rewrite <- H'. now destruct (p' rest).
Qed.
Lemma era_delimited {A B C} (p : vparser A) (p' : vparser B) (p2 : vparser C) q q' q2 :
  era p q -> era p' q' -> era p2 q2 -> era (vdelimited p p' p2) (delimited q q' q2).
Proof. intros. apply era_preceded; auto. now apply era_terminated. Qed.
Lemma era_separated_pair {A B C} (p : vparser A) (p' : vparser B) (p2 : vparser C) q q' q2 :
  era p q -> era p' q' -> era p2 q2 -> era (vseparated_pair p p' p2) (separated_pair q q' q2).
Proof. intros. apply era_pair; auto. now apply era_preceded. Qed.
Lemma era_many0_fuel {A} (p : vparser A) q n : era p q -> era (vmany0_fuel n p) (many0_fuel n q).
Proof.
  intros H. induction n as [|n IH]; intros i; cbn; auto. rewrite <- H. destruct (p i); cbn; auto.
  destruct (Nat.eqb _ _); auto. rewrite <- IH. now destruct (vmany0_fuel n p rest).
Qed.
Lemma era_many0 {A} (p : vparser A) q : era p q -> era (vmany0 p) (many0 q).
Proof. intros H i. now apply era_many0_fuel. Qed.
Lemma era_many1_fuel {A} (p : vparser A) q n : era p q -> era (vmany1_fuel n p) (many0_fuel n q).
Proof.
  intros H. induction n as [|n IH]; intros i; cbn; auto. rewrite <- H. destruct (p i); cbn; auto.
  destruct (Nat.eqb _ _); auto. rewrite <- IH. now destruct (vmany1_fuel n p rest).
Qed.
Lemma era_many1 {A} (p : vparser A) q : era p q -> era (vmany1 p) (many1 q).
Proof.
  intros H i. unfold vmany1, many1. rewrite <- H. destruct (p i) as [r a|e|e|]; cbn [erase bind]; auto.
  unfold many0. rewrite <- (era_many1_fuel _ _ _ H). now destruct (vmany1_fuel _ p r).
Qed.
Lemma era_sep_fuel {A B} (sep : vparser B) (p : vparser A) qs q n :
  era sep qs -> era p q -> era (vsep_fuel n sep p) (sep_fuel n qs q).
Proof.
  intros Hs H. induction n as [|n IH]; intros i; cbn; auto. rewrite <- Hs. destruct (sep i); cbn; auto.
  destruct (Nat.eqb _ _); auto. rewrite <- H. destruct (p rest); cbn; auto. rewrite <- IH. now destruct (vsep_fuel n sep p rest0).
Qed.
Lemma era_separated_list1 {A B} (sep : vparser B) (p : vparser A) qs q :
  era sep qs -> era p q -> era (vseparated_list1 sep p) (separated_list1 qs q).
Proof.
  intros Hs H i. unfold vseparated_list1, separated_list1. rewrite <- H. destruct (p i) as [r a|e|e|]; cbn [erase vbind bind]; auto.
  rewrite <- (era_sep_fuel _ _ _ _ _ Hs H). now destruct (vsep_fuel _ sep p r).
Qed.
Lemma era_non_empty {A} (p : vparser A) q : era p q -> era (v_non_empty p) (expect_non_empty q).
Proof. intros H [|c i]; cbn; auto. Qed.

Ltac eras :=
  repeat first
    [ apply era_context | apply era_tag | apply era_while1 | apply era_none_of | apply era_anychar | apply era_char
    | apply era_fail | apply era_map | apply era_not | apply era_opt | apply era_recognize | apply era_alt
    | apply Forall2_cons | apply Forall2_nil
    | apply era_delimited | apply era_separated_pair | apply era_pair | apply era_preceded | apply era_terminated
    | apply era_many0 | apply era_many1 | apply era_separated_list1 | apply era_non_empty ].

Lemma era_cmt : era v_cmt cmt.
Proof. unfold v_cmt, cmt. eras. Qed.
Lemma era_sp : era v_sp sp.
Proof. unfold v_sp, sp. eras; auto using era_cmt. Qed.
Lemma era_trimmed {A} (p : vparser A) q : era p q -> era (v_trimmed p) (trimmed q).
Proof. intros H. unfold v_trimmed, trimmed. eras; auto using era_sp. Qed.
Lemma era_ident : era v_ident ident.
Proof. unfold v_ident, ident. eras. Qed.
Lemma era_key : era v_style_attr_key style_attr_key.
Proof. apply era_context, era_trimmed, era_ident. Qed.
Lemma era_interpolation : era v_interpolation interpolation.
Proof. apply era_context, era_trimmed. eras; try (apply era_trimmed; eras). Qed.
Lemma era_string : era v_string string_p.
Proof. apply era_context, era_trimmed. eras. Qed.
Lemma era_value : era v_style_attr_value style_attr_value.
Proof. apply era_context, era_trimmed. eras; auto using era_interpolation, era_string. Qed.
Lemma era_attribute : era v_attribute attribute.
Proof. apply era_context, era_trimmed. eras; auto using era_key, era_value. Qed.
Lemma era_attributes b : era (v_attributes b) (attributes b).
Proof.
  apply era_context, era_trimmed. destruct b; eras; auto using era_attribute, era_sp.
Qed.
Lemma era_selector : era v_selector selector_p.
Proof. apply era_context, era_trimmed. eras; auto using era_string, era_interpolation. Qed.
Lemma era_condition : era v_condition condition.
Proof. apply era_context, era_trimmed. eras; auto using era_selector. Qed.
Lemma era_at_rule_condition ps qs : Forall2 era ps qs -> era (v_at_rule_condition ps) (at_rule_condition qs).
Proof. intros H. apply era_context, era_trimmed. eras; auto using era_interpolation. Qed.
Lemma era_other_condition : era v_other_condition other_condition.
Proof. apply era_at_rule_condition. eras. Qed.
Lemma era_frame_condition : era v_frame_condition frame_condition.
Proof. unfold v_frame_condition, frame_condition. eras; auto using era_condition. Qed.
Lemma era_content_items p q : era p q ->
  era (vmap (@List.concat rbc) (v_content_items p)) (contents_loop q).
Proof. intros H. unfold v_content_items, contents_loop. eras; auto using era_attributes. Qed.
Lemma era_block_contents p q : era p q -> era (v_block_contents p) (block_contents q).
Proof. intros H. apply era_context, era_trimmed, era_non_empty. now apply era_content_items. Qed.
Lemma era_rule_block_contents p q : era p q -> era (v_rule_block_contents p) (rule_block_contents q).
Proof.
  intros H i. unfold v_rule_block_contents, rule_block_contents, vmap, context. destruct i as [|c i]; [reflexivity|].
  cbn [v_non_empty expect_non_empty]. rewrite <- (era_content_items p q H (c :: i)). unfold vmap.
  now destruct (v_content_items p (c :: i)).
Qed.
Lemma era_rule_block_with pc qc p q : era pc qc -> era p q -> era (v_rule_block_with pc p) (rule_block_with qc q).
Proof. intros Hc H. apply era_context, era_trimmed. eras; auto using era_rule_block_contents. Qed.
Lemma era_rule_block_other d : era (v_rule_block_other d) (rule_block_other d).
Proof. induction d as [|d IH]; [now intros i|]. apply era_rule_block_with; auto using era_other_condition. Qed.
Lemma era_rule_block_frame d : era (v_rule_block_frame d) (rule_block_frame d).
Proof. apply era_rule_block_with; auto using era_frame_condition, era_rule_block_other. Qed.
Lemma era_block d : era (v_block d) (block d).
Proof.
  apply era_context, era_trimmed. eras; auto using era_condition.
  all: apply era_rule_block_other.
Qed.
Lemma era_dangling : era v_dangling_block dangling_block.
Proof. apply era_context, era_trimmed. eras; auto using era_attributes. Qed.
Lemma era_keyframes d : era (v_keyframes d) (keyframes d).
Proof.
  apply era_context, era_trimmed. eras; auto using era_rule_block_frame, era_rule_block_contents, era_rule_block_other.
Qed.
Lemma era_at_rule p q : era p q -> era (v_at_rule_with p) (at_rule_with q).
Proof. intros H. apply era_context, era_trimmed. eras; auto. Qed.
Lemma era_scope_contents d : era (v_scope_contents d) (scope_contents d).
Proof.
  induction d as [|d IH]; [now intros i|]. apply era_context, era_trimmed, era_non_empty, era_many0, era_alt.
  apply Forall2_cons; [apply era_dangling|]. apply Forall2_cons; [apply era_block|].
  apply Forall2_cons; [now apply era_at_rule|]. apply Forall2_cons; [apply era_keyframes|apply Forall2_nil].
Qed.
Lemma era_scope d : era (v_scope d) (scope d).
Proof. apply era_context, era_trimmed, era_non_empty, era_scope_contents. Qed.
Lemma era_sheet d : era (v_sheet d) (sheet_p d).
Proof. apply era_context, era_trimmed, era_map, era_many0, era_scope. Qed.

Lemma v_parse_parse css :
  match v_parse css with
  | VParsed s => parse css = Parsed s
  | VRejected _ _ => parse css = Rejected
  | VOutOfFuel => parse css = OutOfFuel
  end.
Proof.
  unfold v_parse, parse. rewrite <- era_sheet. now destruct (v_sheet _ css).
Qed.

(** ** Where the error is *)

Lemma v_sp_ok i : exists r w, v_sp i = VOk r w /\ sp i = ROk r w /\ i = w ++ r /\ blank w.
Proof.
  destruct (sp_ok i) as (r & w & E & Hi & Hw). exists r, w. pose proof (era_sp i) as H. rewrite E in H.
  destruct (v_sp i); try discriminate. injection H as -> ->. auto.
Qed.

(** [many0] fails only where its element succeeds without taking anything; what was taken before is said. *)
Lemma vmany0_err {A} (p : vparser A) q R n : era p q -> sound q R ->
  forall i e, vmany0_fuel n p i = VErr e ->
  exists t b l r a, i = t ++ b /\ e = [(b, VNom KMany0)] /\ star R t l
                    /\ q b = ROk r a /\ List.length r = List.length b.
Proof.
  intros Eq S. induction n as [|n IH]; intros i e; cbn; [discriminate|].
  destruct (p i) as [r a|e1|e1|] eqn:E; try discriminate.
  assert (Q : q i = ROk r a) by (rewrite <- (Eq i), E; reflexivity).
  destruct (Nat.eqb_spec (List.length r) (List.length i)) as [L|L].
  - intros [= <-]. exists [], i, [], r, a. repeat split; auto. constructor.
  - destruct (vmany0_fuel n p r) as [r1 l1|e1|e1|] eqn:E1; try discriminate. cbn. intros [= <-].
    destruct (IH _ _ E1) as (t & b & l & r2 & a2 & -> & -> & St & Hb & Hl).
    destruct (S _ _ _ Q) as (t0 & -> & H0). exists (t0 ++ t), b, (a :: l), r2, a2.
    rewrite <- app_assoc. repeat split; auto. now constructor.
Qed.

Lemma vmany0_no_fail {A} (p : vparser A) q n i e : era p q -> many0_fuel n q i <> RFail -> vmany0_fuel n p i <> VFail e.
Proof. intros H F E. apply F. rewrite <- (era_many0_fuel _ _ n H i), E. reflexivity. Qed.

Lemma sound_scope d : sound (scope d) says_scope.
Proof.
  eapply sound_weaken; [apply sound_trimmed, sound_non_empty, sound_scope_contents|].
  intros t l (w & u & w' & -> & Hw & Hw' & H). apply says_scope_blank_l; auto. now apply says_scope_blank_r.
Qed.

Lemma scopes_say t l : star says_scope t l -> says_scope t (List.concat l).
Proof.
  induction 1 as [|t a t' l H _ IH]; cbn [List.concat]; [apply ss_end; constructor|]. now apply says_scope_app.
Qed.

(** A scope that takes nothing at [b] does so for every depth that is enough for [b]. *)
Lemma scope_depth d b : List.length b + 1 < d -> scope (S d) b = scope d b.
Proof.
  intros H. apply (refines_trimmed _ _ (refines_non_empty _ _ (refines_scope_contents d))).
  change (scope d b <> RFuel).
  assert (S : safe (List.length b) (scope d)).
  { apply safe_trimmed; [apply shrinks_non_empty, shrinks_scope_contents|]. apply safe_non_empty. now apply safe_scope_contents. }
  now apply S.
Qed.

Lemma scope_depths d d' b : List.length b + 1 < d -> d <= d' -> scope d' b = scope d b.
Proof.
  intros H L. induction L as [|d' L IH]; auto. rewrite <- IH. apply scope_depth. lia.
Qed.

Lemma scope_takes_nothing d b r a : scope d b = ROk r a -> List.length r = List.length b ->
  sp b = ROk b [] /\ r = b.
Proof.
  intros E L. unfold scope, trimmed, delimited, preceded, terminated in E.
  destruct (sp_ok b) as (r1 & w & E1 & Hb & _). rewrite E1 in E. cbn [bind] in E.
  apply bind_ok in E. destruct E as (r2 & a2 & E2 & E). apply bind_ok in E. destruct E as (r3 & a3 & E3 & [= <- <-]).
  assert (L2 : exists t, r1 = t ++ r2).
  { destruct r1 as [|c r1]; [discriminate|]. exact (shrinks_scope_contents _ _ _ _ E2). }
  destruct L2 as (t2 & L2). destruct (sp_ok r2) as (r4 & w4 & E4 & H4 & _). rewrite E4 in E3. injection E3 as <- <-.
  subst r2 r1 b. rewrite !app_length in L.
  destruct w; [|cbn in L; lia]. destruct t2; [|cbn in L; lia]. destruct w4; [|cbn in L; lia]. auto.
Qed.

(** The error of a text that is not read. *)
Definition error_at (css b : str) : verror :=
  [(b, VNom KMany0); (css, VContext (lit "Trimmed")); (css, VContext (lit "StyleSheet"))].

Lemma v_sheet_error d css e : List.length css + 1 < d -> v_sheet d css = VErr e ->
  exists a b s r x, css = a ++ b /\ e = error_at css b /\ says_scope a s
                    /\ scope d b = ROk r x /\ List.length r = List.length b.
Proof.
  intros Hd E. unfold v_sheet, v_trimmed in E. unfold context at 1 2 in E. unfold vdelimited, vpreceded, vterminated, vmap in E.
  destruct (v_sp_ok css) as (r1 & w & Ev & _ & Hi & Hw). rewrite Ev in E. cbn [vbind] in E.
  unfold vmany0 in E. destruct (vmany0_fuel (S (List.length r1)) (v_scope d) r1) as [r2 l|e1|e1|] eqn:E1; cbn [vbind] in E.
  - destruct (v_sp_ok r2) as (r3 & w3 & Ev3 & _). rewrite Ev3 in E. discriminate.
  - injection E as <-. destruct (vmany0_err _ _ _ _ (era_scope d) (sound_scope d) _ _ E1) as (t & b & l & r & a & -> & -> & St & Hb & Hl).
    exists (w ++ t), b, (List.concat l), r, a. rewrite <- app_assoc. repeat split; auto.
    apply says_scope_blank_l; auto. now apply scopes_say.
  - discriminate.
  - discriminate.
Qed.

Lemma v_sheet_stuck d b r x : scope d b = ROk r x -> List.length r = List.length b -> v_sheet d b = VErr (error_at b b).
Proof.
  intros E L. destruct (scope_takes_nothing _ _ _ _ E L) as [Sp ->].
  unfold v_sheet, v_trimmed. unfold context at 1 2. unfold vdelimited, vpreceded, vterminated, vmap.
  destruct (v_sp_ok b) as (r1 & w & Ev & E2 & _). rewrite Sp in E2. injection E2 as <- <-. rewrite Ev. cbn [vbind].
  unfold vmany0. cbn [vmany0_fuel]. pose proof (era_scope d b) as Es. rewrite E in Es.
  destruct (v_scope d b) as [r2 a2|e|e|]; try discriminate. injection Es as -> ->. rewrite Nat.eqb_refl. reflexivity.
Qed.

Lemma v_parse_error css reason e : v_parse css = VRejected reason e ->
  exists a b s, css = a ++ b /\ e = error_at css b /\ reason = convert_error css e /\ says_sheet a s
                /\ v_parse b = VRejected (convert_error b (error_at b b)) (error_at b b)
                /\ sp_item b = RErr /\ b <> [].
Proof.
  intros E. unfold v_parse in E.
  assert (Nf : forall e', v_sheet (S (S (List.length css))) css <> VFail e').
  { intros e' F. pose proof (era_sheet (S (S (List.length css))) css) as H. rewrite F in H. cbn in H.
    assert (S : safe (List.length css) (sheet_p (S (S (List.length css))))) by (apply safe_sheet; lia).
    destruct (S css (le_n _)). congruence. }
  destruct (v_sheet (S (S (List.length css))) css) as [r s|e1|e1|] eqn:Ev; try discriminate; [|exfalso; now apply (Nf e1)].
  assert (Hd : List.length css + 1 < S (S (List.length css))) by lia.
  injection E as <- <-. destruct (v_sheet_error _ _ _ Hd Ev) as (a & b & s & r & x & -> & -> & Sa & Sb & L).
  exists a, b, s. repeat split; auto.
  - unfold v_parse. rewrite app_length in Sb.
    rewrite (scope_depths (S (S (List.length b))) (S (S (List.length a + List.length b))) b) in Sb by lia. now rewrite (v_sheet_stuck _ _ _ _ Sb L).
  - destruct (scope_takes_nothing _ _ _ _ Sb L) as [Sp _]. eapply sp_stop, Sp.
  - intros ->. vm_compute in Sb. discriminate.
Qed.
