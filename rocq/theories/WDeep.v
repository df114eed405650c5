(** * WDeep: the work for conditions, and for blocks in blocks. *)

From Coq Require Import String Ascii List NArith Bool Arith Lia.
From Verif Require Import Str StrFacts Ast Nom CssParser WNom WParser WFacts WBound WFlat SpecSays NomFacts ParserSound ParserTotal
  ParserLex ParserSel.
Import ListNotations.
Local Open Scope list_scope.
Local Open Scope N_scope.

#[local] Hint Resolve safe_tag safe_take_while1 safe_is_not safe_none_of safe_map safe_opt safe_recognize safe_alt safe_preceded
  safe_terminated shrinks_none_of shrinks_opt shrinks_is_not shrinks_tag Forall_cons Forall_nil : safe.

(** ** Conditions *)

Lemma consumes_recognize {A} (p : parser A) : consumes p -> consumes (recognize p).
Proof. intros H i r a E. apply bind_ok in E as (r' & b & E & [= <- _]). eauto. Qed.
Lemma consumes_while1 f : consumes (take_while1 f).
Proof. intros i r a E. eapply take_while1_consumes, E. Qed.
Lemma consumes_none_of s : consumes (none_of s).
Proof. intros i r a E. apply sound_none_of in E as (u & -> & -> & _). cbn. lia. Qed.
Lemma consumes_many1 {A} (p : parser A) : consumes p -> shrinks p -> consumes (many1 p).
Proof.
  intros C S i r a E. apply bind_ok in E as (r1 & b & E1 & E). apply bind_ok in E as (r2 & l & E2 & [= <- _]).
  apply C in E1. apply shrinks_le in E2; [lia|]. now apply shrinks_many0.
Qed.

Lemma consumes_ipol : consumes interpolation.
Proof.
  apply consumes_trimmed, consumes_non_empty, consumes_preceded_l; [apply consumes_tag|].
  apply shrinks_terminated; [|apply shrinks_tag]. apply shrinks_trimmed, shrinks_recognize, shrinks_preceded; [apply shrinks_take_while1|].
  apply shrinks_many0, shrinks_alt. repeat constructor; [apply shrinks_take_while1|apply shrinks_tag].
Qed.
Lemma consumes_string : consumes string_p.
Proof.
  apply consumes_trimmed, consumes_non_empty, consumes_recognize, consumes_preceded_l; [apply consumes_tag|].
  apply shrinks_terminated; [|apply shrinks_tag]. apply shrinks_many0, shrinks_alt. repeat constructor; [apply shrinks_is_not|].
  apply shrinks_recognize, shrinks_preceded; [apply shrinks_tag|apply shrinks_anychar].
Qed.
Lemma consumes_sel_chunk : consumes sel_chunk.
Proof.
  apply consumes_alt. repeat constructor.
  - apply consumes_recognize, consumes_preceded_l; [apply consumes_none_of|apply shrinks_opt, shrinks_is_not].
  - apply consumes_string.
  - apply consumes_recognize, consumes_ipol.
Qed.
Lemma safe_sel_chunk n : safe n sel_chunk.
Proof.
  unfold sel_chunk. pose proof (safe_string n). pose proof (safe_interpolation n).
  auto 20 with safe.
Qed.

Lemma selector_lq : lq 2200 w_selector_p.
Proof.
  eapply lq_le; [apply lq_trimmed, lq_non_empty, lq_map, lq_recognize, (lq_many1 _ sel_chunk)|].
  - apply lin_lq. apply lin_or; [apply lin_recognize, lin_preceded; [apply strict_lin, strict_none_of|apply lin_opt, strict_lin, strict_while1]|].
    apply lin_or; [apply lin_trimmed, tight_lin, tight_str|].
    apply lin_or; [apply lin_recognize, lin_trimmed, tight_lin, tight_ipol|]. apply strict_lin, strict_none.
  - unfold sel_chunk. auto 12 with wera.
  - apply consumes_sel_chunk.
  - apply shrinks_sel_chunk.
  - apply safe_sel_chunk.
  - small.
Qed.

Lemma total_opt_tag t : total (wopt (wtag t)).
Proof. intros i. unfold wopt, wtag, tag. destruct (starts_with t i); cbn; eauto. Qed.

Lemma consumes_selector : consumes selector_p.
Proof. apply consumes_trimmed, consumes_non_empty, consumes_map, consumes_recognize, consumes_many1; [apply consumes_sel_chunk|apply shrinks_sel_chunk]. Qed.

Lemma condition_lq : lq 7000 w_condition.
Proof.
  eapply lq_le; [apply lq_trimmed, lq_non_empty, (lq_many1 _ (terminated selector_p (opt (tag (lit ",")))))|].
  - apply lq_terminated; [apply selector_lq|apply lin_opt, strict_lin, strict_tag|apply total_opt_tag].
  - auto with wera.
  - apply consumes_terminated_l; [apply consumes_selector|apply shrinks_opt, shrinks_tag].
  - apply shrinks_terminated; [eapply sound_shrinks, sound_selector|apply shrinks_opt, shrinks_tag].
  - intros n. pose proof (safe_selector n). assert (S : shrinks selector_p) by (eapply sound_shrinks, sound_selector). auto 10 with safe.
  - small.
Qed.

Definition at_chunk : parser str := alt [is_not (lit "${"); recognize interpolation].

Lemma at_condition_lq ts us K : lin K (walt ts) -> Forall2 wera ts us -> lq (K + 1400) (w_at_rule_condition ts).
Proof.
  intros H _. eapply lq_le; [apply lq_trimmed, lq_non_empty, lq_map, lq_pair|].
  - apply lin_recognize, lin_terminated; [exact H|apply strict_lin, strict_tag].
  - apply lq_map, lq_recognize, (lq_many1 _ at_chunk).
    + apply lin_lq. apply lin_or; [apply strict_lin, strict_while1|].
      apply lin_or; [apply lin_recognize, lin_trimmed, tight_lin, tight_ipol|]. apply strict_lin, strict_none.
    + unfold at_chunk. auto 12 with wera.
    + apply consumes_alt. repeat constructor; [apply consumes_while1|apply consumes_recognize, consumes_ipol].
    + apply shrinks_alt. repeat constructor; [apply shrinks_is_not|apply shrinks_recognize, shrinks_interpolation].
    + intros n. unfold at_chunk. pose proof (safe_interpolation n). auto 20 with safe.
  - change (len (lit " ")) with 1. change (1 + 1) with 2. lia.
Qed.
Lemma tags_lin (a b c : str) : lin (len a + len b + len c + 7) (walt [wtag a; wtag b; wtag c]).
Proof.
  eapply lin_le; [do 3 (apply lin_or; [apply strict_lin, strict_tag|]); apply strict_lin, strict_none|]. lia.
Qed.
Lemma other_lq : lq 7000 w_other_condition.
Proof.
  eapply lq_le; [eapply at_condition_lq; [apply tags_lin|auto 10 with wera]|small].
Qed.
Lemma frame_lq : lq 7002 w_frame_condition.
Proof. eapply lq_le; [apply lq_map, lq_recognize, condition_lq|small]. Qed.
Lemma keyframes_lq : lq 7000 (w_at_rule_condition [wtag (lit "@keyframes"); wfail]).
Proof.
  eapply lq_le; [eapply at_condition_lq; [|auto 10 with wera]|].
  - apply lin_or; [apply strict_lin, strict_tag|]. apply lin_or; [apply strict_lin, strict_fail|apply strict_lin, strict_none].
  - small.
Qed.
Lemma scope_at_lq : lq 7000 (w_at_rule_condition [wtag (lit "@container"); wtag (lit "@supports"); wtag (lit "@media")]).
Proof.
  eapply lq_le; [eapply at_condition_lq; [apply tags_lin|auto 10 with wera]|small].
Qed.

(** ** Blocks *)

(** A block ends here. *)
Definition brace (x : str) : Prop := exists y, x = ch "}" :: y.

Lemma brace_dsp x : brace x -> dsp x = x.
Proof. intros [y ->]. apply dsp_solid. cbn. split; [intuition discriminate|discriminate]. Qed.

Section Blocks.
  Variable M : N.

  (** One item of a loop: it costs what it reads; when it is not there it may cost all that follows. *)
  Definition elem_ok {A} (p : wparser A) : Prop := forall i, len i + 1 <= M ->
    match p i with
    | (ROk r _, w) => len r <= len i /\ w + M + 100000 * (M * len r) <= 100000 * (M * len i)
    | (_, w) => w <= 100000 * (M * len i) + 55000 * M /\ (brace (dsp i) -> w <= 55000 * M)
    end.

  (** What is between braces. *)
  Definition inner_ok {A} (p : wparser A) : Prop := forall i, len i + 1 <= M ->
    match p i with
    | (ROk r _, w) => len r <= len i /\ w <= 100000 * (M * len i) + 60000 * M
                      /\ (brace r -> w + 100000 * (M * len r) <= 100000 * (M * len i) + 60000 * M)
    | (_, w) => w <= 100000 * (M * len i) + 60000 * M
    end.

  Lemma loop_ok {A} (p : wparser A) n : elem_ok p -> forall i, len i + 1 <= M ->
    match wmany0_fuel n p i with
    | (ROk r _, w) => len r <= len i /\ w <= 100000 * (M * len i) + 55000 * M + 1
                      /\ (brace (dsp r) -> w + 100000 * (M * len r) <= 100000 * (M * len i) + 55000 * M + 1)
                      /\ fst (p r) = RErr
    | (_, w) => w <= 100000 * (M * len i) + 55000 * M + 1
    end.
  Proof.
    intros H. induction n as [|n IH]; intros i L; cbn [wmany0_fuel]; [lia|].
    pose proof (H i L) as Hi. destruct (p i) as [[r a| | |] w] eqn:E; try lia.
    - destruct Hi as [L1 Hi]. destruct (Nat.eqb _ _) eqn:En; [lia|]. apply len_neq in En.
      assert (L2 : len r + 1 <= M) by lia. specialize (IH r L2).
      destruct (wmany0_fuel n p r) as [[r2 l| | |] w2]; cbn [wbind more]; try lia.
      destruct IH as (L3 & B & C & F). split; [lia|]. split; [lia|]. split; [intros X; specialize (C X); lia|auto].
    - destruct Hi as [Hi Hb]. split; [lia|]. split; [lia|]. split; [|now rewrite E]. intros X. specialize (Hb X). lia.
  Qed.

  Lemma inner_many0 {A} (p : wparser A) : elem_ok p -> inner_ok (wmany0 p).
  Proof.
    intros H i L. pose proof (loop_ok p (S (List.length i)) H i L) as Hl. unfold wmany0.
    destruct (wmany0_fuel _ p i) as [[r l| | |] w]; try lia. destruct Hl as (L1 & B & C & _). split; auto. split; [lia|].
    intros X. rewrite (brace_dsp r X) in C. specialize (C X). lia.
  Qed.
  Lemma inner_loop p : elem_ok (walt [wmap (map CAttr) (w_attributes false); wmap (fun m => [m]) p]) ->
    inner_ok (w_expect_non_empty (w_contents_loop p)).
  Proof.
    intros H i L. destruct i as [|c i']; cbn [w_expect_non_empty]; [lia|]. set (i := c :: i') in *. clearbody i. clear c i'.
    unfold w_contents_loop, wmap at 1, wmany0. pose proof (loop_ok _ (S (List.length i)) H i L) as Hl.
    destruct (wmany0_fuel _ _ i) as [[r l| | |] w]; cbn [wbind more]; try lia. destruct Hl as (L1 & B & C & _). split; auto. split; [lia|].
    intros X. rewrite (brace_dsp r X) in C. specialize (C X). lia.
  Qed.
  Lemma spw_M i : len i + 1 <= M -> spw i <= 80 * M.
  Proof. intros H. pose proof (spw_lin i). lia. Qed.
  Lemma dsp_M i : len i + 1 <= M -> len (dsp i) + 1 <= M /\ M * len (dsp i) <= M * len i.
  Proof. intros H. pose proof (dsp_len i). split; [lia|]. now apply N.mul_le_mono_l. Qed.

  (** The same with blank space around the loop, twice in [block]. *)
  Lemma inner_loop_trimmed p : elem_ok (walt [wmap (map CAttr) (w_attributes false); wmap (fun m => [m]) p]) ->
    inner_ok (w_trimmed (w_block_contents p)).
  Proof.
    intros H i L. unfold w_block_contents. rewrite !trimmed_w, dsp_idem.
    destruct (dsp_M i L) as [Ld Md]. pose proof (spw_M i L) as S1. pose proof (spw_M _ Ld) as S2. pose proof (dsp_len i) as Li.
    destruct (dsp i) as [|c x] eqn:Ed; cbn [w_expect_non_empty more wbind]; [lia|]. rewrite <- Ed in *. clear Ed c x.
    unfold w_contents_loop, wmap at 1, wmany0. pose proof (loop_ok _ (S (List.length (dsp i))) H (dsp i) Ld) as Hl.
    destruct (wmany0_fuel _ _ (dsp i)) as [[r l| | |] w]; cbn [wbind more]; try lia. destruct Hl as (L1 & B & C & _).
    assert (Lr : len r + 1 <= M) by lia. destruct (dsp_M r Lr) as [Lr2 Mr]. pose proof (spw_M _ Lr) as S3. pose proof (spw_M _ Lr2) as S4.
    pose proof (dsp_len r) as L3. rewrite dsp_idem. split; [lia|]. split; [lia|].
    intros X. specialize (C X). lia.
  Qed.

  (** A condition and what is between the braces after it *)
  Definition braced {A B} (cond : wparser A) (inner : wparser B) : wparser (A * B) :=
    wpair cond (wpreceded (wtag (lit "{")) (wterminated inner (wtag (lit "}")))).

  Lemma braced_ok {A B} (cond : wparser A) (inner : wparser B) : lq 7002 cond -> inner_ok inner ->
    forall i, len i + 1 <= M ->
    match braced cond inner i with
    | (ROk r _, w) => len r + 2 <= len i /\ w + 100000 * (M * (len r + 1)) + 30000 * M <= 100000 * (M * len i) /\ fst (cond i) <> RErr
    | (_, w) => w <= 100000 * (M * len i) + 7010 * M /\ (fst (cond i) = RErr -> w <= 7010 * M)
    end.
  Proof.
    intros Hc Hi i L. unfold braced, wpair. specialize (Hc i).
    destruct (cond i) as [[r1 a| | |] w1] eqn:Ec; cbn [wbind fst].
    2-4: assert (w1 <= 7010 * M) by nia; lia.
    destruct Hc as [L1 Hc]. assert (N0 : @ROk A r1 a <> RErr) by discriminate.
    assert (Hc' : w1 <= 7002 * (M * (len i - len r1)) + 7002 * M) by nia. clear Hc.
    assert (M1 : M * (len r1 + (len i - len r1)) = M * len i) by (f_equal; lia).
    rewrite N.mul_add_distr_l in M1. set (X := M * (len i - len r1)) in *.
    unfold wpreceded. pose proof (strict_tag (lit "{") r1) as Ht. change (1 + len (lit "{")) with 2 in Ht.
    destruct (wtag (lit "{") r1) as [[r2 t| | |] w2] eqn:Et; cbn [wbind].
    2-4: split; [lia|intros E; discriminate E].
    assert (L2 : len r1 = len r2 + 1).
    { unfold wtag in Et. apply (f_equal fst) in Et. cbn [fst] in Et. apply sound_tag in Et as (u & -> & -> & _). rewrite len_app. cbn [lit]. change (len (lit "{")) with 1. lia. }
    destruct Ht as [_ Ht]. unfold wterminated.
    assert (Ht' : w2 <= 4) by (rewrite L2 in Ht; lia). clear Ht.
    assert (L3 : len r2 + 1 <= M) by lia. pose proof (Hi r2 L3) as Hr.
    rewrite L2 in M1. rewrite N.mul_add_distr_l in M1. rewrite N.mul_1_r in M1.
    destruct (inner r2) as [[r3 b| | |] w3] eqn:Ei; cbn [wbind].
    2-4: split; [lia|intros E; discriminate E].
    destruct Hr as (L4 & Bd & C).
    pose proof (strict_tag (lit "}") r3) as Ht. change (1 + len (lit "}")) with 2 in Ht.
    destruct (wtag (lit "}") r3) as [[r4 t4| | |] w4] eqn:Et4; cbn [wbind].
    2-4: split; [lia|intros E; discriminate E].
    assert (Br : r3 = ch "}" :: r4).
    { unfold wtag in Et4. apply (f_equal fst) in Et4. cbn [fst] in Et4. apply sound_tag in Et4 as (u & -> & -> & _). reflexivity. }
    assert (L5 : len r3 = len r4 + 1) by (rewrite Br, len_cons; lia).
    specialize (C (ex_intro _ r4 Br)). rewrite L5 in C, Ht. destruct Ht as [_ Ht].
    split; [lia|]. split; [lia|exact N0].
  Qed.

  Definition heavy_ok {A B} (cond : wparser A) (p : wparser B) : Prop := forall i, len i + 1 <= M ->
    match p i with
    | (ROk r _, w) => len r + 2 <= len i /\ w + 100000 * (M * (len r + 1)) + 29000 * M <= 100000 * (M * len i) /\ fst (cond (dsp i)) <> RErr
    | (_, w) => w <= 100000 * (M * len i) + 7300 * M /\ (fst (cond (dsp i)) = RErr -> w <= 7300 * M)
    end.

  Lemma heavy_braced {A B C} (f : A * B -> C) (cond : wparser A) (inner : wparser B) : lq 7002 cond -> inner_ok inner ->
    heavy_ok cond (w_trimmed (wmap f (braced cond inner))).
  Proof.
    intros Hc Hi i L. rewrite trimmed_w. unfold wmap. destruct (dsp_M i L) as [Ld Md]. pose proof (spw_M i L) as S1.
    pose proof (braced_ok cond inner Hc Hi (dsp i) Ld) as H. pose proof (dsp_len i) as Li.
    destruct (braced cond inner (dsp i)) as [[r a| | |] w]; cbn [wbind more].
    2-4: destruct H as [H H']; split; [lia|intros E; specialize (H' E); lia].
    destruct H as (L1 & H & H'). assert (Lr : len r + 1 <= M) by lia. destruct (dsp_M r Lr) as [Lr2 Mr]. pose proof (spw_M _ Lr) as S3.
    pose proof (dsp_len r). split; [lia|]. split; [lia|exact H'].
  Qed.
  Lemma heavy_braced_full {A B C} (f : A * B -> C) (cond : wparser A) (inner : wparser B) : lq 7002 cond -> inner_ok inner ->
    heavy_ok cond (w_trimmed (w_expect_non_empty (wmap f (braced cond inner)))).
  Proof.
    intros Hc Hi i L. rewrite trimmed_w. unfold wmap. destruct (dsp_M i L) as [Ld Md]. pose proof (spw_M i L) as S1.
    pose proof (braced_ok cond inner Hc Hi (dsp i) Ld) as H. pose proof (dsp_len i) as Li.
    destruct (dsp i) as [|c x] eqn:Ed; cbn [w_expect_non_empty more wbind]; [split; lia|]. rewrite <- Ed in *. clear Ed c x.
    destruct (braced cond inner (dsp i)) as [[r a| | |] w]; cbn [wbind more].
    2-4: destruct H as [H H']; split; [lia|intros E; specialize (H' E); lia].
    destruct H as (L1 & H & H'). assert (Lr : len r + 1 <= M) by lia. destruct (dsp_M r Lr) as [Lr2 Mr]. pose proof (spw_M _ Lr) as S3.
    pose proof (dsp_len r). split; [lia|]. split; [lia|exact H'].
  Qed.

  Lemma attributes_M d i : len i + 1 <= M -> match w_attributes d i with
    | (ROk r _, w) => len r + 1 <= len i /\ w <= 19000 * M
    | (_, w) => w <= 19000 * M
    end.
  Proof.
    intros L. pose proof (attributes_lin d i) as H. pose proof (wera_attributes d i) as E.
    destruct (w_attributes d i) as [[r a| | |] w]; try lia. destruct H as [L1 H]. split; [|lia].
    cbn [fst] in E. symmetry in E. apply consumes_attributes in E. unfold len. lia.
  Qed.

  Lemma at_tags_no us x : (forall t, In t us -> exists s, t = tag (ch "@" :: s) \/ t = fail_p) ->
    match x with c :: _ => c <> ch "@" | [] => True end -> alt us x = RErr.
  Proof.
    intros H Hx. induction us as [|t us IH]; cbn [alt]; auto.
    destruct (H t (or_introl eq_refl)) as [s [->| ->]].
    - rewrite tag_err by exact Hx. apply IH. intros u Hu. apply H. now right.
    - unfold fail_p at 1. apply IH. intros u Hu. apply H. now right.
  Qed.
  Lemma other_no x : match dsp x with c :: _ => c <> ch "@" | [] => True end -> fst (w_other_condition x) = RErr.
  Proof.
    intros H. rewrite wera_other_condition. apply at_condition_err, at_tags_no; auto.
    intros t [<-|[<-|[<-|[]]]]; eexists; left; reflexivity.
  Qed.
  Lemma condition_no x : no_sel (dsp x) -> fst (w_condition x) = RErr.
  Proof. intros H. rewrite wera_condition. now apply condition_err. Qed.

  (** The items of blocks *)
  Lemma elem_contents p : heavy_ok w_other_condition p ->
    elem_ok (walt [wmap (map CAttr) (w_attributes false); wmap (fun m => [m]) p]).
  Proof.
    intros H i L. cbn [walt]. unfold wmap. pose proof (attributes_M false i L) as Ha. specialize (H i L).
    destruct (w_attributes false i) as [[r a| | |] w]; cbn [wbind].
    - destruct Ha as [L1 Ha]. split; [lia|]. assert (M * (len r + 1) <= M * len i) by now apply N.mul_le_mono_l. lia.
    - destruct (p i) as [[r a| | |] w2]; cbn [wbind more].
      + destruct H as (L1 & H & _). split; [lia|]. lia.
      + destruct H as [H H']. split; [lia|]. intros [y Ey]. assert (w2 <= 7300 * M); [|lia]. apply H', other_no. rewrite dsp_idem, Ey. discriminate.
      + destruct H as [H H']. split; [lia|]. intros [y Ey]. assert (w2 <= 7300 * M); [|lia]. apply H', other_no. rewrite dsp_idem, Ey. discriminate.
      + destruct H as [H H']. split; [lia|]. intros [y Ey]. assert (w2 <= 7300 * M); [|lia]. apply H', other_no. rewrite dsp_idem, Ey. discriminate.
    - split; [lia|]. intros _. lia.
    - split; [lia|]. intros _. lia.
  Qed.

  Lemma lq_other : lq 7002 w_other_condition.
  Proof. eapply lq_le; [apply other_lq|small]. Qed.

  Lemma heavy_other d : heavy_ok w_other_condition (w_rule_block_other d).
  Proof.
    induction d as [|d IH].
    - intros i L. cbn [w_rule_block_other]. split; [lia|]. intros _. lia.
    - apply heavy_braced_full; [apply lq_other|]. apply inner_loop, elem_contents, IH.
  Qed.
  Lemma heavy_frame d : heavy_ok w_frame_condition (w_rule_block_frame d).
  Proof. apply heavy_braced_full; [apply frame_lq|]. apply inner_loop, elem_contents, heavy_other. Qed.
  Lemma heavy_block d : heavy_ok w_condition (w_block d).
  Proof.
    apply heavy_braced_full; [eapply lq_le; [apply condition_lq|small]|]. apply inner_loop_trimmed, elem_contents, heavy_other.
  Qed.
  Lemma elem_frame d : elem_ok (w_rule_block_frame d).
  Proof.
    intros i L. pose proof (heavy_frame d i L) as H. destruct (w_rule_block_frame d i) as [[r a| | |] w].
    { split; [lia|]. lia. }
    all: destruct H as [H H']; split; [lia|]; intros [y Ey]; assert (w <= 7300 * M); [|lia]; apply H'; rewrite wera_frame_condition;
      unfold frame_condition, map_p, recognize; rewrite condition_err; [reflexivity|]; rewrite dsp_idem, Ey; cbn; tauto.
  Qed.
  Definition w_keyframes_condition := w_at_rule_condition [wtag (lit "@keyframes"); wfail].
  Definition w_scope_condition := w_at_rule_condition [wtag (lit "@container"); wtag (lit "@supports"); wtag (lit "@media")].
  Lemma heavy_keyframes d : heavy_ok w_keyframes_condition (w_keyframes d).
  Proof.
    apply heavy_braced; [eapply lq_le; [apply keyframes_lq|small]|]. apply inner_many0, elem_frame.
  Qed.
  Lemma heavy_at_rule p : inner_ok p -> heavy_ok w_scope_condition (w_at_rule_with p).
  Proof. intros H. apply heavy_braced_full; [eapply lq_le; [apply scope_at_lq|small]|exact H]. Qed.

  Lemma dangling_M i : len i + 1 <= M -> match w_dangling_block i with
    | (ROk r _, w) => len r + 1 <= len i /\ w <= 19300 * M
    | (_, w) => w <= 19300 * M
    end.
  Proof.
    intros L. unfold w_dangling_block. rewrite trimmed_w. unfold wmap. destruct (dsp_M i L) as [Ld Md]. pose proof (spw_M i L) as S1.
    pose proof (attributes_M true (dsp i) Ld) as H. pose proof (dsp_len i) as Li.
    destruct (dsp i) as [|c x] eqn:Ed; cbn [w_expect_non_empty more wbind]; [lia|]. rewrite <- Ed in *. clear Ed c x.
    destruct (w_attributes true (dsp i)) as [[r a| | |] w]; cbn [wbind more]; try lia.
    destruct H as [L1 H]. assert (Lr : len r + 1 <= M) by lia. pose proof (spw_M _ Lr) as S3. pose proof (dsp_len r). lia.
  Qed.

  Lemma keyframes_or_at x : match dsp x with c :: _ => c = ch "@" | [] => True end ->
    fst (w_keyframes_condition x) = RErr \/ fst (w_scope_condition x) = RErr.
  Proof.
    intros H. unfold w_keyframes_condition, w_scope_condition.
    rewrite (wera_at_condition _ [tag (lit "@keyframes"); fail_p]) by auto 10 with wera.
    rewrite (wera_at_condition _ [tag (lit "@container"); tag (lit "@supports"); tag (lit "@media")]) by auto 10 with wera.
    destruct (dsp x) as [|c [|d y]] eqn:E.
    - left. apply at_condition_err. now rewrite E.
    - left. apply at_condition_err. rewrite E. subst c. reflexivity.
    - subst c. destruct (N.eq_dec d (ch "k")) as [->|N]; [right|left]; apply at_condition_err; rewrite E; [reflexivity|].
      unfold alt, fail_p, tag. cbn [lit map list_ascii_of_string starts_with]. replace (char_eqb (N_of_ascii "k") d) with false.
      + reflexivity.
      + symmetry. apply char_eqb_neq. intros <-. now apply N.
  Qed.
  Lemma at_no x : match dsp x with c :: _ => c <> ch "@" | [] => True end ->
    fst (w_keyframes_condition x) = RErr /\ fst (w_scope_condition x) = RErr.
  Proof.
    intros H. unfold w_keyframes_condition, w_scope_condition.
    rewrite (wera_at_condition _ [tag (lit "@keyframes"); fail_p]) by auto 10 with wera.
    rewrite (wera_at_condition _ [tag (lit "@container"); tag (lit "@supports"); tag (lit "@media")]) by auto 10 with wera.
    split; apply at_condition_err, at_tags_no; auto.
    - intros t [<-|[<-|[]]]; [eexists; left; reflexivity|exists []; right; reflexivity].
    - intros t [<-|[<-|[<-|[]]]]; eexists; left; reflexivity.
  Qed.

  Definition w_scope_elem (d : nat) : wparser scope_content :=
    walt [w_dangling_block; w_block d; w_at_rule_with (w_scope_contents d); w_keyframes d].

  (** Of the items of a sheet only one can cost much. *)
  Lemma elem_scope d : inner_ok (w_scope_contents d) -> elem_ok (w_scope_elem d).
  Proof.
    intros H i L. unfold w_scope_elem. cbn [walt]. pose proof (dangling_M i L) as Hd.
    pose proof (heavy_block d i L) as Hb. pose proof (heavy_at_rule _ H i L) as Ha. pose proof (heavy_keyframes d i L) as Hk.
    destruct (w_dangling_block i) as [[r a| | |] w1].
    { destruct Hd as [L1 Hd]. split; [lia|]. assert (M * (len r + 1) <= M * len i) by now apply N.mul_le_mono_l. lia. }
    2,3: split; [lia|intros _; lia].
    assert (X : (fst (w_condition (dsp i)) = RErr /\ (fst (w_keyframes_condition (dsp i)) = RErr \/ fst (w_scope_condition (dsp i)) = RErr))
                \/ (fst (w_keyframes_condition (dsp i)) = RErr /\ fst (w_scope_condition (dsp i)) = RErr)).
    { destruct (dsp i) as [|c x] eqn:E.
      - right. apply at_no. reflexivity.
      - rewrite <- E. destruct (N.eq_dec c (ch "@")) as [->|N].
        + left. split; [apply condition_no|apply keyframes_or_at]; rewrite dsp_idem, E; cbn; tauto.
        + right. apply at_no. now rewrite dsp_idem, E. }
    assert (Y : brace (dsp i) -> fst (w_condition (dsp i)) = RErr /\ fst (w_keyframes_condition (dsp i)) = RErr /\ fst (w_scope_condition (dsp i)) = RErr).
    { intros [y Ey]. split; [|apply at_no; rewrite dsp_idem, Ey; discriminate]. apply condition_no. rewrite dsp_idem, Ey. cbn. tauto. }
    destruct (w_block d i) as [[r a| | |] w2].
    { destruct Hb as (L1 & Hb & _). split; [lia|]. lia. }
    2,3: destruct Hb as [Hb Hb']; split; [lia|intros Z; apply Y in Z as (Z & _); specialize (Hb' Z); lia].
    destruct Hb as [Hb Hb'].
    destruct (w_at_rule_with (w_scope_contents d) i) as [[r a| | |] w3]; cbn [more].
    { destruct Ha as (L1 & Ha & Hn). assert (w2 <= 7300 * M) by (apply Hb'; tauto). split; [lia|]. lia. }
    2,3: destruct Ha as [Ha Ha']; split;
      [destruct X as [[X _]|[_ X]]; [specialize (Hb' X)|specialize (Ha' X)]; lia
      |intros Z; apply Y in Z as (Z & _ & Z'); specialize (Hb' Z); specialize (Ha' Z'); lia].
    destruct Ha as [Ha Ha'].
    destruct (w_keyframes d i) as [[r a| | |] w4]; cbn [more].
    { destruct Hk as (L1 & Hk & Hn). assert (w2 <= 7300 * M) by (apply Hb'; tauto). assert (w3 <= 7300 * M) by (apply Ha'; tauto).
      split; [lia|]. lia. }
    all: destruct Hk as [Hk Hk']; split;
      [destruct X as [[X [X'|X']]|[X' X]]; [specialize (Hb' X); specialize (Hk' X')|specialize (Hb' X); specialize (Ha' X')|specialize (Ha' X); specialize (Hk' X')]; lia
      |intros Z; apply Y in Z as (Z & Z2 & Z'); specialize (Hb' Z); specialize (Ha' Z'); specialize (Hk' Z2); lia].
  Qed.

  (** [scope_contents]: what is at the end of it when it gives something, too. *)
  Lemma scope_contents_run d : elem_ok (w_scope_elem d) -> forall i, len i + 1 <= M ->
    match w_scope_contents (S d) i with
    | (ROk r _, w) => len r <= len i /\ w <= 100000 * (M * len i) + 60000 * M
                      /\ (brace r -> w + 100000 * (M * len r) <= 100000 * (M * len i) + 60000 * M)
                      /\ exists r', r = dsp r' /\ fst (w_scope_elem d r') = RErr
    | (_, w) => w <= 100000 * (M * len i) + 60000 * M
    end.
  Proof.
    intros H i L. change (w_scope_contents (S d)) with (w_trimmed (w_expect_non_empty (wmany0 (w_scope_elem d)))). rewrite trimmed_w.
    destruct (dsp_M i L) as [Ld Md]. pose proof (spw_M i L) as S1. pose proof (dsp_len i) as Li.
    destruct (dsp i) as [|c x] eqn:Ed; cbn [w_expect_non_empty more wbind]; [lia|]. rewrite <- Ed in *. clear Ed c x.
    unfold wmany0. pose proof (loop_ok _ (S (List.length (dsp i))) H (dsp i) Ld) as Hl.
    destruct (wmany0_fuel _ _ (dsp i)) as [[r l| | |] w]; cbn [wbind more]; try lia. destruct Hl as (L1 & B & C & F).
    assert (Lr : len r + 1 <= M) by lia. destruct (dsp_M r Lr) as [Lr2 Mr]. pose proof (spw_M _ Lr) as S3.
    pose proof (dsp_len r) as L3. split; [lia|]. split; [lia|]. split; [intros X; specialize (C X); lia|eauto].
  Qed.
  Lemma inner_scope d : inner_ok (w_scope_contents d).
  Proof.
    induction d as [|d IH]; intros i L; [cbn [w_scope_contents]; lia|].
    pose proof (scope_contents_run d (elem_scope d IH) i L) as H.
    destruct (w_scope_contents (S d) i) as [[r a| | |] w]; try lia. tauto.
  Qed.
End Blocks.

(** ** Sheets *)

Lemma scope_elem_dsp d x : fst (w_scope_elem d (dsp x)) = fst (w_scope_elem d x).
Proof.
  assert (E : wera (w_scope_elem d) (scope_elem d)) by (unfold w_scope_elem, scope_elem; auto 16 with wera).
  rewrite !E. unfold scope_elem, dangling_block, block, at_rule_with, keyframes. cbn [alt]. now rewrite !trimmed_eq, dsp_idem.
Qed.

(** A second [scope] reads nothing. *)
Lemma scope_run d i : let M := len i + 1 in
  match w_scope (S d) i with
  | (ROk r _, w) => len r <= len i /\ w <= 100000 * (M * len i) + 61000 * M /\ dsp r = r /\ fst (w_scope_elem d r) = RErr
  | (_, w) => w <= 100000 * (M * len i) + 61000 * M
  end.
Proof.
  cbv zeta. set (M := len i + 1). assert (L : len i + 1 <= M) by (unfold M; lia). clearbody M.
  unfold w_scope. rewrite trimmed_w. destruct (dsp_M M i L) as [Ld Md]. pose proof (spw_M M i L) as S1. pose proof (dsp_len i) as Li.
  destruct (dsp i) as [|c x] eqn:Ed; cbn [w_expect_non_empty more wbind]; [lia|]. rewrite <- Ed in *. clear Ed c x.
  pose proof (scope_contents_run M d (elem_scope M d (inner_scope M d)) (dsp i) Ld) as H.
  destruct (w_scope_contents (S d) (dsp i)) as [[r a| | |] w]; cbn [wbind more]; try lia.
  destruct H as (L1 & B & _ & r' & -> & E). rewrite dsp_idem.
  assert (Lr : len (dsp r') + 1 <= M) by lia. pose proof (spw_M M _ Lr) as S3.
  split; [lia|]. split; [lia|]. split; [apply dsp_idem|]. now rewrite scope_elem_dsp.
Qed.

Lemma scope_again d i : dsp i = i -> fst (w_scope_elem d i) = RErr ->
  match fst (w_scope (S d) i) with ROk r _ => r = i | _ => True end.
Proof.
  intros D E. unfold w_scope. rewrite trimmed_w, D. destruct i as [|c x] eqn:Ei; cbn [w_expect_non_empty more wbind]; [exact I|].
  rewrite <- Ei in *. clear Ei c x.
  change (w_scope_contents (S d)) with (w_trimmed (w_expect_non_empty (wmany0 (w_scope_elem d)))). rewrite trimmed_w, D.
  destruct i as [|c x] eqn:Ei; cbn [w_expect_non_empty more wbind]; [exact I|]. rewrite <- Ei in *. clear Ei c x.
  unfold wmany0. cbn [wmany0_fuel]. destruct (w_scope_elem d i) as [y w]. cbn [fst] in E. subst y. cbn [wbind more fst]. now rewrite !D.
Qed.

Lemma sheet_work d i : snd (w_sheet_p (S d) i) <= 400000 * ((len i + 1) * (len i + 1)).
Proof.
  unfold w_sheet_p. rewrite trimmed_w. pose proof (dsp_len i) as L. pose proof (spw_lin i) as S1.
  set (j := dsp i) in *. clearbody j. unfold wmap, wmany0. cbn [wmany0_fuel].
  pose proof (scope_run d j) as H. cbv zeta in H.
  assert (Mj : (len j + 1) * (len j + 1) <= (len i + 1) * (len i + 1)) by nia.
  assert (Mi : len i + 1 <= (len i + 1) * (len i + 1)) by nia.
  destruct (w_scope (S d) j) as [[r a| | |] w]; cbn [wbind more snd].
  2:{ pose proof (spw_lin j). lia. }
  2,3: lia.
  destruct H as (L1 & B & D & E). destruct (Nat.eqb _ _) eqn:En; cbn [wbind more snd]; [lia|].
  destruct (List.length j) as [|n]; cbn [wmany0_fuel wbind more snd]; [lia|].
  pose proof (scope_run d r) as H2. pose proof (scope_again d r D E) as H3. cbv zeta in H2.
  assert (Mr : (len r + 1) * (len r + 1) <= (len i + 1) * (len i + 1)) by nia.
  destruct (w_scope (S d) r) as [[r2 a2| | |] w2]; cbn [wbind more snd].
  - cbn [fst] in H3. subst r2. rewrite Nat.eqb_refl. cbn [wbind more snd]. lia.
  - pose proof (spw_lin r). lia.
  - lia.
  - lia.
Qed.
