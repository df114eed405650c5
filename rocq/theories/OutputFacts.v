(** * OutputFacts: the generated code is accepted wherever it is put, and spells the output. *)

From Coq Require Import String Ascii List NArith Bool Arith Lia.
From Verif Require Import Str StrFacts Ast Owned Tok Output SpecOutput.
Import ListNotations.
Local Open Scope list_scope.

(** ** Joining kinds *)

Lemma kjoin_assoc a b c : kjoin a (kjoin b c) = kjoin (kjoin a b) c.
Proof. now destruct a, b, c. Qed.
Lemma kjoin_comm a b : kjoin a b = kjoin b a.
Proof. now destruct a, b. Qed.
Lemma kjoin_const k : kjoin KConst k = k.
Proof. now destruct k. Qed.
Lemma kjoin_const_r k : kjoin k KConst = k.
Proof. now destruct k. Qed.

(** An expression of this kind may stand in this place. *)
Definition allows (p : place) (k : kind) : Prop :=
  match p, k with
  | InConst, KConst => True
  | InConst, _ => False
  | InStatic, KDynamic => False
  | _, _ => True
  end.
Definition agrees (p : place) (rho : env) : Prop :=
  match p with InFunction r => r = rho | _ => True end.

Lemma allows_join p a b : allows p (kjoin a b) <-> allows p a /\ allows p b.
Proof. destruct p, a, b; cbn; tauto. Qed.

(** ** The general shape *)

(** Reifying [x] adds the same kind [d] to any context; wherever that kind is allowed the
    generated expression evaluates to [m rho x]; and [d] is dynamic if [x] is interpolated. *)
Definition good {A G V W} (f : A -> kind -> G * kind) (ev : place -> G -> option V)
    (erase : V -> W) (m : env -> A -> W) (i : A -> bool) (x : A) : Prop :=
  exists g d, (forall k, f x k = (g, kjoin k d))
    /\ (i x = true -> d = KDynamic)
    /\ forall p rho, allows p d -> agrees p rho ->
         exists v, ev p g = Some v /\ erase v = m rho x.

Section Good.
  Context {A G V W : Type} (f : A -> kind -> G * kind) (ev : place -> G -> option V)
    (erase : V -> W) (m : env -> A -> W) (i : A -> bool).
  Notation good1 := (good f ev erase m i).

  Lemma map_ctx_good l : Forall good1 l ->
    exists gs d, (forall k, map_ctx f l k = (gs, kjoin k d))
      /\ (existsb i l = true -> d = KDynamic)
      /\ forall p rho, allows p d -> agrees p rho ->
           exists vs, all_some (ev p) gs = Some vs /\ map erase vs = map (m rho) l.
  Proof.
    induction 1 as [|x l (g & d & H1 & H2 & H3) _ (gs & e & I1 & I2 & I3)].
    - exists [], KConst. split; [intros k; cbn; now rewrite kjoin_const_r|].
      split; [discriminate|]. intros p rho _ _. now exists [].
    - exists (g :: gs), (kjoin d e). split; [|split].
      + intros k. cbn. rewrite H1. fold (map_ctx f). rewrite I1. now rewrite kjoin_assoc.
      + cbn. intros H. apply orb_true_iff in H. destruct H as [H|H].
        * now rewrite (H2 H).
        * rewrite (I2 H). now destruct d.
      + intros p rho Ha Hg. apply allows_join in Ha. destruct Ha as [Ha1 Ha2].
        destruct (H3 p rho Ha1 Hg) as (v & E1 & E2). destruct (I3 p rho Ha2 Hg) as (vs & E3 & E4).
        exists (v :: vs). cbn. rewrite E1. fold (all_some (ev p)). rewrite E3, E2, E4. now split.
  Qed.

  Lemma cow_vec_good l : Forall good1 l ->
    good (cow_vec f) (ev_vec ev) (fun v => map erase (cderef v)) (fun rho => map (m rho))
         (existsb i) l.
  Proof.
    intros H. destruct (map_ctx_good l H) as (gs & d & H1 & H2 & H3).
    unfold good, cow_vec. rewrite H1, kjoin_const. destruct d; cbn [is_const].
    - exists (GVec gs), KDynamic. split; [intros k; now destruct k|]. split; [auto|].
      intros p rho Ha Hg. destruct (H3 p rho Ha Hg) as (vs & E1 & E2).
      exists (CowOwned vs). destruct p; cbn in Ha |- *; try easy. now rewrite E1.
    - exists (GVec gs), KStatic. split; [intros k; now destruct k|]. split; [auto|].
      intros p rho Ha Hg. destruct (H3 p rho Ha Hg) as (vs & E1 & E2).
      exists (CowOwned vs). destruct p; cbn in Ha |- *; try easy; now rewrite E1.
    - exists (GItems gs), KConst. split; [intros k; now rewrite kjoin_const_r|]. split; [auto|].
      intros p rho _ _. destruct (H3 InConst rho I I) as (vs & E1 & E2).
      exists (CowBorrowed vs). cbn. now rewrite E1.
  Qed.
End Good.

(** ** Fragments *)

Lemma into_inner_text rho f : key_text rho (into_inner f) = frag_text rho f.
Proof. destruct f as [[]| | |[] []|]; reflexivity. Qed.
Lemma as_string_text rho f s : as_string f = Some s -> frag_text rho f = s.
Proof.
  unfold as_string. rewrite <- (into_inner_text rho). destruct (into_inner f); [|discriminate].
  now intros [= ->].
Qed.
Lemma as_string_interpolated f : as_string f = None <-> frag_interpolated f = true.
Proof. destruct f as [[]| | | |]; cbn; split; congruence. Qed.

Lemma reify_cow_good c : key_ok c ->
  good reify_cow ev_str cderef key_text key_interpolated c.
Proof.
  intros H. destruct c as [s|c d]; cbn in H.
  - exists (GLitStr s), KConst. split; [intros k; cbn; now rewrite kjoin_const_r|].
    split; [discriminate|]. intros p rho _ _. now exists (CowBorrowed s).
  - subst d. exists (GDisplay c), KDynamic. split; [reflexivity|]. split; [auto|].
    intros p rho Ha Hg. destruct p; cbn in Ha, Hg; try easy. subst rho0.
    now exists (CowOwned (rho c)).
Qed.

Lemma reify_frag_good f : good reify_frag ev_frag erase_frag frag_text frag_interpolated f.
Proof.
  destruct (reify_cow_good (into_inner f)) as (g & d & H1 & H2 & H3).
  { destruct f as [[]| | | |]; cbn; auto. }
  exists g, d. split; [exact H1|]. split.
  - intros H. apply H2. now destruct f as [[]| | | |].
  - intros p rho Ha Hg. destruct (H3 p rho Ha Hg) as (v & E1 & E2).
    exists (mk_ofrag v). unfold ev_frag, erase_frag. rewrite E1. cbn. rewrite E2.
    split; auto. apply into_inner_text.
Qed.

Lemma coalesce_from_text rho x l :
  List.concat (map (frag_text rho) (coalesce_from x l))
  = frag_text rho x ++ List.concat (map (frag_text rho) l).
Proof.
  revert x. induction l as [|y l IH]; intros x; [reflexivity|]. cbn [coalesce_from].
  destruct (as_string x) as [s|] eqn:E1; [destruct (as_string y) as [t|] eqn:E2|].
  - rewrite IH. cbn [frag_text map List.concat].
    now rewrite (as_string_text rho _ _ E1), (as_string_text rho _ _ E2), app_assoc.
  - cbn [map List.concat]. now rewrite IH.
  - cbn [map List.concat]. now rewrite IH.
Qed.
Lemma coalesce_text rho l :
  List.concat (map (frag_text rho) (coalesce l)) = List.concat (map (frag_text rho) l).
Proof. destruct l; auto. apply coalesce_from_text. Qed.

Lemma coalesce_from_interpolated x l :
  existsb frag_interpolated (coalesce_from x l)
  = frag_interpolated x || existsb frag_interpolated l.
Proof.
  revert x. induction l as [|y l IH]; intros x; [reflexivity|]. cbn [coalesce_from].
  destruct (as_string x) as [s|] eqn:E1; [destruct (as_string y) as [t|] eqn:E2|].
  - rewrite IH. cbn [frag_interpolated existsb].
    assert (forall z s, as_string z = Some s -> frag_interpolated z = false) as K.
    { intros z w H. destruct (frag_interpolated z) eqn:F; auto.
      apply as_string_interpolated in F. congruence. }
    now rewrite (K _ _ E1), (K _ _ E2).
  - cbn [existsb]. now rewrite IH.
  - cbn [existsb]. now rewrite IH.
Qed.
Lemma coalesce_interpolated l :
  existsb frag_interpolated (coalesce l) = existsb frag_interpolated l.
Proof. destruct l; auto. apply coalesce_from_interpolated. Qed.

Lemma reify_frags_good l :
  good reify_frags ev_frags erase_frags (fun rho l => map (frag_text rho) (coalesce l))
       (existsb frag_interpolated) l.
Proof.
  destruct (cow_vec_good reify_frag ev_frag erase_frag frag_text frag_interpolated (coalesce l))
    as (g & d & H1 & H2 & H3).
  { apply Forall_forall. intros x _. apply reify_frag_good. }
  exists g, d. rewrite <- coalesce_interpolated. auto.
Qed.

(** ** Trees *)

(** The meaning with text coalesced. *)
Definition cfrags (rho : env) (l : list out_frag) : list str_fragment :=
  map (frag_text rho) (coalesce l).
Fixpoint rbc_coalesced (rho : env) (c : out_rbc) : rbc :=
  match c with
  | OutAttr a => CAttr (mk_attr (key_text rho (oa_key a)) (cfrags rho (oa_values a)))
  | OutRule cond l => CRule (cfrags rho cond) (map (rbc_coalesced rho) l)
  | OutBlock cond l => CBlock (map (cfrags rho) cond) (map (rbc_coalesced rho) l)
  end.
Definition scope_coalesced (rho : env) (c : out_scope) : scope_content :=
  match c with
  | OutSRule cond l => SRule (cfrags rho cond) (map (rbc_coalesced rho) l)
  | OutSBlock cond l => SBlock (map (cfrags rho) cond) (map (rbc_coalesced rho) l)
  end.
Definition sheet_coalesced (rho : env) (s : out_sheet) : sheet := map (scope_coalesced rho) s.

Definition rule_meaning (rho : env) (r : list out_frag * list out_rbc) :=
  (cfrags rho (fst r), map (rbc_coalesced rho) (snd r)).
Definition erase_rule (r : orule) := (erase_frags (orule_cond r), map erase_rbc (cderef (orule_content r))).
Definition block_meaning (rho : env) (b : list out_selector * list out_rbc) :=
  (map (cfrags rho) (fst b), map (rbc_coalesced rho) (snd b)).
Definition erase_block (b : oblock) :=
  (map erase_selector (cderef (oblock_cond b)), map erase_rbc (cderef (oblock_content b))).

Notation rbc_good := (good reify_rbc ev_rbc erase_rbc rbc_coalesced rbc_interpolated).

Lemma rule_good cond content : Forall rbc_good content ->
  good (fun r => reify_rule_with reify_rbc (fst r) (snd r)) (ev_rule_with ev_rbc) erase_rule
       rule_meaning (fun r => existsb frag_interpolated (fst r) || existsb rbc_interpolated (snd r))
       (cond, content).
Proof.
  intros H. destruct (reify_frags_good cond) as (g & d & H1 & H2 & H3).
  destruct (cow_vec_good _ _ _ _ _ _ H) as (h & e & I1 & I2 & I3).
  exists (mk_grule g h), (kjoin d e). cbn [fst snd]. split; [|split].
  - intros k. unfold reify_rule_with. rewrite H1, I1, kjoin_assoc. reflexivity.
  - intros E. apply orb_true_iff in E. destruct E as [E|E]; [now rewrite (H2 E)|].
    rewrite (I2 E). now destruct d.
  - intros p rho Ha Hg. apply allows_join in Ha. destruct Ha as [Ha1 Ha2].
    destruct (H3 p rho Ha1 Hg) as (v & E1 & E2). destruct (I3 p rho Ha2 Hg) as (w & E3 & E4).
    exists (mk_orule v w). unfold ev_rule_with, erase_rule, rule_meaning. cbn [orule_cond orule_content fst snd].
    rewrite E1, E3, E2, E4. now split.
Qed.

Lemma selectors_good cond :
  good (cow_vec reify_frags) (ev_vec ev_selector) (fun v => map erase_selector (cderef v))
       (fun rho => map (cfrags rho)) (existsb (existsb frag_interpolated)) cond.
Proof.
  apply cow_vec_good. apply Forall_forall. intros x _.
  destruct (reify_frags_good x) as (g & d & H1 & H2 & H3). exists g, d. split; auto. split; auto.
  intros p rho Ha Hg. destruct (H3 p rho Ha Hg) as (v & E1 & E2). exists (mk_oselector v).
  unfold ev_selector. rewrite E1. now split.
Qed.

Lemma block_good cond content : Forall rbc_good content ->
  good (fun r => reify_block_with reify_rbc (fst r) (snd r)) (ev_block_with ev_rbc) erase_block
       block_meaning
       (fun r => existsb (existsb frag_interpolated) (fst r) || existsb rbc_interpolated (snd r))
       (cond, content).
Proof.
  intros H. destruct (selectors_good cond) as (g & d & H1 & H2 & H3).
  destruct (cow_vec_good _ _ _ _ _ _ H) as (h & e & I1 & I2 & I3).
  exists (mk_gblock g h), (kjoin d e). cbn [fst snd]. split; [|split].
  - intros k. unfold reify_block_with. rewrite H1, I1, kjoin_assoc. reflexivity.
  - intros E. apply orb_true_iff in E. destruct E as [E|E]; [now rewrite (H2 E)|].
    rewrite (I2 E). now destruct d.
  - intros p rho Ha Hg. apply allows_join in Ha. destruct Ha as [Ha1 Ha2].
    destruct (H3 p rho Ha1 Hg) as (v & E1 & E2). destruct (I3 p rho Ha2 Hg) as (w & E3 & E4).
    exists (mk_oblock v w). unfold ev_block_with, erase_block, block_meaning. cbn [oblock_cond oblock_content fst snd].
    rewrite E1, E3, E2, E4. now split.
Qed.

Lemma keys_Forall l : fold_right (fun c P => rbc_keys_ok c /\ P) True l <-> Forall rbc_keys_ok l.
Proof.
  induction l as [|c l IH]; cbn; [now split|]. rewrite IH. split.
  - intros [H1 H2]. now constructor.
  - intros H. now inversion H.
Qed.

Lemma attr_good a : key_ok (oa_key a) -> rbc_good (OutAttr a).
Proof.
  intros Hk. destruct (reify_cow_good _ Hk) as (g & d & H1 & H2 & H3).
  destruct (reify_frags_good (oa_values a)) as (h & e & I1 & I2 & I3).
  exists (GAttr g h), (kjoin d e). split; [|split].
  - intros k. cbn. unfold reify_attr. now rewrite H1, I1, kjoin_assoc.
  - cbn. intros E. apply orb_true_iff in E. destruct E as [E|E]; [now rewrite (H2 E)|].
    rewrite (I2 E). now destruct d.
  - intros p rho Ha Hg. apply allows_join in Ha. destruct Ha as [Ha1 Ha2].
    destruct (H3 p rho Ha1 Hg) as (v & E1 & E2). destruct (I3 p rho Ha2 Hg) as (w & E3 & E4).
    exists (OAttr (mk_oattr v w)). cbn. rewrite E1, E3. split; auto.
    unfold erase_attr. cbn. now rewrite E2, E4.
Qed.

Lemma rbcs_good l : Forall rbc_keys_ok l -> Forall rbc_good l.
Proof.
  revert l. apply (out_rbcs_ind2 (fun c => rbc_keys_ok c -> rbc_good c)
                                 (fun l => Forall rbc_keys_ok l -> Forall rbc_good l)).
  - intros a. apply attr_good.
  - intros cond content IH Hk. apply keys_Forall in Hk. specialize (IH Hk).
    destruct (rule_good cond content IH) as (g & d & H1 & H2 & H3). cbn [fst snd] in *.
    exists (GRule (if is_const d then GBorrow g else GBox g)), d.
    split; [intros k; cbn; now rewrite H1, kjoin_const|]. split; [exact H2|].
    intros p rho Ha Hg. cbn [ev_rbc]. destruct (is_const d) eqn:Ed.
    + destruct d; try discriminate. destruct (H3 InConst rho I I) as (v & E1 & E2).
      exists (ORule (Borrowed v)). cbn [ev_bow]. rewrite E1. split; auto.
      destruct v as [vc vl]. unfold erase_rule, rule_meaning in E2. cbn in E2 |- *.
      injection E2 as -> ->. reflexivity.
    + destruct (H3 p rho Ha Hg) as (v & E1 & E2).
      exists (ORule (Boxed v)).
      destruct p; [destruct d; easy| |]; cbn [ev_bow]; rewrite E1; (split; [reflexivity|]);
        destruct v as [vc vl]; unfold erase_rule, rule_meaning in E2; cbn in E2 |- *;
        injection E2 as -> ->; reflexivity.
  - intros cond content IH Hk. apply keys_Forall in Hk. specialize (IH Hk).
    destruct (block_good cond content IH) as (g & d & H1 & H2 & H3). cbn [fst snd] in *.
    exists (GBlock (if is_const d then GBorrow g else GBox g)), d.
    split; [intros k; cbn; now rewrite H1, kjoin_const|]. split; [exact H2|].
    intros p rho Ha Hg. cbn [ev_rbc]. destruct (is_const d) eqn:Ed.
    + destruct d; try discriminate. destruct (H3 InConst rho I I) as (v & E1 & E2).
      exists (OBlock (Borrowed v)). cbn [ev_bow]. rewrite E1. split; auto.
      destruct v as [vc vl]. unfold erase_block, block_meaning in E2. cbn in E2 |- *.
      injection E2 as -> ->. reflexivity.
    + destruct (H3 p rho Ha Hg) as (v & E1 & E2).
      exists (OBlock (Boxed v)).
      destruct p; [destruct d; easy| |]; cbn [ev_bow]; rewrite E1; (split; [reflexivity|]);
        destruct v as [vc vl]; unfold erase_block, block_meaning in E2; cbn in E2 |- *;
        injection E2 as -> ->; reflexivity.
  - intros _. constructor.
  - intros c l Hc Hl H. inversion H; subst. constructor; auto.
Qed.

Lemma scope_good c : scope_keys_ok c ->
  good reify_scope ev_scope erase_scope scope_coalesced scope_interpolated c.
Proof.
  destruct c as [cond content|cond content]; intros Hk; apply keys_Forall, rbcs_good in Hk.
  - destruct (rule_good cond content Hk) as (g & d & H1 & H2 & H3). cbn [fst snd] in *.
    exists (GSRule g), d. split; [intros k; cbn; now rewrite H1|]. split; [exact H2|].
    intros p rho Ha Hg. destruct (H3 p rho Ha Hg) as (v & E1 & E2).
    exists (OSRule v). cbn [ev_scope]. rewrite E1. split; auto.
    destruct v as [vc vl]. unfold erase_rule, rule_meaning in E2. cbn in E2 |- *.
    injection E2 as -> ->. reflexivity.
  - destruct (block_good cond content Hk) as (g & d & H1 & H2 & H3). cbn [fst snd] in *.
    exists (GSBlock g), d. split; [intros k; cbn; now rewrite H1|]. split; [exact H2|].
    intros p rho Ha Hg. destruct (H3 p rho Ha Hg) as (v & E1 & E2).
    exists (OSBlock v). cbn [ev_scope]. rewrite E1. split; auto.
    destruct v as [vc vl]. unfold erase_block, block_meaning in E2. cbn in E2 |- *.
    injection E2 as -> ->. reflexivity.
Qed.

(** ** Sheets *)

(** The expansion is either evaluated each time with the current values, or is put in a
    [static] and has a value that does not depend on any. *)
Lemma expand_cases s : keys_ok s ->
  (exists c, expand s = GNow c
     /\ forall rho, exists v, ev_contents (InFunction rho) c = Some v
                              /\ erase_sheet v = sheet_coalesced rho s)
  \/ (exists c v, expand s = GLazy c /\ interpolated s = false
        /\ ev_contents InStatic c = Some v /\ forall rho, erase_sheet v = sheet_coalesced rho s).
Proof.
  intros H. destruct (cow_vec_good reify_scope ev_scope erase_scope scope_coalesced scope_interpolated s)
    as (g & d & H1 & H2 & H3).
  { eapply Forall_impl; [|exact H]. intros c. apply scope_good. }
  unfold expand, reify_sheet. rewrite H1, kjoin_const.
  assert (Hd : is_static (uses_static d) = match d with KDynamic => false | _ => true end)
    by now destruct d.
  rewrite Hd. destruct d; cbn [fst].
  - left. exists g. split; auto. intros rho. now apply H3.
  - right. destruct (H3 InStatic (fun _ => []) I I) as (v & E1 & E2). exists g, v. split; auto.
    split. { unfold interpolated. destruct (existsb _ s) eqn:E; auto. now specialize (H2 eq_refl). }
    split; auto. intros rho. destruct (H3 InStatic rho I I) as (w & E3 & E4). rewrite E1 in E3. injection E3 as <-. exact E4.
  - right. destruct (H3 InStatic (fun _ => []) I I) as (v & E1 & E2). exists g, v. split; auto.
    split. { unfold interpolated. destruct (existsb _ s) eqn:E; auto. now specialize (H2 eq_refl). }
    split; auto. intros rho. destruct (H3 InStatic rho I I) as (w & E3 & E4). rewrite E1 in E3. injection E3 as <-. exact E4.
Qed.

Lemma evaluate_all_ok s : keys_ok s -> forall rhos,
  exists vs, evaluate_all None rhos (expand s) = Some vs
    /\ Forall2 (fun rho v => erase_sheet v = sheet_coalesced rho s) rhos vs.
Proof.
  intros Hs. destruct (expand_cases s Hs) as [(c & Ec & Hc)|(c & v & Ec & _ & Ev & Hv)]; rewrite Ec.
  - induction rhos as [|rho rhos (vs & IH1 & IH2)]; [exists []; now split|].
    destruct (Hc rho) as (v & E1 & E2). exists (v :: vs). cbn. rewrite E1. cbn. rewrite IH1.
    split; [reflexivity|now constructor].
  - assert (K : forall rhos, exists vs, evaluate_all (Some v) rhos (GLazy c) = Some vs
                /\ Forall2 (fun rho v => erase_sheet v = sheet_coalesced rho s) rhos vs).
    { induction rhos as [|rho rhos (vs & IH1 & IH2)]; [exists []; now split|].
      exists (v :: vs). cbn. rewrite IH1. split; [reflexivity|now constructor]. }
    intros [|rho rhos]; [exists []; now split|].
    destruct (K rhos) as (vs & K1 & K2). exists (v :: vs). cbn. rewrite Ev. cbn. rewrite K1.
    split; [reflexivity|now constructor].
Qed.

(** ** Coalescing does not change the text *)

Lemma rbcs_joined rho l :
  map (fun c => rbc_joined (rbc_coalesced rho c)) l = map (fun c => rbc_joined (rbc_meaning rho c)) l.
Proof.
  assert (K : forall l, joined (cfrags rho l) = joined (map (frag_text rho) l)).
  { intros l'. unfold joined, cfrags. now rewrite coalesce_text. }
  revert l.
  apply (out_rbcs_ind2 (fun c => rbc_joined (rbc_coalesced rho c) = rbc_joined (rbc_meaning rho c))
     (fun l => map (fun c => rbc_joined (rbc_coalesced rho c)) l = map (fun c => rbc_joined (rbc_meaning rho c)) l)).
  - intros a. cbn. now rewrite K.
  - intros cond l IH. cbn. rewrite K, !map_map, IH. reflexivity.
  - intros cond l IH. cbn. rewrite !map_map, IH. f_equal. apply map_ext. intros a. apply K.
  - reflexivity.
  - intros c l Hc Hl. cbn. now rewrite Hc, Hl.
Qed.

Lemma sheet_coalesced_joined rho s :
  sheet_joined (sheet_coalesced rho s) = sheet_joined (sheet_meaning rho s).
Proof.
  unfold sheet_joined, sheet_coalesced, sheet_meaning. rewrite !map_map. apply map_ext.
  assert (K : forall l, joined (cfrags rho l) = joined (map (frag_text rho) l)).
  { intros l'. unfold joined, cfrags. now rewrite coalesce_text. }
  intros [cond l|cond l]; cbn; rewrite !map_map, rbcs_joined; f_equal; auto.
  apply map_ext. intros a. apply K.
Qed.
