(** * MacroFacts: from a string literal and its arguments to the expansion. *)

From Coq Require Import String Ascii List NArith Bool Arith Lia.
From Verif Require Import Str StrFacts Ast Render CssParser ParserTotal Owned Tok Fstring Output LitMacro
  SpecMacro SpecOutput FstringFacts OutputFacts.
Import ListNotations.
Local Open Scope list_scope.

(** ** Rendering joins fragments *)

Lemma concat_joined l : List.concat (joined l) = List.concat l.
Proof. unfold joined. cbn. apply app_nil_r. Qed.

Lemma cond_str_joined class cond : cond_str class (map joined cond) = cond_str class cond.
Proof.
  unfold cond_str. destruct cond as [|s cond]; [reflexivity|].
  change (map joined (s :: cond)) with (joined s :: map joined cond). cbn iota.
  do 2 f_equal. change (joined s :: map joined cond) with (map joined (s :: cond)).
  rewrite map_map. apply map_ext. intros a. unfold write_selector. now rewrite concat_joined.
Qed.

Lemma write_rbc_joined class l : forall self ps,
  write_all (write_rbc class) (map rbc_joined l) self ps = write_all (write_rbc class) l self ps.
Proof.
  revert l.
  apply (rbcs_ind2 (fun c => forall self ps, write_rbc class (rbc_joined c) self ps = write_rbc class c self ps)
    (fun l => forall self ps, write_all (write_rbc class) (map rbc_joined l) self ps
                              = write_all (write_rbc class) l self ps)).
  - intros a self ps. cbn [rbc_joined write_rbc]. unfold write_attr. cbn [a_key a_value].
    now rewrite concat_joined.
  - intros cond l IH self ps. cbn [rbc_joined write_rbc]. rewrite concat_joined.
    destruct (starts_with (lit "@keyframes") (List.concat cond)).
    + destruct (start _ _) as [[f c] w]. now rewrite IH.
    + now rewrite IH.
  - intros cond l IH self ps. cbn [rbc_joined write_rbc]. now rewrite cond_str_joined, IH.
  - reflexivity.
  - intros c l Hc Hl self ps. cbn [map write_all]. rewrite Hc.
    destruct (write_rbc class c self ps) as [[f c'] w]. now rewrite Hl.
Qed.

Theorem render_joined class s : to_style_str class (sheet_joined s) = to_style_str class s.
Proof.
  unfold to_style_str, write_sheet, sheet_joined. rewrite map_map.
  assert (E : map (fun c => rbc_of_scope (scope_joined c)) s = map rbc_joined (map rbc_of_scope s)).
  { rewrite map_map. apply map_ext. now intros [|]. }
  rewrite E, write_rbc_joined. reflexivity.
Qed.

Lemma render_same_joined class s t :
  sheet_joined s = sheet_joined t -> to_style_str class s = to_style_str class t.
Proof. intros H. now rewrite <- (render_joined class s), H, render_joined. Qed.

(** ** Strings *)

Definition scannable (s : str) : Prop := exists ps, Forall piece_ok ps /\ s = write ps.

Lemma hole_iff ps n : Forall piece_ok ps ->
  has_hole n (write ps) <-> exists w w', In (Hole w n w') ps.
Proof.
  intros Hps. split.
  - intros (qs & w & w' & Hqs & E & Hin). pose proof (write_inj _ _ Hps Hqs E) as K.
    apply (proj2 (merge_holes _ _ _ _)) in Hin. apply (in_map ffrag_of) in Hin. rewrite <- K in Hin.
    apply in_map_iff in Hin. destruct Hin as (p & Ep & Hp). destruct p as [| |v m v']; try discriminate.
    injection Ep as ->. apply (proj1 (merge_holes _ _ _ _)) in Hp. now exists v, v'.
  - intros (w & w' & Hin). now exists ps, w, w'.
Qed.

Lemma fills_iff v ps t : Forall piece_ok ps ->
  fills v (write ps) t <-> t = flat_map (piece_value v) ps.
Proof.
  intros Hps. split.
  - intros (qs & Hqs & E & ->). rewrite <- (merge_value v ps), <- (merge_value v qs).
    pose proof (write_inj _ _ Hps Hqs E) as K. clear -K.
    revert K. generalize (merge ps) (merge qs). intros l. induction l as [|p l IH]; intros [|q m] K; try discriminate; auto.
    cbn in *. injection K as K1 K2. rewrite <- (IH m K2). f_equal.
    destruct p, q; cbn in *; congruence.
  - intros ->. now exists ps.
Qed.

(** The replacement is a function. *)
Lemma fills_fun v s t t' : fills v s t -> fills v s t' -> t = t'.
Proof.
  intros (ps & Hps & -> & ->) H. apply fills_iff in H; auto.
Qed.

Section Outputs.
  Variable a : args.

  (** The value of the argument called [n]. *)
  Definition arg_value (rho : env) (n : str) : str :=
    match arg_get a n with Some c => rho c | None => [] end.

  (** [f] accepts [x] exactly if it is scannable and its holes have arguments; the output is
      related to [x], and the holes are recorded. *)
  Definition outputs {A B} (f : A -> used -> option (B * used)) (R : A -> B -> Prop)
      (H : str -> A -> Prop) (S : A -> Prop) (x : A) : Prop :=
    forall u,
      match f x u with
      | Some (y, u') => R x y /\ S x /\ (forall n, H n x -> arg_get a n <> None)
                        /\ (forall n, In n u' <-> In n u \/ H n x)
      | None => ~ (S x /\ forall n, H n x -> arg_get a n <> None)
      end.

  Lemma each_outputs {A B} (f : A -> used -> option (B * used)) R H S l :
    Forall (outputs f R H S) l ->
    outputs (each_output f) (Forall2 R) (fun n l => Exists (H n) l) (Forall S) l.
  Proof.
    intros Hl u. revert u. induction Hl as [|x l Hx _ IH]; intros u; cbn [each_output].
    - split; [constructor|]. split; [constructor|]. split; intros n; [now intros Q; inversion Q|].
      split; [now left|]. intros [Q|Q]; auto. inversion Q.
    - fold (each_output f). specialize (Hx u). destruct (f x u) as [[y u1]|].
      2:{ intros [H1 H2]. apply Hx. inversion H1; subst. split; auto. }
      destruct Hx as (X1 & X2 & X3 & X4). specialize (IH u1).
      destruct (each_output f l u1) as [[ys u2]|].
      2:{ intros [H1 H2]. apply IH. inversion H1; subst. split; auto. }
      destruct IH as (Y1 & Y2 & Y3 & Y4). split; [now constructor|]. split; [now constructor|]. split.
      + intros n Hn. apply Exists_cons in Hn. destruct Hn; auto.
      + intros n. rewrite Y4, X4, Exists_cons. tauto.
  Qed.

  Lemma outputs_weaken {A B} (f : A -> used -> option (B * used)) (R R' : A -> B -> Prop)
      (H H' : str -> A -> Prop) (S S' : A -> Prop) x :
    (forall y, R x y -> R' x y) -> (forall n, H n x <-> H' n x) -> (S x <-> S' x) ->
    outputs f R H S x -> outputs f R' H' S' x.
  Proof.
    intros HR HH HS Ho u. specialize (Ho u). destruct (f x u) as [[y u']|].
    - destruct Ho as (X1 & X2 & X3 & X4). split; auto. split; [now apply HS|]. split.
      + intros n Hn. apply X3. now apply HH.
      + intros n. now rewrite X4, HH.
    - intros [H1 H2]. apply Ho. split; [now apply HS|]. intros n Hn. apply H2. now apply HH.
  Qed.

  (** Scanned fragments. *)
  Lemma frags_outputs ps : forall u,
    match frags_to_output a (map ffrag_of ps) u with
    | Some (o, u') =>
        (forall rho, List.concat (map (frag_text rho) o) = flat_map (piece_value (arg_value rho)) ps)
        /\ (forall w n w', In (Hole w n w') ps -> arg_get a n <> None)
        /\ (forall n, In n u' <-> In n u \/ exists w w', In (Hole w n w') ps)
    | None => ~ (forall w n w', In (Hole w n w') ps -> arg_get a n <> None)
    end.
  Proof.
    induction ps as [|p ps IH]; intros u; cbn [map frags_to_output].
    - split; auto. split; [intros w n w' []|]. intros n. split; auto. now intros [Q|(w & w' & [])].
    - destruct p as [s| |w n w']; cbn [ffrag_of frags_to_output].
      + specialize (IH u). destruct (frags_to_output a (map ffrag_of ps) u) as [[o u']|].
        * destruct IH as (X1 & X2 & X3). split; [|split].
          -- intros rho. cbn. now rewrite X1.
          -- intros w n w' [Q|Q]; [discriminate|eauto].
          -- intros n. rewrite X3. split; intros [Q|(w & w' & Q)]; auto; right; exists w, w'; [now right|].
             destruct Q; [discriminate|auto].
        * intros K. apply IH. intros w n w' Q. apply (K w n w'). now right.
      + specialize (IH u). destruct (frags_to_output a (map ffrag_of ps) u) as [[o u']|].
        * destruct IH as (X1 & X2 & X3). split; [|split].
          -- intros rho. cbn [map List.concat flat_map]. now rewrite X1.
          -- intros w n w' [Q|Q]; [discriminate|eauto].
          -- intros n. rewrite X3. split; intros [Q|(w & w' & Q)]; auto; right; exists w, w'; [now right|].
             destruct Q; [discriminate|auto].
        * intros K. apply IH. intros w n w' Q. apply (K w n w'). now right.
      + destruct (arg_get a n) as [c|] eqn:En.
        2:{ intros K. apply (K w n w'); [now left|exact En]. }
        specialize (IH (n :: u)). destruct (frags_to_output a (map ffrag_of ps) (n :: u)) as [[o u']|].
        * destruct IH as (X1 & X2 & X3). split; [|split].
          -- intros rho. cbn [map List.concat flat_map frag_text piece_value]. rewrite X1.
             unfold arg_value at 2. now rewrite En.
          -- intros v m v' [Q|Q]; [|eauto]. injection Q as <- <- <-. congruence.
          -- intros m. rewrite X3. split.
             ++ intros [[<-|Q]|(v & v' & Q)]; auto.
                ** right. exists w, w'. now left.
                ** right. exists v, v'. now right.
             ++ intros [Q|(v & v' & [Q|Q])]; [left; now right| |right; eauto].
                injection Q as _ <- _. left. now left.
        * intros K. apply IH. intros v m v' Q. apply (K v m v'). now right.
  Qed.

  Definition str_rel (s : str) (o : list out_frag) : Prop :=
    forall rho, fills (arg_value rho) s (List.concat (map (frag_text rho) o)).

  Lemma str_outputs s : outputs (str_to_output a) str_rel has_hole scannable s.
  Proof.
    intros u. unfold str_to_output. destruct (scan s) as [l| |] eqn:E.
    - destruct (scan_written _ _ E) as (ps & H1 & H2 & -> & ->).
      pose proof (frags_outputs ps u) as K.
      destruct (frags_to_output a (map ffrag_of ps) u) as [[o u']|].
      + destruct K as (K1 & K2 & K3). split; [|split; [|split]].
        * intros rho. rewrite K1. now exists ps.
        * now exists ps.
        * intros n Hn. apply hole_iff in Hn; auto. destruct Hn as (w & w' & Q). eauto.
        * intros n. now rewrite K3, hole_iff.
      + intros [_ Q]. apply K. intros w n w' Hin. apply Q. apply hole_iff; eauto.
    - intros [(ps & H1 & ->) _]. rewrite <- merge_write, scan_write in E; [discriminate| |].
      + now apply merge_ok.
      + apply merge_apart.
    - now destruct (scan_no_fuel s).
  Qed.

  Definition strs_rel (l : list str) (o : list out_frag) : Prop :=
    forall rho, exists ts, Forall2 (fills (arg_value rho)) l ts
      /\ List.concat ts = List.concat (map (frag_text rho) o).

  Lemma strs_outputs l : outputs (strs_to_output a) strs_rel (fun n l => Exists (has_hole n) l)
    (Forall scannable) l.
  Proof.
    assert (H := each_outputs (str_to_output a) str_rel has_hole scannable l).
    assert (Hl : Forall (outputs (str_to_output a) str_rel has_hole scannable) l).
    { apply Forall_forall. intros x _. apply str_outputs. }
    specialize (H Hl). intros u. unfold strs_to_output. specialize (H u).
    destruct (each_output (str_to_output a) l u) as [[ls u']|]; auto.
    destruct H as (X1 & X2). split; auto. intros rho.
    exists (map (fun o => List.concat (map (frag_text rho) o)) ls).
    clear -X1. induction X1 as [|s o l ls Hs _ [IH1 IH2]]; cbn; [now split|].
    split; [constructor; auto|]. now rewrite IH2, map_app, concat_app.
  Qed.

  (** ** Trees *)

  Definition holes_of (n : str) (l : list str) : Prop := exists s, In s l /\ has_hole n s.

  Lemma Exists_holes n l : Exists (has_hole n) l <-> holes_of n l.
  Proof. apply Exists_exists. Qed.

  Definition rbc_rel (x : rbc) (y : out_rbc) : Prop :=
    rbc_keys_ok y
    /\ forall rho, exists x', like_rbc (fills (arg_value rho)) x x'
         /\ rbc_joined x' = rbc_joined (rbc_meaning rho y).

  Notation rbc_outputs :=
    (outputs (rbc_to_output a) rbc_rel (fun n x => holes_of n (rbc_strings x))
             (fun x => Forall scannable (rbc_strings x))).

  Lemma attr_outputs x : rbc_outputs (CAttr x).
  Proof.
    intros u. cbn [rbc_to_output rbc_strings]. unfold attr_to_output.
    pose proof (strs_outputs (a_value x) u) as H.
    destruct (strs_to_output a (a_value x) u) as [[o u']|].
    - destruct H as (X1 & X2 & X3 & X4). split; [split; [exact I|]|split; [exact X2|split]].
      + intros rho. destruct (X1 rho) as (ts & T1 & T2).
        exists (CAttr (mk_attr (a_key x) ts)). split.
        * destruct x as [k v]. now constructor.
        * cbn. unfold joined. now rewrite T2.
      + intros n Hn. apply X3. now apply Exists_holes.
      + intros n. now rewrite X4, Exists_holes.
    - intros [H1 H2]. apply H. split; auto. intros n Hn. apply H2. now apply Exists_holes.
  Qed.

  Lemma contents_outputs l : Forall rbc_outputs l ->
    outputs (each_output (rbc_to_output a)) (Forall2 rbc_rel)
      (fun n l => holes_of n (flat_map rbc_strings l))
      (fun l => Forall scannable (flat_map rbc_strings l)) l.
  Proof.
    intros H. eapply outputs_weaken; [| | |apply each_outputs, H]; cbn beta; auto.
    - intros n. rewrite Exists_exists. unfold holes_of. split.
      + intros (x & Hx & s & Hs & Hn). exists s. split; auto. apply in_flat_map. eauto.
      + intros (s & Hs & Hn). apply in_flat_map in Hs. destruct Hs as (x & Hx & Hs). eauto.
    - rewrite Forall_flat_map. tauto.
  Qed.

  Lemma holes_app n l m : holes_of n (l ++ m) <-> holes_of n l \/ holes_of n m.
  Proof.
    unfold holes_of. split.
    - intros (s & Hs & Hn). apply in_app_or in Hs. destruct Hs; eauto.
    - intros [(s & Hs & Hn)|(s & Hs & Hn)]; exists s; split; auto; apply in_or_app; auto.
  Qed.

  Lemma rel_contents rho l ys : Forall2 rbc_rel l ys ->
    exists l', like_rbcs (fills (arg_value rho)) l l'
      /\ map rbc_joined l' = map rbc_joined (map (rbc_meaning rho) ys).
  Proof.
    induction 1 as [|x y l ys [_ Hx] _ (l' & IH1 & IH2)].
    - exists []. split; [constructor|reflexivity].
    - destruct (Hx rho) as (x' & X1 & X2). exists (x' :: l'). split; [now constructor|].
      cbn [map]. now rewrite X2, IH2.
  Qed.

  Lemma rel_keys l ys : Forall2 rbc_rel l ys -> fold_right (fun c P => rbc_keys_ok c /\ P) True ys.
  Proof. intros H. apply keys_Forall. induction H as [|x y l ys [Hx _] _ IH]; auto. Qed.

  (** Rules: a condition and contents. *)
  Lemma rule_outputs cond l : Forall rbc_outputs l -> forall u,
    match rule_to_output (rbc_to_output a) a cond l u with
    | Some (c, ys, u') =>
        strs_rel cond c /\ Forall2 rbc_rel l ys
        /\ Forall scannable (cond ++ flat_map rbc_strings l)
        /\ (forall n, holes_of n (cond ++ flat_map rbc_strings l) -> arg_get a n <> None)
        /\ (forall n, In n u' <-> In n u \/ holes_of n (cond ++ flat_map rbc_strings l))
    | None => ~ (Forall scannable (cond ++ flat_map rbc_strings l)
                 /\ forall n, holes_of n (cond ++ flat_map rbc_strings l) -> arg_get a n <> None)
    end.
  Proof.
    intros Hl u. unfold rule_to_output. pose proof (strs_outputs cond u) as H.
    destruct (strs_to_output a cond u) as [[c u1]|].
    - destruct H as (X1 & X2 & X3 & X4). pose proof (contents_outputs l Hl u1) as K.
      destruct (each_output (rbc_to_output a) l u1) as [[ys u2]|].
      + destruct K as (Y1 & Y2 & Y3 & Y4). split; auto. split; auto.
        split; [now apply Forall_app|]. split.
        * intros n Hn. apply holes_app in Hn. destruct Hn; auto. apply X3. now apply Exists_holes.
        * intros n. rewrite Y4, X4, holes_app, Exists_holes. tauto.
      + intros [H1 H2]. apply K. apply Forall_app in H1. split; [tauto|].
        intros n Hn. apply H2, holes_app. now right.
    - intros [H1 H2]. apply H. apply Forall_app in H1. split; [tauto|].
      intros n Hn. apply H2, holes_app. left. now apply Exists_holes.
  Qed.

  (** Blocks: selectors and contents. *)
  Lemma block_outputs cond l : Forall rbc_outputs l -> forall u,
    match block_to_output (rbc_to_output a) a cond l u with
    | Some (c, ys, u') =>
        Forall2 strs_rel cond c /\ Forall2 rbc_rel l ys
        /\ Forall scannable (List.concat cond ++ flat_map rbc_strings l)
        /\ (forall n, holes_of n (List.concat cond ++ flat_map rbc_strings l) -> arg_get a n <> None)
        /\ (forall n, In n u' <-> In n u \/ holes_of n (List.concat cond ++ flat_map rbc_strings l))
    | None => ~ (Forall scannable (List.concat cond ++ flat_map rbc_strings l)
                 /\ forall n, holes_of n (List.concat cond ++ flat_map rbc_strings l) -> arg_get a n <> None)
    end.
  Proof.
    intros Hl u. unfold block_to_output.
    assert (Hc : outputs (each_output (strs_to_output a)) (Forall2 strs_rel)
      (fun n l => holes_of n (List.concat l)) (fun l => Forall scannable (List.concat l)) cond).
    { eapply outputs_weaken; [| | |apply each_outputs; apply Forall_forall; intros x _; apply strs_outputs];
        cbn beta; auto.
      - intros n. rewrite Exists_exists. unfold holes_of. split.
        + intros (x & Hx & Hn). apply Exists_exists in Hn. destruct Hn as (s & Hs & Hn).
          exists s. split; auto. apply in_concat. eauto.
        + intros (s & Hs & Hn). apply in_concat in Hs. destruct Hs as (x & Hx & Hs).
          exists x. split; auto. apply Exists_exists. eauto.
      - rewrite Forall_concat. tauto. }
    specialize (Hc u). destruct (each_output (strs_to_output a) cond u) as [[c u1]|].
    - destruct Hc as (X1 & X2 & X3 & X4). pose proof (contents_outputs l Hl u1) as K.
      destruct (each_output (rbc_to_output a) l u1) as [[ys u2]|].
      + destruct K as (Y1 & Y2 & Y3 & Y4). split; auto. split; auto.
        split; [now apply Forall_app|]. split.
        * intros n Hn. apply holes_app in Hn. destruct Hn; auto.
        * intros n. rewrite Y4, X4, holes_app. tauto.
      + intros [H1 H2]. apply K. apply Forall_app in H1. split; [tauto|].
        intros n Hn. apply H2, holes_app. now right.
    - intros [H1 H2]. apply Hc. apply Forall_app in H1. split; [tauto|].
      intros n Hn. apply H2, holes_app. now left.
  Qed.

  Lemma rel_selectors rho cond c : Forall2 strs_rel cond c ->
    exists c', Forall2 (Forall2 (fills (arg_value rho))) cond c'
      /\ map joined c' = map joined (map (map (frag_text rho)) c).
  Proof.
    induction 1 as [|x y l ys Hx _ (l' & IH1 & IH2)].
    - exists []. split; [constructor|reflexivity].
    - destruct (Hx rho) as (x' & X1 & X2). exists (x' :: l'). split; [now constructor|].
      cbn [map]. rewrite IH2. unfold joined at 1 3. now rewrite X2.
  Qed.

  Lemma all_rbc_outputs l : Forall rbc_outputs l.
  Proof.
    revert l. apply (rbcs_ind2 (fun c => rbc_outputs c) (fun l => Forall rbc_outputs l)).
    - apply attr_outputs.
    - intros cond l IH u. cbn [rbc_to_output rbc_strings].
      pose proof (rule_outputs cond l IH u) as H.
      destruct (rule_to_output (rbc_to_output a) a cond l u) as [[[c ys] u']|]; auto.
      destruct H as (X1 & X2 & X3). split; auto. split; [now apply (rel_keys l)|].
      intros rho. destruct (X1 rho) as (ts & T1 & T2). destruct (rel_contents rho _ _ X2) as (l' & L1 & L2).
      exists (CRule ts l'). split; [now constructor|]. cbn. rewrite L2. unfold joined. now rewrite T2.
    - intros cond l IH u. cbn [rbc_to_output rbc_strings].
      pose proof (block_outputs cond l IH u) as H.
      destruct (block_to_output (rbc_to_output a) a cond l u) as [[[c ys] u']|]; auto.
      destruct H as (X1 & X2 & X3). split; auto. split; [now apply (rel_keys l)|].
      intros rho. destruct (rel_selectors rho _ _ X1) as (ts & T1 & T2). destruct (rel_contents rho _ _ X2) as (l' & L1 & L2).
      exists (CBlock ts l'). split; [now constructor|]. cbn. now rewrite L2, T2.
    - constructor.
    - intros c l Hc Hl. now constructor.
  Qed.

  Definition scope_rel (x : scope_content) (y : out_scope) : Prop :=
    scope_keys_ok y
    /\ forall rho, exists x', like_scope (fills (arg_value rho)) x x'
         /\ scope_joined x' = scope_joined (scope_meaning rho y).

  Lemma scope_outputs x :
    outputs (scope_to_output a) scope_rel (fun n x => holes_of n (rbc_strings (rbc_of_scope x)))
      (fun x => Forall scannable (rbc_strings (rbc_of_scope x))) x.
  Proof.
    intros u. destruct x as [cond l|cond l]; cbn [scope_to_output rbc_of_scope rbc_strings].
    - pose proof (block_outputs cond l (all_rbc_outputs l) u) as H.
      destruct (block_to_output (rbc_to_output a) a cond l u) as [[[c ys] u']|]; auto.
      destruct H as (X1 & X2 & X3). split; auto. split; [now apply (rel_keys l)|].
      intros rho. destruct (rel_selectors rho _ _ X1) as (ts & T1 & T2). destruct (rel_contents rho _ _ X2) as (l' & L1 & L2).
      exists (SBlock ts l'). split; [now constructor|]. cbn. now rewrite L2, T2.
    - pose proof (rule_outputs cond l (all_rbc_outputs l) u) as H.
      destruct (rule_to_output (rbc_to_output a) a cond l u) as [[[c ys] u']|]; auto.
      destruct H as (X1 & X2 & X3). split; auto. split; [now apply (rel_keys l)|].
      intros rho. destruct (X1 rho) as (ts & T1 & T2). destruct (rel_contents rho _ _ X2) as (l' & L1 & L2).
      exists (SRule ts l'). split; [now constructor|]. cbn. rewrite L2. unfold joined. now rewrite T2.
  Qed.

  Definition sheet_rel (x : sheet) (y : out_sheet) : Prop :=
    keys_ok y
    /\ forall rho, exists x', sheet_fills (arg_value rho) x x'
         /\ sheet_joined x' = sheet_joined (sheet_meaning rho y).

  Theorem sheet_outputs x :
    outputs (sheet_to_output a) sheet_rel (fun n x => holes_of n (sheet_strings x))
      (fun x => Forall scannable (sheet_strings x)) x.
  Proof.
    unfold sheet_to_output, sheet_strings.
    eapply outputs_weaken; [| | |apply each_outputs; apply Forall_forall; intros y _; apply scope_outputs];
      cbn beta.
    - intros y H. split.
      + induction H as [|? ? ? ? [Hk _] _ IH]; constructor; auto.
      + intros rho. induction H as [|c o l ys [_ Hc] _ (l' & IH1 & IH2)].
        * exists []. split; [constructor|reflexivity].
        * destruct (Hc rho) as (c' & C1 & C2). exists (c' :: l'). split; [now constructor|].
          unfold sheet_joined, sheet_meaning in *. cbn [map]. now rewrite C2, IH2.
    - intros n. rewrite Exists_exists. unfold holes_of. split.
      + intros (c & Hc & s & Hs & Hn). exists s. split; auto. apply in_flat_map. eauto.
      + intros (s & Hs & Hn). apply in_flat_map in Hs. destruct Hs as (c & Hc & Hs). eauto.
    - rewrite Forall_flat_map. tauto.
  Qed.
End Outputs.

(** ** Argument lists *)

Lemma is_punct_iff c t : is_punct c t = true <-> exists j, t = RPunct c j.
Proof.
  destruct t as [s|d j|s|d l]; cbn; try (split; [discriminate|now intros [? ?]]).
  rewrite char_eqb_eq. split; [intros ->; eauto|intros [j' [= -> ->]]; auto].
Qed.

Lemma arg_tokens_spec l :
  match arg_tokens l with
  | (c, None) => l = c /\ no_comma c
  | (c, Some r) => no_comma c /\ exists j, l = c ++ RPunct (ch ",") j :: r
  end.
Proof.
  induction l as [|t l IH]; cbn [arg_tokens]; [split; auto; intros j []|].
  destruct (is_punct (ch ",") t) eqn:E.
  - apply is_punct_iff in E. destruct E as [j ->]. split; [intros j' []|]. now exists j.
  - assert (Ht : forall j, t <> RPunct (ch ",") j).
    { intros j ->. now rewrite (proj2 (is_punct_iff _ _)) in E by eauto. }
    destruct (arg_tokens l) as [c [r|]].
    + destruct IH as (H & j & ->). split; [|now exists j].
      intros j' [Q|Q]; [now apply Ht in Q|now apply H in Q].
    + destruct IH as [-> H]. split; auto. intros j [Q|Q]; [now apply Ht in Q|now apply H in Q].
Qed.

Lemma arg_tokens_last c : no_comma c -> arg_tokens c = (c, None).
Proof.
  induction c as [|t c IH]; auto. intros H. cbn [arg_tokens]. destruct (is_punct (ch ",") t) eqn:E.
  - apply is_punct_iff in E. destruct E as [j ->]. exfalso. apply (H j). now left.
  - rewrite IH; [reflexivity|]. intros j Q. apply (H j). now right.
Qed.
Lemma arg_tokens_more c j r : no_comma c -> arg_tokens (c ++ RPunct (ch ",") j :: r) = (c, Some r).
Proof.
  induction c as [|t c IH]; intros H; [reflexivity|].
  change ((t :: c) ++ RPunct (ch ",") j :: r) with (t :: (c ++ RPunct (ch ",") j :: r)).
  cbn [arg_tokens]. destruct (is_punct (ch ",") t) eqn:E.
  - apply is_punct_iff in E. destruct E as [j' ->]. exfalso. apply (H j'). now left.
  - rewrite IH; [reflexivity|]. intros j' Q. apply (H j'). now right.
Qed.

Lemma arg_get_none a n : arg_get a n = None <-> ~ In n (map fst a).
Proof.
  induction a as [|[m c] a IH]; cbn; [tauto|]. destruct (str_eqb m n) eqn:E.
  - apply str_eqb_eq in E. split; [discriminate|]. intros H. exfalso. auto.
  - apply str_eqb_neq in E. rewrite IH. tauto.
Qed.

(** The loop accepts exactly the argument lists without a repeated name. *)
Lemma args_loop_ok n l l' a : arg_list l l' -> List.length l < n -> NoDup (map fst l' ++ map fst a) ->
  args_loop n l a = Some (Some (rev l' ++ a)).
Proof.
  intros H. revert n a. induction H as [|m j c Hc|m j c j' rest l' Hc _ IH]; intros n a Hn Hd;
    (destruct n as [|n]; [lia|]); cbn [args_loop]; auto.
  - cbn [is_punct]. rewrite char_eqb_refl, arg_tokens_last by assumption.
    unfold arg_insert. inversion Hd as [|? ? H1 H2]; subst. cbn in H1.
    now rewrite (proj2 (arg_get_none a m) H1).
  - cbn [is_punct]. rewrite char_eqb_refl, arg_tokens_more by assumption.
    unfold arg_insert. inversion Hd as [|? ? H1 H2]; subst.
    assert (H3 : ~ In m (map fst a)) by (intros Q; apply H1, in_or_app; now right).
    rewrite (proj2 (arg_get_none a m) H3).
    rewrite IH.
    + cbn [rev]. now rewrite <- app_assoc.
    + cbn in Hn. rewrite app_length in Hn. cbn in Hn. lia.
    + cbn [map]. apply (NoDup_Add (Add_app m (map fst l') (map fst a))). split; auto.
Qed.

Lemma args_loop_sound n : forall l a r, List.length l < n -> NoDup (map fst a) ->
  args_loop n l a = r ->
  exists x, r = Some x
    /\ match x with
       | Some a' => exists l', arg_list l l' /\ a' = rev l' ++ a /\ NoDup (map fst l' ++ map fst a)
       | None => ~ exists l', arg_list l l' /\ NoDup (map fst l' ++ map fst a)
       end.
Proof.
  induction n as [|n IH]; intros l a r Hn Ha E; [lia|]. cbn [args_loop] in E.
  destruct l as [|[m|c j|t|d g] l1]; subst r.
  - exists (Some a). split; auto. exists []. split; [constructor|]. now split.
  - destruct l1 as [|e l2].
    { exists None. split; auto. intros (l' & H & _). inversion H. }
    destruct (is_punct (ch "=") e) eqn:Ee.
    2:{ exists None. split; auto. intros (l' & H & _). inversion H; subst; discriminate Ee. }
    apply is_punct_iff in Ee. destruct Ee as [j ->].
    pose proof (arg_tokens_spec l2) as K. destruct (arg_tokens l2) as [c o] eqn:Et.
    unfold arg_insert. destruct (arg_get a m) as [c'|] eqn:Em.
    { exists None. split; auto. intros (l' & H & Hd).
      assert (Hm : In m (map fst a)).
      { destruct (in_dec (list_eq_dec N.eq_dec) m (map fst a)) as [Q|Q]; auto.
        apply arg_get_none in Q. congruence. }
      assert (exists c l'', l' = (m, c) :: l'') as (c0 & l'' & ->) by (inversion H; subst; eauto).
      cbn in Hd. inversion Hd as [|? ? H1 H2]. apply H1. apply in_or_app. now right. }
    apply arg_get_none in Em. destruct o as [l3|].
    + destruct K as (Hc & j' & ->).
      assert (Hl : List.length l3 < n). { cbn in Hn. rewrite app_length in Hn. cbn in Hn. lia. }
      assert (Ha' : NoDup (map fst ((m, c) :: a))) by (cbn; now constructor).
      destruct (IH l3 ((m, c) :: a) _ Hl Ha' eq_refl) as (x & Ex & Hx).
      exists x. split; auto. destruct x as [a'|].
      * destruct Hx as (l' & H1 & -> & H2). exists ((m, c) :: l'). split; [now constructor|].
        split; [cbn [rev]; now rewrite <- app_assoc|].
        cbn [map fst app] in H2 |- *.
        apply (NoDup_Add (Add_app m (map fst l') (map fst a))) in H2. now constructor.
      * intros (l' & H1 & H2).
        assert (HQ : exists l1', l' = (m, c) :: l1' /\ arg_list l3 l1').
        { remember (RIdent m :: RPunct (ch "=") j :: c ++ RPunct (ch ",") j' :: l3) as L eqn:EL.
          destruct H1 as [|m1 j1 c1 Hc'|m1 j1 c1 j2 rest1 l1' Hc' Hr']; [discriminate| |].
          - injection EL as -> -> ->. exfalso. apply (Hc' j'). apply in_or_app. right. now left.
          - injection EL as -> -> EL. exists l1'.
            assert (Q' : arg_tokens (c1 ++ RPunct (ch ",") j2 :: rest1) = (c, Some l3))
              by exact (eq_trans (f_equal arg_tokens EL) Et).
            rewrite arg_tokens_more in Q' by assumption. injection Q' as -> ->. now split. }
        destruct HQ as (l1' & -> & Hr').
        apply Hx. exists l1'. split; auto. cbn [map fst] in H2 |- *.
        apply (NoDup_Add (Add_app m (map fst l1') (map fst a))). inversion H2; auto.
    + destruct K as [-> Hc]. exists (Some ((m, c) :: a)). split; auto.
      exists [(m, c)]. split; [now constructor|]. split; auto. cbn. now constructor.
  - exists None. split; auto. intros (l' & H & _). inversion H.
  - exists None. split; auto. intros (l' & H & _). inversion H.
  - exists None. split; auto. intros (l' & H & _). inversion H.
Qed.

Theorem parse_args_spec rest : exists x, parse_args rest = Some x
  /\ match x with
     | Some a => exists l, after_literal rest l /\ NoDup (map fst l) /\ a = rev l
     | None => ~ exists l, after_literal rest l /\ NoDup (map fst l)
     end.
Proof.
  destruct rest as [|t rest]; cbn [parse_args].
  - exists (Some []). split; auto. exists []. repeat split; constructor.
  - destruct (is_punct (ch ",") t) eqn:E.
    + apply is_punct_iff in E. destruct E as [j ->].
      destruct (args_loop_sound (S (List.length rest)) rest [] _ (Nat.lt_succ_diag_r _) (NoDup_nil _) eq_refl)
        as (x & Ex & Hx).
      exists x. split; auto. destruct x as [a|].
      * destruct Hx as (l & H1 & -> & H2). exists l. rewrite app_nil_r in *. repeat split; auto. now constructor.
      * intros (l & H1 & H2). inversion H1; subst. apply Hx. exists l. cbn. now rewrite app_nil_r.
    + exists None. split; auto. intros (l & H & _). inversion H; subst. cbn in E. discriminate.
Qed.

Lemma arg_get_rev l n c : NoDup (map fst l) -> (arg_get (rev l) n = Some c <-> In (n, c) l).
Proof.
  intros H. rewrite in_rev. assert (H' : NoDup (map fst (rev l))).
  { rewrite map_rev. now apply NoDup_rev. }
  clear H. induction (rev l) as [|[m d] r IH]; cbn in *; [split; [discriminate|tauto]|].
  inversion H' as [|? ? H1 H2]; subst. specialize (IH H2). destruct (str_eqb m n) eqn:E.
  - apply str_eqb_eq in E. subst m. split.
    + intros [= ->]. now left.
    + intros [[= ->]|Q]; auto. exfalso. apply H1. now apply (in_map fst) in Q.
  - apply str_eqb_neq in E. rewrite IH. split; [now right|]. intros [[= Q _]|Q]; [congruence|auto].
Qed.
