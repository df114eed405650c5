(** * PropsStatic: macro calls without interpolation cost nothing at run time (C81). *)

From Coq Require Import String Ascii List NArith Bool Arith Lia.
From Verif Require Import Str StrFacts Ast Render CssParser Tok Fstring Owned Output SpecOutput OutputFacts LitMacro SpecMacro MacroFacts SpecStatic PropsMacro
  Inline SpecInline InlineFacts InlineParse InlineOutput InlineSafe PropsInline.
Import ListNotations.
Local Open Scope list_scope.
Local Opaque parse to_style_str.

(** [x] is generated without changing the kind of its context, and the code is accepted in every place. *)
Definition still {A G V} (f : A -> kind -> G * kind) (ev : place -> G -> option V) (P : V -> Prop) (x : A) : Prop :=
  exists g, (forall k, f x k = (g, k)) /\ exists v, (forall p, ev p g = Some v) /\ P v.

Lemma still_list {A G V} (f : A -> kind -> G * kind) (ev : place -> G -> option V) (P : V -> Prop) l :
  Forall (still f ev P) l ->
  exists gs, (forall k, map_ctx f l k = (gs, k)) /\ exists vs, (forall p, all_some (ev p) gs = Some vs) /\ Forall P vs.
Proof.
  induction 1 as [|x l (g & H1 & v & H2 & H3) _ (gs & I1 & vs & I2 & I3)].
  - exists []. split; [reflexivity|]. exists []. now split.
  - exists (g :: gs). split; [intros k; cbn; rewrite H1; fold (map_ctx f); now rewrite I1|].
    exists (v :: vs). split; [intros p; cbn; rewrite H2; fold (all_some (ev p)); now rewrite I2|now constructor].
Qed.
Lemma still_vec {A G V} (f : A -> kind -> G * kind) (ev : place -> G -> option V) (P : V -> Prop) l :
  Forall (still f ev P) l -> exists gs, (forall k, cow_vec f l k = (GItems gs, k))
    /\ exists vs, (forall p, ev_vec ev p (GItems gs) = Some (CowBorrowed vs)) /\ Forall P vs.
Proof.
  intros H. destruct (still_list _ _ _ _ H) as (gs & H1 & vs & H2 & H3).
  exists gs. split; [intros k; unfold cow_vec; now rewrite H1|].
  exists vs. split; [|exact H3]. intros p. cbn. now rewrite H2.
Qed.

Lemma none_interpolated {A} (i : A -> bool) l : existsb i l = false -> forall x, In x l -> i x = false.
Proof. intros H x I. destruct (i x) eqn:E; [|reflexivity]. rewrite <- H. symmetry. apply existsb_exists. eauto. Qed.

Lemma still_frag f : frag_interpolated f = false -> still reify_frag ev_frag frag_static f.
Proof.
  intros H. destruct (into_inner f) as [s|c k] eqn:E.
  - exists (GLitStr s). split; [intros k; unfold reify_frag; now rewrite E|].
    exists (mk_ofrag (CowBorrowed s)). now split.
  - exfalso. pose proof (as_string_interpolated f) as A. unfold as_string in A. rewrite E in A. destruct A as [A _].
    now rewrite (A eq_refl) in H.
Qed.
Lemma still_frags l : existsb frag_interpolated l = false -> still reify_frags ev_frags frags_static l.
Proof.
  intros H. rewrite <- coalesce_interpolated in H.
  destruct (still_vec reify_frag ev_frag frag_static (coalesce l)) as (gs & H1 & vs & H2 & H3).
  { apply Forall_forall. intros x I. apply still_frag. eapply none_interpolated; eauto. }
  exists (GItems gs). split; [exact H1|]. exists (CowBorrowed vs). split; [exact H2|exact H3].
Qed.
Lemma still_selectors l : existsb (existsb frag_interpolated) l = false ->
  still (cow_vec reify_frags) (ev_vec ev_selector) selectors_static l.
Proof.
  intros H. destruct (still_vec reify_frags ev_selector (fun s => frags_static (o_fragments s)) l) as (gs & H1 & vs & H2 & H3).
  { apply Forall_forall. intros x I. destruct (still_frags x) as (g & K1 & v & K2 & K3); [eapply none_interpolated; eauto|].
    exists g. split; [exact K1|]. exists (mk_oselector v). split; [intros p; unfold ev_selector; now rewrite K2|exact K3]. }
  exists (GItems gs). split; [exact H1|]. exists (CowBorrowed vs). split; [exact H2|exact H3].
Qed.

Lemma still_rule cond l : existsb frag_interpolated cond = false -> Forall (still reify_rbc ev_rbc rbc_static) l ->
  exists g, (forall k, reify_rule_with reify_rbc cond l k = (g, k)) /\ exists c vs,
    (forall p, ev_rule_with ev_rbc p g = Some (mk_orule c (CowBorrowed vs))) /\ frags_static c /\ Forall rbc_static vs.
Proof.
  intros Hc Hl. destruct (still_frags _ Hc) as (gc & C1 & c & C2 & C3).
  destruct (still_vec _ _ _ _ Hl) as (gs & H1 & vs & H2 & H3).
  exists (mk_grule gc (GItems gs)). split; [intros k; unfold reify_rule_with; rewrite C1, H1; reflexivity|].
  exists c, vs. split; [|now split]. intros p. unfold ev_rule_with. now rewrite C2, H2.
Qed.
Lemma still_block cond l : existsb (existsb frag_interpolated) cond = false -> Forall (still reify_rbc ev_rbc rbc_static) l ->
  exists g, (forall k, reify_block_with reify_rbc cond l k = (g, k)) /\ exists c vs,
    (forall p, ev_block_with ev_rbc p g = Some (mk_oblock c (CowBorrowed vs))) /\ selectors_static c /\ Forall rbc_static vs.
Proof.
  intros Hc Hl. destruct (still_selectors _ Hc) as (gc & C1 & c & C2 & C3).
  destruct (still_vec _ _ _ _ Hl) as (gs & H1 & vs & H2 & H3).
  exists (mk_gblock gc (GItems gs)). split; [intros k; unfold reify_block_with; rewrite C1, H1; reflexivity|].
  exists c, vs. split; [|now split]. intros p. unfold ev_block_with. now rewrite C2, H2.
Qed.

Lemma still_rbcs l : existsb rbc_interpolated l = false -> Forall (still reify_rbc ev_rbc rbc_static) l.
Proof.
  apply (out_rbcs_ind2 (fun c => rbc_interpolated c = false -> still reify_rbc ev_rbc rbc_static c)
     (fun l => existsb rbc_interpolated l = false -> Forall (still reify_rbc ev_rbc rbc_static) l)).
  - intros [key vals] H. cbn in H. apply orb_false_iff in H. destruct H as [Hk Hv]. destruct key as [s|]; [|discriminate].
    destruct (still_frags _ Hv) as (g & H1 & v & H2 & H3).
    exists (GAttr (GLitStr s) g). split; [intros k; cbn; unfold reify_attr; cbn; now rewrite H1|].
    exists (OAttr (mk_oattr (CowBorrowed s) v)). split; [intros p; cbn; now rewrite H2|now constructor].
  - intros cond content IH H. cbn in H. apply orb_false_iff in H. destruct H as [Hc Hl].
    destruct (still_rule cond content Hc (IH Hl)) as (g & H1 & c & vs & H2 & H3 & H4).
    exists (GRule (GBorrow g)). split; [intros k; cbn [reify_rbc]; rewrite H1; cbn; now rewrite kjoin_const_r|].
    exists (ORule (Borrowed (mk_orule c (CowBorrowed vs)))). split; [|now constructor].
    intros p. cbn [ev_rbc ev_bow]. now rewrite H2.
  - intros cond content IH H. cbn in H. apply orb_false_iff in H. destruct H as [Hc Hl].
    destruct (still_block cond content Hc (IH Hl)) as (g & H1 & c & vs & H2 & H3 & H4).
    exists (GBlock (GBorrow g)). split; [intros k; cbn [reify_rbc]; rewrite H1; cbn; now rewrite kjoin_const_r|].
    exists (OBlock (Borrowed (mk_oblock c (CowBorrowed vs)))). split; [|now constructor].
    intros p. cbn [ev_rbc ev_bow]. now rewrite H2.
  - constructor.
  - intros c l' Hc Hl H. cbn in H. apply orb_false_iff in H. destruct H. constructor; auto.
Qed.
Lemma still_scope c : scope_interpolated c = false -> still reify_scope ev_scope scope_static c.
Proof.
  destruct c as [cond content|cond content]; cbn; intros H; apply orb_false_iff in H; destruct H as [Hc Hl].
  - destruct (still_rule cond content Hc (still_rbcs _ Hl)) as (g & H1 & v & vs & H2 & H3 & H4).
    exists (GSRule g). split; [intros k; cbn; now rewrite H1|]. exists (OSRule (mk_orule v (CowBorrowed vs))).
    split; [intros p; cbn; now rewrite H2|now constructor].
  - destruct (still_block cond content Hc (still_rbcs _ Hl)) as (g & H1 & v & vs & H2 & H3 & H4).
    exists (GSBlock g). split; [intros k; cbn; now rewrite H1|]. exists (OSBlock (mk_oblock v (CowBorrowed vs))).
    split; [intros p; cbn; now rewrite H2|now constructor].
Qed.

(** The sheet is put in a [static] exactly if nothing is interpolated; then every evaluation gives
    the one sheet, of which nothing is on the heap. *)
Theorem constant_sheet_static : forall out, keys_ok out ->
  (interpolated out = false <-> exists c, expand out = GLazy c)
  /\ (interpolated out = false -> exists v, sheet_static v
        /\ forall envs, evaluate_all None envs (expand out) = Some (map (fun _ => v) envs)).
Proof.
  intros out Hk.
  assert (K : interpolated out = false -> exists gs, expand out = GLazy (GItems gs)
     /\ exists vs, (forall p, ev_vec ev_scope p (GItems gs) = Some (CowBorrowed vs)) /\ Forall scope_static vs).
  { intros H. destruct (still_vec reify_scope ev_scope scope_static out) as (gs & H1 & vs & H2 & H3).
    { apply Forall_forall. intros x I. apply still_scope. eapply none_interpolated; eauto. }
    exists gs. split; [unfold expand, reify_sheet; now rewrite H1|eauto]. }
  split; [split|].
  - intros H. destruct (K H) as (gs & E & _). eauto.
  - intros [c E]. destruct (interpolated out) eqn:Hi; [|reflexivity].
    destruct (proj1 (interpolated_values_current out Hk) Hi) as [c' E']. congruence.
  - intros H. destruct (K H) as (gs & E & vs & Ev & Hs). exists (CowBorrowed vs). split; [exact Hs|].
    rewrite E. assert (K2 : forall envs, evaluate_all (Some (CowBorrowed vs)) envs (GLazy (GItems gs))
                               = Some (map (fun _ => CowBorrowed vs) envs)).
    { induction envs as [|r envs IH]; [reflexivity|]. cbn [evaluate_all evaluate map]. now rewrite IH. }
    intros [|rho envs]; [reflexivity|]. cbn [evaluate_all evaluate map]. unfold ev_contents. rewrite (Ev InStatic).
    exact (f_equal (option_map (cons (CowBorrowed vs))) (K2 envs)).
Qed.
Print Assumptions constant_sheet_static.

(** ** Macros called with a string literal *)

(** Either something is interpolated, or no argument was used. *)
Definition uses {A B} (a : args) (f : A -> used -> option (B * used)) (i : B -> bool) (x : A) : Prop :=
  forall u o u', f x u = Some (o, u') -> if i o then a <> [] /\ u' <> [] else u' = u.

Lemma uses_each {A B} a (f : A -> used -> option (B * used)) i l :
  Forall (uses a f i) l -> uses a (each_output f) (existsb i) l.
Proof.
  induction 1 as [|x l Hx _ IH]; intros u o u' E; cbn in E; [now injection E as <- <-|].
  destruct (f x u) as [[y u1]|] eqn:E1; [|discriminate]. fold (each_output f) in E.
  destruct (each_output f l u1) as [[ys u2]|] eqn:E2; [|discriminate]. injection E as <- <-.
  specialize (Hx _ _ _ E1). specialize (IH _ _ _ E2). cbn.
  destruct (i y); destruct (existsb i ys); cbn; try assumption; intuition congruence.
Qed.
Lemma uses_frags a l : uses a (frags_to_output a) (existsb frag_interpolated) l.
Proof.
  induction l as [|[m|m] l IH]; intros u o u' E; cbn in E; [now injection E as <- <-|..].
  - destruct (frags_to_output a l u) as [[o1 u1]|] eqn:E1; [|discriminate]. injection E as <- <-. cbn. exact (IH _ _ _ E1).
  - destruct (arg_get a m) as [t|] eqn:Ea; [|discriminate].
    destruct (frags_to_output a l (m :: u)) as [[o1 u1]|] eqn:E1; [|discriminate]. injection E as <- <-. cbn.
    split; [now intros ->|]. specialize (IH _ _ _ E1). destruct (existsb _ o1); [tauto|congruence].
Qed.
Lemma uses_strs a l : uses a (strs_to_output a) (existsb frag_interpolated) l.
Proof.
  assert (K : uses a (each_output (str_to_output a)) (existsb (existsb frag_interpolated)) l).
  { apply uses_each. apply Forall_forall. intros s _ u o u' E. unfold str_to_output in E.
    destruct (scan s); try discriminate. exact (uses_frags _ _ _ _ _ E). }
  intros u o u' E. unfold strs_to_output in E. destruct (each_output _ l u) as [[ls u1]|] eqn:E1; [|discriminate].
  injection E as <- <-. specialize (K _ _ _ E1).
  replace (existsb frag_interpolated (List.concat ls)) with (existsb (existsb frag_interpolated) ls); [exact K|].
  clear. induction ls as [|l ls IH]; [reflexivity|]. cbn. now rewrite existsb_app, IH.
Qed.
Lemma uses_rule a f cond content u c l u' :
  Forall (uses a f rbc_interpolated) content -> rule_to_output f a cond content u = Some (c, l, u') ->
  if existsb frag_interpolated c || existsb rbc_interpolated l then a <> [] /\ u' <> [] else u' = u.
Proof.
  intros H E. unfold rule_to_output in E. destruct (strs_to_output a cond u) as [[c1 u1]|] eqn:E1; [|discriminate].
  destruct (each_output f content u1) as [[l1 u2]|] eqn:E2; [|discriminate]. injection E as <- <- <-.
  pose proof (uses_strs _ _ _ _ _ E1) as K1. pose proof (uses_each _ _ _ _ H _ _ _ E2) as K2.
  destruct (existsb _ c1); destruct (existsb _ l1); cbn; try assumption; intuition congruence.
Qed.
Lemma uses_block a f cond content u c l u' :
  Forall (uses a f rbc_interpolated) content -> block_to_output f a cond content u = Some (c, l, u') ->
  if existsb (existsb frag_interpolated) c || existsb rbc_interpolated l then a <> [] /\ u' <> [] else u' = u.
Proof.
  intros H E. unfold block_to_output in E. destruct (each_output (strs_to_output a) cond u) as [[c1 u1]|] eqn:E1; [|discriminate].
  destruct (each_output f content u1) as [[l1 u2]|] eqn:E2; [|discriminate]. injection E as <- <- <-.
  pose proof (uses_each a _ (existsb frag_interpolated) _ (proj2 (Forall_forall _ cond) (fun x _ => uses_strs a x)) _ _ _ E1) as K1.
  pose proof (uses_each _ _ _ _ H _ _ _ E2) as K2.
  destruct (existsb _ c1); destruct (existsb _ l1); cbn; try assumption; intuition congruence.
Qed.
Lemma uses_rbcs a l : Forall (uses a (rbc_to_output a) rbc_interpolated) l.
Proof.
  apply (rbcs_ind2 (uses a (rbc_to_output a) rbc_interpolated) (Forall (uses a (rbc_to_output a) rbc_interpolated))); auto.
  - intros x u o u' E. cbn in E. unfold attr_to_output in E.
    destruct (strs_to_output a (a_value x) u) as [[v u1]|] eqn:E1; [|discriminate]. injection E as <- <-.
    exact (uses_strs _ _ _ _ _ E1).
  - intros cond content IH u o u' E. cbn [rbc_to_output] in E.
    destruct (rule_to_output _ _ _ _ _) as [[[c l1] u1]|] eqn:E1; [|discriminate]. injection E as <- <-.
    exact (uses_rule _ _ _ _ _ _ _ _ IH E1).
  - intros cond content IH u o u' E. cbn [rbc_to_output] in E.
    destruct (block_to_output _ _ _ _ _) as [[[c l1] u1]|] eqn:E1; [|discriminate]. injection E as <- <-.
    exact (uses_block _ _ _ _ _ _ _ _ IH E1).
Qed.
Lemma uses_sheet a sh : uses a (sheet_to_output a) interpolated sh.
Proof.
  apply (uses_each a (scope_to_output a) scope_interpolated). apply Forall_forall. intros x _ u o u' E.
  destruct x as [cond content|cond content]; cbn [scope_to_output] in E.
  - destruct (block_to_output _ _ _ _ _) as [[[c l1] u1]|] eqn:E1; [|discriminate]. injection E as <- <-.
    exact (uses_block _ _ _ _ _ _ _ _ (uses_rbcs a content) E1).
  - destruct (rule_to_output _ _ _ _ _) as [[[c l1] u1]|] eqn:E1; [|discriminate]. injection E as <- <-.
    exact (uses_rule _ _ _ _ _ _ _ _ (uses_rbcs a content) E1).
Qed.

(** A call with a string literal that compiles builds its sheet once, without using the heap,
    exactly if it has no arguments. *)
Theorem literal_macro_static_iff : forall lit_value first rest args g,
  lit_macro lit_value (first :: rest) = Expands g -> after_literal rest args ->
  ((exists c, g = GLazy c) <-> args = [])
  /\ (args = [] -> exists v, sheet_static v
        /\ forall envs, evaluate_all None envs g = Some (map (fun _ => v) envs)).
Proof.
  intros lv first rest args g E Ha. apply expands_inv in E.
  destruct E as (first' & rest' & css' & sh' & l & out & u & [= <- <-] & _ & _ & Ha' & _ & Eo & Eu & ->).
  rewrite (after_literal_fun _ _ _ Ha' Ha) in *. clear l Ha'.
  pose proof (sheet_outputs (rev args) sh' []) as K. rewrite Eo in K. destruct K as ((Hk & _) & _).
  pose proof (uses_sheet _ _ _ _ _ Eo) as Us. destruct (constant_sheet_static out Hk) as [C1 C2].
  assert (Hi : interpolated out = false <-> args = []).
  { split; intros H.
    - rewrite H in Us. subst u. destruct args as [|[n c] args']; [reflexivity|]. unfold all_used in Eu.
      cbn [rev] in Eu. rewrite forallb_app in Eu. cbn in Eu. now rewrite andb_false_r in Eu.
    - subst args. destruct (interpolated out); [|reflexivity]. now destruct Us. }
  split; [now rewrite <- C1|]. intros H. apply C2. now apply Hi.
Qed.
Print Assumptions literal_macro_static_iff.

(** One call of each kind. *)
Example literal_macro_static_ex :
  let lv := fun t => match t with RLit s => Some s | _ => None end in
  exists g g', lit_macro lv [RLit (lit "color: red; a { width: 2px; }")] = Expands g
    /\ lit_macro lv [RLit (lit "color: ${c};"); RPunct (ch ",") false; RIdent (lit "c"); RPunct (ch "=") false;
                     RIdent (lit "red")] = Expands g'
    /\ (exists c, g = GLazy c) /\ (exists c, g' = GNow c)
    /\ after_literal [RPunct (ch ",") false; RIdent (lit "c"); RPunct (ch "=") false; RIdent (lit "red")]
         [(lit "c", [RIdent (lit "red")])].
Proof.
  do 2 eexists. split; [vm_compute; reflexivity|]. split; [vm_compute; reflexivity|].
  split; [eexists; reflexivity|]. split; [eexists; reflexivity|].
  constructor. apply al_last. intros j [H|[]]. discriminate.
Qed.

(** What rustc does not accept in a constant: owned lists, boxes, formatted values. *)
Example constants_ex : forall rho c,
  ev_vec ev_str InConst (GVec [GLitStr (lit "red")]) = None
  /\ ev_bow (ev_rule_with ev_rbc) InConst (GBox (mk_grule (GItems []) (GItems []))) = None
  /\ ev_str InConst (GDisplay c) = None /\ ev_str InStatic (GDisplay c) = None
  /\ ev_vec ev_str (InFunction rho) (GItems [GDisplay c]) = None
  /\ ev_vec ev_str InStatic (GVec [GLitStr (lit "red")]) = Some (CowOwned [CowBorrowed (lit "red")]).
Proof. intros. repeat split. Qed.

(** ** Macros called with CSS in Rust's own tokens *)

Local Definition blank : Output.env := fun _ => [].
Local Definition letter : Output.env := fun _ => [ch "x"].

Lemma frags_grow l : List.length (List.concat (map (frag_text blank) l)) <= List.length (List.concat (map (frag_text letter) l)).
Proof.
  induction l as [|f l IH]; [auto|]. cbn. rewrite !app_length.
  assert (List.length (frag_text blank f) <= List.length (frag_text letter f)) by (destruct f as [[]| | | |]; cbn; lia). lia.
Qed.
Lemma frags_tell l : joined (map (frag_text letter) l) = joined (map (frag_text blank) l) -> existsb frag_interpolated l = false.
Proof.
  unfold joined. intros [= E]. apply (f_equal (@List.length char)) in E. revert E.
  induction l as [|f l IH]; [reflexivity|]. cbn. rewrite !app_length. pose proof (frags_grow l).
  assert (K : frag_interpolated f = false /\ List.length (frag_text letter f) = List.length (frag_text blank f)
              \/ List.length (frag_text letter f) = 1 /\ List.length (frag_text blank f) = 0)
    by (destruct f as [[]| | | |]; cbn; auto).
  destruct K as [[-> K]|[K1 K2]]; [|lia]. intros E. apply IH. lia.
Qed.
Lemma selectors_tell l :
  map joined (map (map (frag_text letter)) l) = map joined (map (map (frag_text blank)) l) ->
  existsb (existsb frag_interpolated) l = false.
Proof.
  induction l as [|s l IH]; [reflexivity|]. cbn [map existsb]. intros [= E E']. apply orb_false_iff. split; [|auto].
  apply frags_tell. unfold joined. now rewrite E.
Qed.
Lemma rbcs_tell l :
  map rbc_joined (map (rbc_meaning letter) l) = map rbc_joined (map (rbc_meaning blank) l) -> existsb rbc_interpolated l = false.
Proof.
  apply (out_rbcs_ind2 (fun c => rbc_joined (rbc_meaning letter c) = rbc_joined (rbc_meaning blank c) -> rbc_interpolated c = false)
     (fun l => map rbc_joined (map (rbc_meaning letter) l) = map rbc_joined (map (rbc_meaning blank) l) -> existsb rbc_interpolated l = false)).
  - intros [k v]. cbn. intros [= Ek Ev]. apply orb_false_iff. split; [now destruct k|apply frags_tell; unfold joined; now rewrite Ev].
  - intros cond content IH. cbn. intros [= Ec El]. apply orb_false_iff. split; [apply frags_tell; unfold joined; now rewrite Ec|auto].
  - intros cond content IH. cbn. intros [= Ec El]. apply orb_false_iff. split; [now apply selectors_tell|auto].
  - reflexivity.
  - intros c l' Hc Hl. cbn [map existsb]. intros [= E1 E2]. apply orb_false_iff. auto.
Qed.
Lemma sheet_tells out :
  sheet_joined (sheet_meaning letter out) = sheet_joined (sheet_meaning blank out) -> interpolated out = false.
Proof.
  unfold sheet_joined, sheet_meaning, interpolated. induction out as [|c out IH]; [reflexivity|]. cbn [map existsb]. intros [= E1 E2].
  apply orb_false_iff. split; [|auto]. destruct c; cbn in E1 |- *; injection E1 as E3 E4; apply orb_false_iff.
  - split; [apply frags_tell; unfold joined; now rewrite E3|now apply rbcs_tell].
  - split; [now apply selectors_tell|now apply rbcs_tell].
Qed.

(** A call in Rust's tokens that compiles builds its sheet once, without using the heap, exactly if the
    sheet that its items spell does not depend on any value. *)
Theorem inline_macro_static_iff : forall expr_of input items g,
  reads_sheet expr_of input items -> inline_macro expr_of input = IExpands g ->
  ((exists c, g = GLazy c)
   <-> forall rho rho' s s', sheet_says rho items s -> sheet_says rho' items s' -> s = s')
  /\ ((forall rho rho' s s', sheet_says rho items s -> sheet_says rho' items s' -> s = s') ->
      exists v, sheet_static v /\ forall envs, evaluate_all None envs g = Some (map (fun _ => v) envs)).
Proof.
  intros expr_of input items g R Eg. destruct (inline_complete _ _ _ R) as (out & E & Hk & M).
  rewrite Eg in E. injection E as ->. destruct (constant_sheet_static out Hk) as [C1 C2].
  assert (Hi : interpolated out = false
               <-> forall rho rho' s s', sheet_says rho items s -> sheet_says rho' items s' -> s = s').
  { split; intros H.
    - intros rho rho' s s' Hs Hs'. rewrite (inline_sheet_unique _ _ _ _ Hs (M rho)), (inline_sheet_unique _ _ _ _ Hs' (M rho')).
      destruct (C2 H) as (v & _ & Ev). destruct (interpolated_values_current out Hk) as [_ V].
      destruct (V [rho; rho']) as (vs & V1 & V2). rewrite Ev in V1. injection V1 as <-. cbn [map] in V2.
      inversion V2 as [|? ? ? ? [J1 _] F]; subst. inversion F as [|? ? ? ? [J2 _] _]; subst. congruence.
    - apply sheet_tells. exact (H letter blank _ _ (M letter) (M blank)). }
  split; [now rewrite <- C1|]. intros H. apply C2. now apply Hi.
Qed.
Print Assumptions inline_macro_static_iff.

(** [color: red; a { top: 0; }] is built once, [color: ${c};] is not. *)
Example inline_macro_static_ex : exists g c g' c',
  inline_macro any_expr [id "color"; pu ":"; id "red"; pu ";"; id "a"; RGroup Brace [id "top"; pu ":"; li "0"; pu ";"]] = IExpands g
  /\ g = GLazy c
  /\ inline_macro any_expr [id "color"; pu ":"; pu "$"; RGroup Brace [id "c"]; pu ";"] = IExpands g' /\ g' = GNow c'.
Proof.
  do 4 eexists. split; [vm_compute; reflexivity|]. split; [reflexivity|]. split; [vm_compute; reflexivity|]. reflexivity.
Qed.
