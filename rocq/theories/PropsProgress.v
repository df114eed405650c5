(** * PropsProgress: creating styles and rendering components succeeds (C60, C61). *)

From Coq Require Import String Ascii List NArith Bool Arith Lia Permutation.
From Verif Require Import Str StrFacts Ast Render CssParser Ids IdFacts SpecReparse Manager SpecManager
  ManagerFacts ManagerInv ManagerSteps ManagerCore ManagerProps Hydrate Hooks SpecHooks
  HookFacts SpecProgress Progress PropsManager PropsHooks PropsReparse.
Import ListNotations.
Local Open Scope list_scope.
Local Opaque parse to_style_str.

(** ** C60: creating a style succeeds *)

(** In every program that builds its managers sanely and creates styles whose generated CSS
    reads back, every failure is one of loading style data. *)
Theorem sane_programs_never_fail : forall e page l w rs,
  Forall (sane_op e page) l -> run e (start page) l = (w, rs) ->
  forall i o r, nth_error l i = Some o -> nth_error rs i = Some r ->
  r = RErr \/ r = RPanic -> exists h d, o = OLoad h d.
Proof.
  intros e page l w rs F R. eapply sane_run; eauto.
  - exists []. apply (reaches_core e page [] (start page)). now exists [].
  - apply sane_start.
Qed.
Print Assumptions sane_programs_never_fail.

(** In every state a program can reach: creating succeeds exactly if the style is registered
    already, or the generated CSS passes the check of debug builds and the manager can put it
    somewhere: in its data, nowhere (outside of the browser), or in a container that takes
    elements, unless it would have to be put first and is not empty. *)
Theorem create_succeeds_iff : forall e page l w h mi m k,
  reaches e page l w ->
  handle_of (w_mhandles w) h = Some mi -> nth_error (w_mgrs w) mi = Some m ->
  (exists w' x, step e w (OCreate h k) = (w', RHandle x))
  <->
  (exists cid, registered w mi k cid)
  \/ ((e_debug e = true ->
       exists s, parse (style_text k (new_id (k_global k) (k_prefix k) (e_draw e (w_draws w)))) = Parsed s)
      /\ (m_data m <> None
          \/ e_wasm e = false
          \/ (e_document e = true
              /\ exists c n, m_container m = Some c /\ nth_error (w_dom w) c = Some n
                             /\ takes_elements page c
                             /\ (m_append m = true \/ n_children n = [])))).
Proof.
  intros e page l w h mi m k R Hh Hm. pose proof (reaches_core _ _ _ _ R) as C.
  assert (T : takes (w_dom w) = takes page).
  { destruct R as [rs R]. clear - R. replace w with (fst (run e (start page) l)) by now rewrite R.
    change page with (w_dom (start page)) at 2. generalize (start page). clear. intros w. revert w.
    induction l as [|o l IH]; intros w; [reflexivity|]. rewrite run_cons, IH. apply step_takes. }
  assert (TT : forall c n, nth_error (w_dom w) c = Some n -> (takes_elements page c <-> n_accepts n = true)).
  { intros c n Hn. assert (K : nth_error (takes page) c = Some (n_accepts n)).
    { rewrite <- T. unfold takes. now rewrite nth_error_map, Hn. }
    unfold takes in K. rewrite nth_error_map in K. split.
    - intros (n0 & Hn0 & A). rewrite Hn0 in K. cbn in K. congruence.
    - intros A. destruct (nth_error page c) as [n0|] eqn:H0; [|discriminate]. exists n0. cbn in K. split; [auto|congruence]. }
  cbn [step]. rewrite Hh. unfold get_or_register. rewrite Hm. destruct (reg_get (m_reg m) k) as [cid|] eqn:G.
  { split; [|eauto]. intros _. left. exists cid, m. split; auto. now apply reg_get_in. }
  assert (NR : ~ exists cid, registered w mi k cid).
  { intros (cid & m' & Hm' & I). rewrite Hm in Hm'. injection Hm' as <-.
    destruct (o_reg _ _ _ _ C _ _ Hm) as (ND & _ & _). apply (reg_get_complete _ _ _ ND) in I. congruence. }
  cbv zeta. set (id := new_id _ _ _). set (t := style_text k id).
  assert (Dbg : e_debug e && negb (is_parsed (parse t)) = false <-> (e_debug e = true -> exists s, parse t = Parsed s)).
  { destruct (e_debug e); cbn; [|split; [discriminate|auto]]. destruct (parse t); cbn; split; eauto; try discriminate;
      intros H; destruct (H eq_refl); discriminate. }
  destruct (e_debug e && negb (is_parsed (parse t))) eqn:D.
  { split; [intros (? & ? & E); discriminate|]. intros [N|[N _]]; [contradiction|]. apply Dbg in N. discriminate. }
  pose proof (proj1 Dbg eq_refl) as D'. clear Dbg D.
  destruct (m_data m) as [ld|] eqn:Dm.
  { split; [|eauto]. intros _. right. split; [exact D'|]. left. discriminate. }
  unfold mount. cbn [w_dom draw].
  destruct (e_wasm e); [|cbn; split; [|eauto]; intros _; right; split; [exact D'|]; now right; left].
  cbn [negb]. destruct (e_document e); cbn [negb].
  2:{ split; [intros (? & ? & E); discriminate|]. intros [N|[_ [N|[N|[N _]]]]]; try contradiction; discriminate. }
  destruct (m_container m) as [c|].
  2:{ split; [intros (? & ? & E); discriminate|]. intros [N|[_ [N|[N|(_ & c & n & N & _)]]]]; try contradiction; discriminate. }
  destruct (nth_error (w_dom w) c) as [n|] eqn:Hn.
  2:{ split; [intros (? & ? & E); discriminate|]. intros [N|[_ [N|[N|(_ & c' & n & N & N' & _)]]]]; try contradiction; try discriminate.
      injection N as <-. congruence. }
  specialize (TT c n Hn).
  split.
  - intros (w' & x & E). right. split; [exact D'|]. right. right. split; [reflexivity|]. exists c, n. split; [reflexivity|].
    split; [exact Hn|]. destruct (n_accepts n); [|destruct (_ && _); discriminate]. split; [now apply TT|].
    destruct (m_append m); [now left|]. right. destruct (n_children n); [reflexivity|discriminate].
  - intros [N|[_ [N|[N|(_ & c' & n' & N & Hn' & Ta & App)]]]]; try contradiction; try discriminate.
    injection N as <-. rewrite Hn in Hn'. injection Hn' as <-. apply TT in Ta. rewrite Ta.
    destruct App as [->| ->]; cbn; [eauto|]. rewrite andb_false_r. eauto.
Qed.
Print Assumptions create_succeeds_iff.

(** When the check of debug builds passes: for the sheets of C13, with any ordinary prefix. *)
Definition ordinary (x : char) : Prop :=
  ~ In x (lit "$,{}@;/&" ++ [34%N; 92%N]) /\ is_uni_ws x = false.

Lemma alnum_ordinary x : is_ascii_alnum x = true -> ordinary x.
Proof.
  intros H. split.
  - intros I. cbn in I. repeat (destruct I as [<-|I]; [discriminate|]). contradiction.
  - destruct (is_uni_ws x) eqn:U; [|reflexivity]. unfold is_ascii_alnum, is_ascii_alpha, is_ascii_digit in H.
    unfold is_uni_ws in U. exfalso.
    repeat rewrite ?orb_true_iff, ?andb_true_iff, ?N.leb_le, ?N.eqb_eq in *. lia.
Qed.

Theorem debug_check_passes : forall e k,
  good_sheet (k_ast k) ->
  (k_global k = false -> Forall ordinary (k_prefix k)) ->
  (forall n, e_draw e n = counter_entropy n \/ rand_entropy (e_draw e n)) ->
  rereads e k.
Proof.
  intros e k G Pr D _ n. unfold style_text.
  destruct (generated_css_reparses (if k_global k then None
              else Some (new_id (k_global k) (k_prefix k) (e_draw e n))) (k_ast k)) as (s & Hs & _); auto; [|eauto].
  destruct (k_global k); [exact I|]. cbn [new_id]. specialize (Pr eq_refl). unfold new_scoped. split.
  { destruct (k_prefix k); discriminate. }
  apply Forall_app. split; [exact Pr|]. cbn [List.app lit]. change (Forall ordinary (ch "-" :: e_draw e n)). constructor.
  { split; [cbn; intuition discriminate|reflexivity]. }
  destruct (D n) as [->|[_ H]].
  - unfold counter_entropy. apply Forall_app. split.
    + repeat constructor; try (cbn; intuition discriminate).
    + unfold decimal. assert (K : forall u, Forall ordinary (uint_digits u)); [|apply K].
      induction u; cbn; constructor; auto; apply alnum_ordinary; reflexivity.
  - apply Forall_forall. intros x Ix. rewrite forallb_forall in H. apply alnum_ordinary. now apply H.
Qed.
Print Assumptions debug_check_passes.

(** The program of [PropsManager] is sane, and a debug build of it too. *)
Definition demo_debug_env : env := mk_env true true (Some 0) true counter_entropy.
Lemma demo_takes k : k < 2 -> takes_elements demo_page k.
Proof. intros L. destruct k as [|[|k]]; [| |lia]; eexists; split; reflexivity. Qed.
Example sane_program_ex : Forall (sane_op demo_env demo_page) demo_history.
Proof.
  repeat constructor; try discriminate; intros _; cbn;
    (eexists; split; [reflexivity|]; right; split; [reflexivity|split; [reflexivity|apply demo_takes; lia]]).
Qed.
Lemma demo_good v : good_attr (mk_attr (lit "color") [v]) -> good_sheet [SBlock [] [CAttr (mk_attr (lit "color") [v])]].
Proof.
  intros A. constructor; [|constructor]. constructor; [constructor|]. constructor; [|constructor]. now constructor.
Qed.
Lemma demo_rereads g p : Forall ordinary p -> rereads demo_debug_env (mk_key g p (PropsManager.demo_sheet "red")).
Proof.
  intros O. apply debug_check_passes; auto; cbn [k_ast k_global k_prefix].
  - apply demo_good. split; [is_name|]. split; [easy|]. split; [|is_tight]. plain_text.
Qed.
Example debug_check_ex : rereads demo_debug_env (demo_key "red").
Proof. apply demo_rereads. repeat constructor; try (cbn; intuition discriminate). Qed.

(** ** C61: components never panic *)

(** In every state of a sane program, whatever Rust lets it do next (other than loading style
    data) does not panic: components can be mounted and rendered again, sources made into
    classes and used by hooks. *)
Theorem components_never_panic : forall y e page l a o,
  arun y e (app_start page) l = Some a ->
  sane_program e page (l ++ [o]) ->
  allowed a o ->
  exists a', astep y e a o = Some a'.
Proof.
  intros y e page l a o R S A. unfold sane_program in S. pose proof (prefixes_builds (l ++ [o])) as B.
  apply Forall_app in S. destruct S as [S1 S2]. apply Forall_app in B. destruct B as [B1 B2].
  inversion S2 as [|? ? S3 _]; subst. inversion B2 as [|? ? B3 _]; subst.
  eapply (astep_total y e page (prefixes (l ++ [o]))); eauto.
  - now left.
  - eapply good_reached; eauto.
  - eapply (arun_keeps y e page (prefixes (l ++ [o]))); [now left| |exact S1|exact B1|exact R]. apply sane_start.
Qed.
Print Assumptions components_never_panic.

Definition demo_next : aop := ARender 2 (Some 0) (mk_source (PropsManager.demo_sheet "blue") None (Some (lit "x.rs:1:2"))).
Example never_panic_ex : forall y, exists a,
  arun y demo_env (app_start demo_page) demo_app_ops = Some a
  /\ sane_program demo_env demo_page (demo_app_ops ++ [demo_next]) /\ allowed a demo_next.
Proof.
  assert (D : sane_build demo_env demo_page None true false).
  { intros _. exists 0. split; [reflexivity|]. right. repeat split. apply demo_takes. lia. }
  intros [[|] [|]]; eexists; (split; [vm_compute; reflexivity|]);
    (split; [|split; [|split; [exact I|]]; eexists; vm_compute; reflexivity]);
    repeat (apply Forall_cons; [first [exact I|intros _; cbn; eexists; split; [reflexivity|]; right; split; [reflexivity|split; [reflexivity|apply demo_takes; lia]]
       |split; [intros E; first [discriminate E|exact D]|intros p _ E; discriminate E]|intros E; discriminate E]|]);
    constructor.
Qed.
