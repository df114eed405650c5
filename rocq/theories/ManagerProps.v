(** * ManagerProps: what the invariant says in the words of [SpecManager]. *)

From Coq Require Import String Ascii List NArith Bool Arith Lia Sorted.
From Verif Require Import Str StrFacts Ast Render CssParser Ids IdFacts Manager SpecManager
  ManagerFacts ManagerInv ManagerSteps ManagerCore.
Import ListNotations.
Local Open Scope list_scope.
Local Opaque parse to_style_str.

(** ** Ids *)

Lemma counter_draws_apart n :
  (N.of_nat n <= 2 ^ 64)%N -> draws_apart counter_entropy n.
Proof.
  intros L i j Hi Hj Hij p q E. unfold counter_entropy in E.
  assert (R : forall p d, p ++ lit "-" ++ lit "style-" ++ d
                          = (p ++ lit "-style") ++ dash :: d).
  { intros. rewrite <- !app_assoc. reflexivity. }
  rewrite !R in E. apply cut_at_last_dash in E as [_ E]; try apply digits_no_dash.
  apply decimal_inj in E. rewrite !N.mod_small in E by lia. lia.
Qed.

Lemma random_draws_apart draw n :
  (forall i, i < n -> rand_entropy (draw i)) ->
  (forall i j, i < n -> j < n -> i <> j -> draw i <> draw j) ->
  draws_apart draw n.
Proof.
  intros R D i j Hi Hj Hij p q E. apply (D i j Hi Hj Hij).
  change (p ++ dash :: draw i = q ++ dash :: draw j) in E.
  apply cut_at_last_dash in E; [tauto|..]; now apply alnum_no_dash, R.
Qed.

Lemma apart_ids draw n i j g p g' p' :
  draws_apart draw n -> i < n -> j < n -> i <> j ->
  new_id g p (draw i) <> new_id g' p' (draw j).
Proof.
  intros A Hi Hj Hij. destruct (new_id_dash g p (draw i)) as [q1 ->].
  destruct (new_id_dash g' p' (draw j)) as [q2 ->]. now apply A.
Qed.

(** ** Liveness *)

Lemma alive_strong w cid :
  counted [] w -> (alive w cid <-> strong_of (w_contents w) cid >= 1).
Proof.
  intros C. rewrite C, cnt_nil. cbn [Nat.add]. unfold alive, held. split.
  - intros [[h H]|(mi & k & m & Hm & I)].
    + apply handle_live in H. lia.
    + pose proof (reg_refs_in _ _ _ _ _ Hm I). lia.
  - intros P. destruct (Nat.eq_dec (cnt (live (w_handles w)) cid) 0) as [Z|Z].
    + right. assert (Q : cnt (reg_refs (w_mgrs w)) cid > 0) by lia. apply cnt_pos in Q.
      apply in_flat_map in Q as (m & Im & Q). apply in_map_iff in Q as ([k c] & E & Q).
      cbn in E. subst c. apply In_nth_error in Im as [mi Hm]. exists mi, k, m. auto.
    + left. apply live_handle. lia.
Qed.

(** ** The document *)

Lemma texts_in_own page id l :
  ~ In id (page_ids page) -> texts_in id (filter (own page) l) = texts_in id l.
Proof.
  intros H. induction l as [|[i t|] l IH]; [reflexivity| |exact IH].
  cbn [filter]. destruct (own page (EStyle i t)) eqn:O; cbn [texts_in flat_map].
  - f_equal. exact IH.
  - destruct (str_eqb i id) eqn:E; [|exact IH]. apply str_eqb_eq in E. subst.
    apply (own_in page id t) in H. congruence.
Qed.

Lemma texts_in_elems id l j c :
  nth_error l j = Some c -> c_id c = id ->
  (forall i d, nth_error l i = Some d -> i <> j -> c_id d <> id) ->
  forall f, texts_in id (map elem (filter f l)) = if f c then [c_text c] else [].
Proof.
  intros Hj Hc Hu f.
  destruct (nth_error_split _ _ Hj) as (a & b & -> & La).
  assert (Z : forall m, (forall d, In d m -> c_id d <> id) -> texts_in id (map elem (filter f m)) = []).
  { induction m as [|d m IH]; intros Hm; [reflexivity|]. cbn [filter].
    destruct (f d); [|apply IH; intros; apply Hm; now right].
    cbn [map texts_in flat_map elem].
    destruct (str_eqb (c_id d) id) eqn:E.
    - apply str_eqb_eq in E. exfalso. apply (Hm d); [now left|exact E].
    - apply IH. intros; apply Hm; now right. }
  rewrite filter_app, map_app, texts_in_app. cbn [filter].
  rewrite (Z a). 2:{ intros d Id. apply In_nth_error in Id as [i Hi].
    assert (i < List.length a) by now apply nth_lt in Hi.
    apply (Hu i); [now rewrite nth_error_app1|lia]. }
  assert (Zb : texts_in id (map elem (filter f b)) = []).
  { apply Z. intros d Id. apply In_nth_error in Id as [i Hi].
    apply (Hu (List.length a + S i)); [|lia].
    rewrite nth_error_app2 by lia. replace (_ - _) with (S i) by lia. exact Hi. }
  destruct (f c); cbn [map app]; [|exact Zb].
  cbn [texts_in flat_map elem]. rewrite Hc, str_eqb_refl. cbn [app]. f_equal. exact Zb.
Qed.

Lemma texts_of_content e page loaded N w cid c k :
  draws_apart (e_draw e) N ->
  (forall id, In id (page_ids page) -> not_drawn (e_draw e) N id) ->
  inv e page loaded [] w -> w_draws w <= N ->
  nth_error (w_contents w) cid = Some c -> place (w_mgrs w) c = Some k ->
  reachable_node page k = true ->
  texts_of (c_id c) (w_dom w) = if shown e page (w_mgrs w) k c then [c_text c] else [].
Proof.
  intros Ap Pf I L Hc Hp Hr.
  assert (Hh : c_hydrated c = false).
  { unfold place in Hp. destruct (c_hydrated c); [discriminate|reflexivity]. }
  assert (Np : ~ In (c_id c) (page_ids page)).
  { apply (created_not_page e page loaded N Pf w cid c (i_ids _ _ _ _ _ I) L Hc Hh). }
  assert (U : forall i d, nth_error (w_contents w) i = Some d -> i <> cid -> c_id d <> c_id c).
  { intros i d Hd Hi. apply not_eq_sym. destruct (i_ids _ _ _ _ _ I) as [_ J].
    apply (J cid i); auto. }
  destruct (i_dom _ _ _ _ _ I) as [D1 D2].
  assert (T : forall j n, nth_error (w_dom w) j = Some n ->
     (if n_in_document n then texts_in (c_id c) (n_children n) else [])
     = if Nat.eqb j k then if shown e page (w_mgrs w) k c then [c_text c] else [] else []).
  { intros j n Hn. destruct (D2 _ _ Hn) as (n0 & A & B & C & F).
    rewrite <- (texts_in_own page) by exact Np. rewrite F.
    rewrite (texts_in_elems _ _ _ _ Hc eq_refl U).
    destruct (Nat.eqb_spec j k) as [->|Nk].
    - unfold reachable_node in Hr. rewrite A in Hr. rewrite B, Hr. reflexivity.
    - assert (shown e page (w_mgrs w) j c = false) as ->.
      { destruct (shown e page (w_mgrs w) j c) eqn:S; [|reflexivity].
        apply shown_inv in S as (_ & S & _). congruence. }
      now destruct (n_in_document n). }
  assert (Lk : k < List.length (w_dom w)).
  { rewrite D1. unfold reachable_node in Hr. destruct (nth_error page k) eqn:E; [|discriminate].
    now apply nth_lt in E. }
  assert (G : forall d off,
     (forall j n, nth_error d j = Some n ->
       (if n_in_document n then texts_in (c_id c) (n_children n) else [])
       = if Nat.eqb (off + j) k then if shown e page (w_mgrs w) k c then [c_text c] else [] else []) ->
     texts_of (c_id c) d
     = if (off <=? k) && (k <? off + List.length d)
       then if shown e page (w_mgrs w) k c then [c_text c] else [] else []).
  { clear. induction d as [|n d IH]; intros off H.
    - cbn [texts_of flat_map List.length]. destruct (Nat.leb_spec off k), (Nat.ltb_spec k (off + 0)); try reflexivity; lia.
    - cbn [texts_of flat_map]. change (flat_map _ d) with (texts_of (c_id c) d).
      rewrite (H 0 n eq_refl). rewrite (IH (S off)).
      2:{ intros j m Hm. specialize (H (S j) m Hm). replace (S off + j) with (off + S j) by lia.
          exact H. }
      cbn [List.length]. rewrite Nat.add_0_r.
      destruct (Nat.eqb_spec off k), (Nat.leb_spec off k), (Nat.leb_spec (S off) k),
        (Nat.ltb_spec k (S off + List.length d)), (Nat.ltb_spec k (off + S (List.length d)));
        cbn; rewrite ?app_nil_r; try reflexivity; lia. }
  rewrite (G (w_dom w) 0 T). cbn [Nat.leb andb].
  destruct (Nat.ltb_spec k (0 + List.length (w_dom w))); [reflexivity|lia].
Qed.

(** Creation order. *)
Lemma filter_sorted {A} (f : A -> bool) l :
  exists js, StronglySorted lt js
    /\ Forall2 (fun j x => nth_error l j = Some x) js (filter f l)
    /\ Forall (fun j => j < List.length l) js.
Proof.
  induction l as [|x l IH] using rev_ind.
  - exists []. repeat split; constructor.
  - destruct IH as (js & S & F & B). rewrite filter_app, app_length. cbn [filter List.length].
    assert (F' : Forall2 (fun j y => nth_error (l ++ [x]) j = Some y) js (filter f l)).
    { clear -F. induction F; constructor; auto. now apply nth_app_old. }
    assert (B' : Forall (fun j => j < List.length l + 1) js).
    { eapply Forall_impl; [|exact B]. cbv beta. intros. lia. }
    destruct (f x); [|rewrite app_nil_r; eauto].
    exists (js ++ [List.length l]). split; [|split].
    + clear -S B. induction S as [|j js S IH H]; cbn; [repeat constructor|].
      inversion_clear B as [|? ? B1 B2]. constructor; [now apply IH|].
      apply Forall_app. split; [exact H|]. now repeat constructor.
    + apply Forall2_app; [exact F'|]. constructor; [apply nth_app_new|constructor].
    + apply Forall_app. split; [exact B'|]. repeat constructor. lia.
Qed.

(** ** Isolation *)

(** Contents of the manager [mj] and its record are the same in both states. *)
Definition untouched (mj : nat) (w w' : world) : Prop :=
  (forall m, nth_error (w_mgrs w) mj = Some m -> nth_error (w_mgrs w') mj = Some m)
  /\ (forall cid c, nth_error (w_contents w) cid = Some c -> c_mgr c = mj ->
        nth_error (w_contents w') cid = Some c).

Lemma untouched_refl mj w : untouched mj w w.
Proof. split; auto. Qed.

Lemma untouched_trans mj w1 w2 w3 :
  untouched mj w1 w2 -> untouched mj w2 w3 -> untouched mj w1 w3.
Proof. intros [A B] [C D]. split; intros; [apply C, A; auto | apply D; auto]. Qed.

Lemma untouched_upd_mgr mj mi w f :
  mi <> mj -> untouched mj w (with_mgrs w (upd (w_mgrs w) mi f)).
Proof. intros H. split; auto. intros m Hm. cbn. now rewrite nth_upd_ne. Qed.

Lemma release_contents e cid w :
  w_contents (release e cid w)
  = upd (w_contents w) cid (fun c => set_strong (Nat.pred (c_strong c)) c).
Proof.
  unfold release. destruct (nth_error (w_contents w) cid) as [c|] eqn:E.
  - cbv zeta. transitivity (upd (w_contents w) cid (set_strong (Nat.pred (c_strong c)))).
    + now destruct (_ && _).
    + now apply (upd_ext _ _ _ _ c).
  - now rewrite upd_none.
Qed.

Lemma untouched_release e mj cid c w :
  nth_error (w_contents w) cid = Some c -> c_mgr c <> mj -> untouched mj w (release e cid w).
Proof.
  intros Hc Hj. split.
  - intros m Hm. destruct (release_frame e cid w) as (_ & -> & _). exact Hm.
  - intros i d Hd Hm. rewrite release_contents. rewrite nth_upd_ne; [exact Hd|].
    intros ->. congruence.
Qed.

Lemma untouched_release_all e mj l w :
  (forall cid, In cid l -> exists c, nth_error (w_contents w) cid = Some c /\ c_mgr c <> mj) ->
  untouched mj w (release_all e l w).
Proof.
  revert w. induction l as [|cid l IH]; intros w H; [apply untouched_refl|].
  cbn [release_all fold_left]. destruct (H cid (or_introl eq_refl)) as (c & Hc & Hj).
  eapply untouched_trans; [apply (untouched_release e mj cid c); auto|]. apply IH.
  intros i Ii. destruct (H i (or_intror Ii)) as (d & Hd & Hm).
  destruct (release_frame e cid w) as (_ & _ & _ & _ & B).
  destruct (base_nth _ _ _ _ (eq_sym B) Hd) as (d' & Hd' & Q). apply base_fields in Q.
  exists d'. split; [exact Hd'|]. intuition congruence.
Qed.

Lemma untouched_app_contents mj w c :
  untouched mj w (with_contents w (w_contents w ++ [c])).
Proof. split; auto. intros. cbn. now apply nth_app_old. Qed.

Lemma untouched_mk mj w w' :
  w_mgrs w' = w_mgrs w -> w_contents w' = w_contents w -> untouched mj w w'.
Proof. intros A B. split; intros; congruence. Qed.

Lemma untouched_retain mj cid c w :
  nth_error (w_contents w) cid = Some c -> c_mgr c <> mj -> untouched mj w (retain cid w).
Proof.
  intros Hc Hj. split; auto. intros i d Hd Hm. cbn. rewrite nth_upd_ne; [exact Hd|].
  intros ->. congruence.
Qed.

Lemma load_data_untouched mj mi l w :
  mi <> mj -> untouched mj w (fst (load_data mi l w)).
Proof.
  intros H. revert w. induction l as [|r l IH]; intros w; [apply untouched_refl|].
  cbn [load_data]. destruct (load_one mi r w) as [w1|] eqn:E; [|apply untouched_refl].
  eapply untouched_trans; [|apply IH]. unfold load_one in E.
  destruct (nth_error (w_mgrs w) mi) as [m|]; [|injection E as <-; apply untouched_refl].
  destruct (reg_get _ _) as [cid|].
  - destruct (nth_error _ cid).
    + destruct (str_eqb _ _); [|discriminate]. injection E as <-; apply untouched_refl.
    + injection E as <-; apply untouched_refl.
  - injection E as <-. split.
    + intros x Hx. cbn. now rewrite nth_upd_ne.
    + intros i d Hd _. cbn. now apply nth_app_old.
Qed.

Lemma step_untouched e loaded w o mj m :
  core e loaded [] w -> nth_error (w_mgrs w) mj = Some m ->
  op_manager w o <> Some mj -> untouched mj w (fst (step e w o)).
Proof.
  intros I Hj Ho. destruct o; cbn [step op_manager] in *.
  - unfold build.
    assert (G : forall x y, untouched mj w (with_mhandles (with_mgrs w (w_mgrs w ++ [x])) y)).
    { intros x y. split; auto. intros. cbn. now apply nth_app_old. }
    destruct (e_wasm e); [|apply G]. destruct cont; [apply G|].
    destruct (e_document e); [|apply untouched_refl]. destruct (e_head e); [apply G|].
    apply untouched_refl.
  - unfold clone_manager. destruct (handle_of (w_mhandles w) h) as [mi|]; [|apply untouched_refl].
    apply (untouched_upd_mgr mj mi w). congruence.
  - unfold drop_manager. destruct (handle_of (w_mhandles w) h) as [mi|] eqn:H; [|apply untouched_refl].
    destruct (nth_error (w_mgrs w) mi) as [m'|] eqn:Hm; [|apply untouched_refl]. cbv zeta.
    destruct (Nat.eqb _ 0); cbn [fst].
    + eapply untouched_trans; [|apply untouched_release_all].
      * apply (untouched_upd_mgr mj mi w (fun m => set_mstrong 0 (set_reg [] m))). congruence.
      * intros cid Ic. apply in_map_iff in Ic as ([k c0] & E & Ic). cbn in E. subst c0.
        destruct (o_reg _ _ _ _ I _ _ Hm) as (_ & _ & R). destruct (R _ _ Ic) as (c & A & B & C).
        exists c. split; [exact A|]. congruence.
    + apply (untouched_upd_mgr mj mi w). congruence.
  - destruct (handle_of (w_mhandles w) h) as [mi|] eqn:H; [|apply untouched_refl].
    assert (Nm : mi <> mj) by congruence.
    unfold get_or_register. destruct (nth_error (w_mgrs w) mi) as [m'|] eqn:Hm; [|apply untouched_refl].
    destruct (reg_get (m_reg m') k) as [cid|] eqn:G; cbv zeta.
    + apply reg_get_in in G. destruct (o_reg _ _ _ _ I _ _ Hm) as (_ & _ & R).
      destruct (R _ _ G) as (c & A & B & C). apply (untouched_retain mj cid c w); congruence.
    + destruct (e_debug e && _); [now apply untouched_mk|].
      assert (G2 : forall f c d hs,
        untouched mj w (mk_world (S (w_draws w)) (w_contents w ++ [c]) (upd (w_mgrs w) mi f) d hs
                          (w_mhandles w))).
      { intros. split.
        - intros x Hx. cbn. now rewrite nth_upd_ne.
        - intros i x Hx _. cbn. now apply nth_app_old. }
      destruct (m_data m').
      * unfold admit_content. cbn. rewrite upd_upd. apply G2.
      * destruct (mount _ _ _ _ _); [apply G2|now apply untouched_mk].
  - unfold clone_style, handle_content in *.
    destruct (handle_of (w_handles w) h) as [cid|] eqn:H; [|apply untouched_refl].
    destruct (nth_error (w_contents w) cid) as [c|] eqn:Hc.
    + apply (untouched_retain mj cid c w); [exact Hc|]. cbn in Ho. congruence.
    + cbn [fst]. unfold retain. rewrite upd_none by exact Hc. now apply untouched_mk.
  - unfold drop_style, handle_content in *.
    destruct (handle_of (w_handles w) h) as [cid|] eqn:H; [|apply untouched_refl]. cbn [fst].
    destruct (nth_error (w_contents w) cid) as [c|] eqn:Hc.
    + match goal with |- untouched _ _ (release _ _ ?w') =>
        apply (untouched_trans _ _ w'); [now apply untouched_mk|] end.
      apply (untouched_release e mj cid c); [exact Hc|]. cbn in Ho. congruence.
    + unfold release. cbn. rewrite Hc. now apply untouched_mk.
  - unfold unregister_style, handle_content in *.
    destruct (handle_of (w_handles w) h) as [cid|] eqn:H; [|apply untouched_refl].
    destruct (nth_error (w_contents w) cid) as [c|] eqn:Hc; [|apply untouched_refl].
    cbn in Ho. assert (Nm : c_mgr c <> mj) by congruence.
    destruct (nth_error (w_mgrs w) (c_mgr c)) as [m'|] eqn:Hm; [|apply untouched_refl].
    destruct (Nat.eqb _ 0); [apply untouched_refl|].
    destruct (reg_remove (m_reg m') (c_key c)) as [r o] eqn:R. cbn [fst].
    destruct (reg_remove_spec _ _ _ _ R) as [(-> & -> & _)|(a & x & b & -> & Ea & -> & _)].
    + now apply untouched_upd_mgr.
    + eapply untouched_trans;
        [apply (untouched_upd_mgr mj (c_mgr c) w (set_reg (a ++ b)) Nm)|].
      destruct (o_reg _ _ _ _ I _ _ Hm) as (_ & _ & R').
      destruct (R' (c_key c) x) as (d & A & B & C).
      { rewrite Ea. apply in_app_iff. right. now left. }
      apply (untouched_release e mj x d); [exact A|congruence].
  - destruct (handle_of (w_mhandles w) h) as [mi|] eqn:H; [|apply untouched_refl].
    apply load_data_untouched. congruence.
  - destruct (handle_of (w_mhandles w) h); apply untouched_refl.
  - now apply untouched_mk.
  - now apply untouched_mk.
Qed.

(** ** Registrations last *)

Lemma registered_mgrs w w' mi k cid :
  registered w mi k cid -> w_mgrs w' = w_mgrs w -> registered w' mi k cid.
Proof. intros (m & Hm & H) E. exists m. now rewrite E. Qed.

Lemma load_data_registered mi l w mj k cid :
  registered w mj k cid -> registered (fst (load_data mi l w)) mj k cid.
Proof.
  revert w. induction l as [|r l IH]; intros w R; [exact R|].
  cbn [load_data]. destruct (load_one mi r w) as [w1|] eqn:E; [|exact R]. apply IH.
  unfold load_one in E.
  destruct (nth_error (w_mgrs w) mi) as [m|] eqn:Hm; [|now injection E as <-].
  destruct (reg_get _ _) as [c|].
  - destruct (nth_error _ c); [destruct (str_eqb _ _); [|discriminate]|]; now injection E as <-.
  - injection E as <-. destruct R as (m' & Hm' & I).
    destruct (Nat.eq_dec mi mj) as [->|Nj].
    + rewrite Hm in Hm'. injection Hm' as <-. eexists. cbn. rewrite nth_upd_eq, Hm.
      split; [reflexivity|]. cbn. apply in_app_iff. now left.
    + exists m'. cbn. rewrite nth_upd_ne by exact Nj. auto.
Qed.

Lemma step_registered e w o mi k cid :
  registered w mi k cid ->
  (forall h, o <> OUnregister h) ->
  mstrong_of (w_mgrs (fst (step e w o))) mi >= 1 ->
  registered (fst (step e w o)) mi k cid.
Proof.
  intros R Hu. pose proof R as (m & Hm & I). destruct o; cbn [step].
  - intros _. unfold build.
    assert (G : forall x y, registered (with_mhandles (with_mgrs w (w_mgrs w ++ [x])) y) mi k cid).
    { intros x y. exists m. cbn. split; [now apply nth_app_old|exact I]. }
    destruct (e_wasm e); [|apply G]. destruct cont; [apply G|].
    destruct (e_document e); [|exact R]. destruct (e_head e); [apply G|exact R].
  - intros _. unfold clone_manager. destruct (handle_of (w_mhandles w) h) as [mj|]; [|exact R].
    destruct (Nat.eq_dec mj mi) as [->|Nj].
    + eexists. cbn. rewrite nth_upd_eq, Hm. split; [reflexivity|exact I].
    + exists m. cbn. rewrite nth_upd_ne by exact Nj. auto.
  - unfold drop_manager. destruct (handle_of (w_mhandles w) h) as [mj|]; [|intros _; exact R].
    destruct (nth_error (w_mgrs w) mj) as [m'|] eqn:Hm'; [|intros _; exact R]. cbv zeta.
    destruct (Nat.eqb_spec (Nat.pred (m_strong m')) 0) as [Z|Z]; cbn [fst].
    + destruct (release_all_frame e (map snd (m_reg m'))
        (with_mgrs (with_mhandles w (upd (w_mhandles w) h (fun _ => None)))
           (upd (w_mgrs (with_mhandles w (upd (w_mhandles w) h (fun _ => None)))) mj
              (fun m => set_mstrong 0 (set_reg [] m))))) as (_ & F & _).
      unfold registered. rewrite F. cbn.
      destruct (Nat.eq_dec mj mi) as [->|Nj].
      * unfold mstrong_of. rewrite nth_upd_eq, Hm'. cbn. lia.
      * intros _. exists m. rewrite nth_upd_ne by exact Nj. auto.
    + intros _. destruct (Nat.eq_dec mj mi) as [->|Nj].
      * rewrite Hm in Hm'. injection Hm' as <-. eexists. cbn. rewrite nth_upd_eq, Hm.
        split; [reflexivity|exact I].
      * exists m. cbn. rewrite nth_upd_ne by exact Nj. auto.
  - intros _. destruct (handle_of (w_mhandles w) h) as [mj|]; [|exact R].
    unfold get_or_register. destruct (nth_error (w_mgrs w) mj) as [m'|] eqn:Hm'; [|exact R].
    destruct (reg_get (m_reg m') k0) as [c|]; [exact R|]. cbv zeta.
    destruct (e_debug e && _); [exact R|].
    assert (G : forall f c d hs,
      (forall x, incl (m_reg x) (m_reg (f x))) ->
      registered (mk_world (S (w_draws w)) (w_contents w ++ [c]) (upd (w_mgrs w) mj f) d hs
                    (w_mhandles w)) mi k cid).
    { intros f c d hs Hf. destruct (Nat.eq_dec mj mi) as [->|Nj].
      - exists (f m). cbn. rewrite nth_upd_eq, Hm. split; [reflexivity|]. now apply Hf.
      - exists m. cbn. rewrite nth_upd_ne by exact Nj. auto. }
    destruct (m_data m').
    + unfold admit_content. cbn. rewrite upd_upd. apply G. intros x y Iy. cbn.
      apply in_app_iff. now left.
    + destruct (mount _ _ _ _ _); [|exact R]. apply G. intros x y Iy. cbn.
      apply in_app_iff. now left.
  - intros _. unfold clone_style. destruct (handle_of (w_handles w) h); exact R.
  - intros _. unfold drop_style. destruct (handle_of (w_handles w) h) as [c|]; [|exact R].
    cbn [fst]. apply (registered_mgrs w); [exact R|].
    match goal with |- w_mgrs (release e ?x ?y) = _ =>
      destruct (release_frame e x y) as (_ & -> & _) end. reflexivity.
  - exfalso. now apply (Hu h).
  - intros _. destruct (handle_of (w_mhandles w) h); [|exact R]. now apply load_data_registered.
  - intros _. destruct (handle_of (w_mhandles w) h); exact R.
  - intros _. exact R.
  - intros _. exact R.
Qed.
