(** * ManagerInv: the invariant of the manager state machine and its preservation. *)

From Coq Require Import String Ascii List NArith Bool Arith Lia.
From Verif Require Import Str StrFacts Ast Render CssParser Ids IdFacts Manager SpecManager
  ManagerFacts.
Import ListNotations.
Local Open Scope list_scope.
Local Opaque parse to_style_str.

(** ** Reference counts *)

Definition live (l : list (option nat)) : list nat :=
  flat_map (fun o => match o with Some c => [c] | None => [] end) l.
Definition reg_refs (l : list mgr) : list nat := flat_map (fun m => map snd (m_reg m)) l.

Definition strong_of (l : list content) (cid : nat) : nat :=
  match nth_error l cid with Some c => c_strong c | None => 0 end.
Definition mstrong_of (l : list mgr) (mi : nat) : nat :=
  match nth_error l mi with Some m => m_strong m | None => 0 end.

(** Every strong count is the number of references; [extra] are references in flight. *)
Definition counted (extra : list nat) (w : world) : Prop :=
  forall cid, strong_of (w_contents w) cid
              = cnt extra cid + cnt (live (w_handles w)) cid + cnt (reg_refs (w_mgrs w)) cid.
Definition mcounted (w : world) : Prop :=
  forall mi, mstrong_of (w_mgrs w) mi = cnt (live (w_mhandles w)) mi.

(** ** Registry and contents *)

Definition reg_ok (w : world) : Prop :=
  forall mi m, nth_error (w_mgrs w) mi = Some m ->
  NoDup (map fst (m_reg m))
  /\ (m_strong m = 0 -> m_reg m = [])
  /\ forall k cid, In (k, cid) (m_reg m) ->
     exists c, nth_error (w_contents w) cid = Some c /\ c_key c = k /\ c_mgr c = mi.

Definition text_of (c : content) : str :=
  if c_hydrated c then to_style_str (Some (c_id c)) (k_ast (c_key c))
  else style_text (c_key c) (c_id c).

Definition content_ok (w : world) : Prop :=
  forall cid c, nth_error (w_contents w) cid = Some c ->
  c_mgr c < List.length (w_mgrs w) /\ c_text c = text_of c.

Definition made_id (e : env) (n : nat) (c : content) : Prop :=
  c_id c = new_id (k_global (c_key c)) (k_prefix (c_key c)) (e_draw e n).

Definition ids_ok (e : env) (loaded : list str) (w : world) : Prop :=
  (forall cid c, nth_error (w_contents w) cid = Some c ->
     if c_hydrated c then In (c_id c) loaded
     else exists n, n < w_draws w /\ made_id e n c)
  /\ (forall i j c d, nth_error (w_contents w) i = Some c -> nth_error (w_contents w) j = Some d ->
        i <> j -> c_hydrated c = false -> c_id c <> c_id d).

Definition made_by (mi : nat) (c : content) : bool :=
  negb (c_hydrated c) && Nat.eqb (c_mgr c) mi.
Definition record_of (c : content) : record := mk_record (c_key c) (c_id c) (c_text c).

Definition data_ok (w : world) : Prop :=
  forall mi m l, nth_error (w_mgrs w) mi = Some m -> m_data m = Some l ->
  l = map record_of (filter (made_by mi) (w_contents w)).

(** ** The document *)

Definition place (mgrs : list mgr) (c : content) : option nat :=
  if c_hydrated c then None
  else match nth_error mgrs (c_mgr c) with
       | Some m => match m_data m with None => m_container m | Some _ => None end
       | None => None
       end.

Definition reachable_node (page : dom) (k : nat) : bool :=
  match nth_error page k with Some n => n_in_document n | None => false end.

(** Elements that [unmount] cannot find. *)
Definition stuck (e : env) (page : dom) (k : nat) (id : str) : bool :=
  negb (e_document e) || negb (reachable_node page k) || negb (plain_ident id).

Definition shown (e : env) (page : dom) (mgrs : list mgr) (k : nat) (c : content) : bool :=
  e_wasm e
  && match place mgrs c with Some k' => Nat.eqb k' k | None => false end
  && (negb (Nat.eqb (c_strong c) 0) || stuck e page k (c_id c)).

Definition elem (c : content) : child := EStyle (c_id c) (c_text c).

Definition own (page : dom) (c : child) : bool :=
  match c with EStyle i _ => negb (existsb (str_eqb i) (page_ids page)) | EOther => false end.

(** Apart from what the page had at the start, each container holds the elements of the
    styles mounted into it that are alive (or cannot be removed), in creation order. *)
Definition dom_ok (e : env) (page : dom) (w : world) : Prop :=
  List.length (w_dom w) = List.length page
  /\ forall k n, nth_error (w_dom w) k = Some n ->
     exists n0, nth_error page k = Some n0
       /\ n_in_document n = n_in_document n0 /\ n_accepts n = n_accepts n0
       /\ filter (own page) (n_children n)
          = map elem (filter (shown e page (w_mgrs w) k) (w_contents w)).

(** What the page had at the start: one element with the id goes for each hydrated style with
    the id that died. *)
Definition gone (e : env) (id : str) (l : list content) : nat :=
  if e_wasm e && e_document e && plain_ident id
  then List.length (filter (fun c => c_hydrated c && str_eqb (c_id c) id
                                     && Nat.eqb (c_strong c) 0) l)
  else 0.

Definition page_ok (e : env) (page : dom) (w : world) : Prop :=
  forall id, In id (page_ids page) ->
  texts_of id (w_dom w) = skipn (gone e id (w_contents w)) (texts_of id page).

Record inv (e : env) (page : dom) (loaded : list str) (extra : list nat) (w : world) : Prop :=
  mk_inv
  { i_counted : counted extra w;
    i_mcounted : mcounted w;
    i_reg : reg_ok w;
    i_content : content_ok w;
    i_ids : ids_ok e loaded w;
    i_data : data_ok w;
    i_dom : dom_ok e page w;
    i_page : page_ok e page w }.

(** ** Contents up to their counts *)

Definition base (c : content) : content := set_strong 0 c.

Lemma base_nth l l' i c :
  map base l = map base l' -> nth_error l i = Some c ->
  exists c', nth_error l' i = Some c' /\ base c' = base c.
Proof.
  intros E H. apply (map_nth_error base) in H. rewrite E in H.
  rewrite nth_error_map in H. destruct (nth_error l' i) as [c'|]; [|discriminate].
  exists c'. split; [reflexivity|]. cbn [option_map] in H. congruence.
Qed.

Lemma base_fields c c' :
  base c' = base c ->
  c_id c' = c_id c /\ c_key c' = c_key c /\ c_text c' = c_text c /\ c_mgr c' = c_mgr c
  /\ c_hydrated c' = c_hydrated c.
Proof. destruct c, c'. cbn. unfold base, set_strong. cbn. intros [= -> -> -> -> ->]. auto. Qed.

Lemma base_upd_strong l i n : map base (upd l i (set_strong n)) = map base l.
Proof. apply map_upd_same. now intros []. Qed.

Lemma base_upd_retain l i :
  map base (upd l i (fun c => set_strong (S (c_strong c)) c)) = map base l.
Proof. apply map_upd_same. now intros []. Qed.

Lemma base_filter_record mi l l' :
  map base l = map base l' ->
  map record_of (filter (made_by mi) l) = map record_of (filter (made_by mi) l').
Proof.
  revert l'. induction l as [|c l IH]; intros [|c' l'] E; cbn [map] in E; try discriminate; auto.
  assert (B : base c' = base c) by congruence.
  assert (E2 : map base l = map base l') by congruence. clear E.
  apply base_fields in B. destruct B as (B1 & B2 & B3 & B4 & B5).
  cbn [filter]. replace (made_by mi c') with (made_by mi c) by (unfold made_by; congruence).
  destruct (made_by mi c); cbn [map]; [|now apply IH].
  f_equal; [|now apply IH]. unfold record_of. congruence.
Qed.

(** The invariants that read contents only up to their counts. *)
Lemma base_reg_ok w w' :
  map base (w_contents w') = map base (w_contents w) -> w_mgrs w' = w_mgrs w ->
  reg_ok w -> reg_ok w'.
Proof.
  intros E M H mi m Hm. rewrite M in Hm. destruct (H _ _ Hm) as (A & B & C).
  repeat split; auto. intros k cid I. destruct (C _ _ I) as (c & Hc & Hk & Hi).
  destruct (base_nth _ _ _ _ (eq_sym E) Hc) as (c' & Hc' & B').
  apply base_fields in B'. exists c'. intuition congruence.
Qed.

Lemma base_content_ok w w' :
  map base (w_contents w') = map base (w_contents w) -> w_mgrs w' = w_mgrs w ->
  content_ok w -> content_ok w'.
Proof.
  intros E M H cid c Hc.
  destruct (base_nth _ _ _ _ E Hc) as (c' & Hc' & B'). destruct (H _ _ Hc') as [H1 H2].
  apply base_fields in B'. rewrite M. destruct B' as (B1 & B2 & B3 & B4 & B5).
  split; [congruence|]. unfold text_of in *. rewrite B1, B2, B3, B5 in H2. exact H2.
Qed.

Lemma base_ids_ok e loaded w w' :
  map base (w_contents w') = map base (w_contents w) -> w_draws w <= w_draws w' ->
  ids_ok e loaded w -> ids_ok e loaded w'.
Proof.
  intros E M [H1 H2]. split.
  - intros cid c Hc. destruct (base_nth _ _ _ _ E Hc) as (c' & Hc' & B').
    specialize (H1 _ _ Hc'). apply base_fields in B'. destruct B' as (B1 & B2 & B3 & B4 & B5).
    rewrite <- B5, <- B1. destruct (c_hydrated c'); [exact H1|].
    destruct H1 as (n & Hn & Hm). exists n. split; [lia|]. unfold made_id in *. congruence.
  - intros i j c d Hc Hd Hij Hh.
    destruct (base_nth _ _ _ _ E Hc) as (c' & Hc' & B').
    destruct (base_nth _ _ _ _ E Hd) as (d' & Hd' & D').
    apply base_fields in B', D'. destruct B' as (B1 & B2 & B3 & B4 & B5).
    destruct D' as (D1 & _). rewrite <- B1, <- D1. apply (H2 i j); congruence.
Qed.

Lemma base_data_ok w w' :
  map base (w_contents w') = map base (w_contents w) -> w_mgrs w' = w_mgrs w ->
  data_ok w -> data_ok w'.
Proof.
  intros E M H mi m l Hm Hl. rewrite M in Hm. rewrite (H _ _ _ Hm Hl).
  apply base_filter_record. congruence.
Qed.

(** ** Removing an element *)

Lemma texts_in_app id a b : texts_in id (a ++ b) = texts_in id a ++ texts_in id b.
Proof. apply flat_map_app. Qed.

Lemma is_elem_texts id l : existsb (is_elem id) l = false <-> texts_in id l = [].
Proof.
  induction l as [|[i t|] l IH]; cbn; [tauto| |auto].
  destruct (str_eqb i id); cbn; [split; discriminate | exact IH].
Qed.

Lemma remove_child_none id l : existsb (is_elem id) l = false -> remove_child id l = l.
Proof.
  induction l as [|c l IH]; cbn; [auto|]. destruct (is_elem id c); cbn; [discriminate|].
  intros H. now rewrite IH.
Qed.

Lemma remove_child_filter f id l :
  (forall t, f (EStyle id t) = true) ->
  filter f (remove_child id l) = remove_child id (filter f l).
Proof.
  intros Hf. induction l as [|c l IH]; [auto|]. cbn [remove_child].
  destruct (is_elem id c) eqn:E.
  - destruct c as [i t|]; [|discriminate]. cbn in E. apply str_eqb_eq in E. subst.
    cbn [filter]. rewrite Hf. cbn [remove_child is_elem]. now rewrite str_eqb_refl.
  - cbn [filter]. destruct (f c); [|exact IH]. cbn [remove_child]. now rewrite E, IH.
Qed.

Lemma remove_child_filter_out f id l :
  (forall t, f (EStyle id t) = false) -> filter f (remove_child id l) = filter f l.
Proof.
  intros Hf. induction l as [|c l IH]; [auto|]. cbn [remove_child].
  destruct (is_elem id c) eqn:E.
  - destruct c as [i t|]; [|discriminate]. cbn in E. apply str_eqb_eq in E. subst.
    cbn [filter]. now rewrite Hf.
  - cbn [filter]. now rewrite IH.
Qed.

Lemma remove_child_mid id a c b :
  existsb (is_elem id) a = false -> is_elem id c = true ->
  remove_child id (a ++ c :: b) = a ++ b.
Proof.
  intros H Hc. induction a as [|x a IH]; cbn [app remove_child]; [now rewrite Hc|].
  cbn in H. destruct (is_elem id x); [discriminate|]. now rewrite IH.
Qed.

Lemma texts_remove_child id l :
  texts_in id (remove_child id l) = tl (texts_in id l).
Proof.
  induction l as [|[i t|] l IH]; [auto| |exact IH]. cbn [remove_child is_elem].
  destruct (str_eqb i id) eqn:E; cbn [texts_in flat_map]; rewrite E; [reflexivity|exact IH].
Qed.

Lemma texts_remove_other id id' l :
  id <> id' -> texts_in id' (remove_child id l) = texts_in id' l.
Proof.
  intros H. induction l as [|[i t|] l IH]; [auto| |exact IH]. cbn [remove_child is_elem].
  destruct (str_eqb i id) eqn:E; cbn [texts_in flat_map].
  - apply str_eqb_eq in E. subst. apply str_eqb_neq in H. now rewrite H.
  - destruct (str_eqb i id'); [f_equal|]; exact IH.
Qed.

Lemma remove_first_none id d :
  (forall n, In n d -> n_in_document n = true -> existsb (is_elem id) (n_children n) = false) ->
  remove_first id d = d.
Proof.
  induction d as [|n d IH]; [auto|]. intros H. cbn [remove_first].
  destruct (n_in_document n) eqn:E; cbn [andb].
  - rewrite (H n) by (auto; now left). now rewrite IH by (intros; apply H; auto; now right).
  - now rewrite IH by (intros; apply H; auto; now right).
Qed.

(** At most one container changes, by losing its first element with the id. *)
Lemma remove_first_cases id d :
  remove_first id d = d
  \/ exists k n, nth_error d k = Some n /\ n_in_document n = true
       /\ existsb (is_elem id) (n_children n) = true
       /\ remove_first id d
          = upd d k (fun n => set_children (remove_child id (n_children n)) n).
Proof.
  induction d as [|n d IH]; [auto|]. cbn [remove_first].
  destruct (n_in_document n && existsb (is_elem id) (n_children n)) eqn:E.
  - right. apply andb_prop in E as [E1 E2]. exists 0, n. auto.
  - destruct IH as [->|(k & m & A & B & C & ->)]; [auto|]. right. exists (S k), m. auto.
Qed.

Lemma texts_of_remove_same id d : texts_of id (remove_first id d) = tl (texts_of id d).
Proof.
  induction d as [|n d IH]; [auto|]. cbn [remove_first].
  destruct (n_in_document n) eqn:E; cbn [andb].
  - destruct (existsb (is_elem id) (n_children n)) eqn:X; cbn [texts_of flat_map].
    + cbn [set_children n_in_document n_children]. rewrite E, texts_remove_child.
      destruct (texts_in id (n_children n)) eqn:T; [|reflexivity].
      apply is_elem_texts in T. congruence.
    + rewrite E. apply is_elem_texts in X. rewrite X. exact IH.
  - cbn [texts_of flat_map]. rewrite E. exact IH.
Qed.

Lemma texts_of_remove_other id id' d :
  id <> id' -> texts_of id' (remove_first id d) = texts_of id' d.
Proof.
  intros H. induction d as [|n d IH]; [auto|]. cbn [remove_first].
  destruct (n_in_document n) eqn:E; cbn [andb].
  - destruct (existsb (is_elem id) (n_children n)) eqn:X; cbn [texts_of flat_map].
    + cbn [set_children n_in_document n_children]. rewrite E, texts_remove_other by exact H.
      reflexivity.
    + rewrite E. now f_equal.
  - cbn [texts_of flat_map]. rewrite E. exact IH.
Qed.

(** ** Preservation *)

Lemma strong_of_upd l i f j :
  strong_of (upd l i f) j
  = if Nat.eqb i j then match nth_error l i with Some c => c_strong (f c) | None => 0 end
    else strong_of l j.
Proof.
  unfold strong_of. rewrite nth_upd. destruct (Nat.eqb_spec i j) as [->|]; [|reflexivity].
  now destruct (nth_error l j).
Qed.

Lemma release_frame e cid w :
  let w' := release e cid w in
  w_draws w' = w_draws w /\ w_mgrs w' = w_mgrs w /\ w_handles w' = w_handles w
  /\ w_mhandles w' = w_mhandles w /\ map base (w_contents w') = map base (w_contents w).
Proof.
  cbv zeta. unfold release. destruct (nth_error (w_contents w) cid) as [c|]; [|auto].
  cbv zeta. destruct (_ && _); cbn; rewrite base_upd_strong; auto.
Qed.

Lemma release_counted e cid extra w :
  counted (cid :: extra) w -> counted extra (release e cid w).
Proof.
  intros H.
  assert (P : strong_of (w_contents w) cid >= 1).
  { rewrite H, cnt_cons, Nat.eqb_refl. lia. }
  unfold strong_of in P. unfold release.
  destruct (nth_error (w_contents w) cid) as [c|] eqn:E; [|lia]. cbv zeta.
  assert (G : forall j, strong_of (upd (w_contents w) cid (set_strong (Nat.pred (c_strong c)))) j
     = cnt extra j + cnt (live (w_handles w)) j + cnt (reg_refs (w_mgrs w)) j).
  { intros j. rewrite strong_of_upd, E. cbn [set_strong c_strong].
    specialize (H j). rewrite cnt_cons in H. destruct (Nat.eqb_spec cid j) as [Q|Q]; [|lia].
    unfold strong_of in H. rewrite <- Q, E in H. rewrite <- Q. lia. }
  destruct (_ && _); exact G.
Qed.

Lemma existsb_str id l : existsb (str_eqb id) l = true <-> In id l.
Proof.
  rewrite existsb_exists. split.
  - intros (x & I & E). apply str_eqb_eq in E. now subst.
  - intros I. exists id. split; [exact I | apply str_eqb_refl].
Qed.

Lemma own_in page id t : own page (EStyle id t) = true <-> ~ In id (page_ids page).
Proof.
  unfold own. rewrite negb_true_iff. rewrite <- existsb_str. destruct (existsb _ _); split;
    congruence.
Qed.

Lemma filter_upd_same (f : content -> bool) (g : content -> content) l i c :
  nth_error l i = Some c -> f (g c) = f c -> elem (g c) = elem c ->
  map elem (filter f (upd l i g)) = map elem (filter f l).
Proof.
  intros E F G. destruct (upd_split _ _ g _ E) as (a & b & -> & _ & ->).
  rewrite !filter_app, !map_app. cbn [filter]. rewrite F. destruct (f c); [|reflexivity].
  cbn [map]. now rewrite G.
Qed.

Lemma shown_inv e page mgrs k c :
  shown e page mgrs k c = true ->
  e_wasm e = true /\ place mgrs c = Some k /\ c_hydrated c = false
  /\ (c_strong c <> 0 \/ stuck e page k (c_id c) = true).
Proof.
  unfold shown. rewrite !andb_true_iff, orb_true_iff. intros [[H1 H2] H3].
  destruct (place mgrs c) as [k'|] eqn:P; [|discriminate]. apply Nat.eqb_eq in H2. subst.
  repeat split; auto.
  - unfold place in P. destruct (c_hydrated c); [discriminate|reflexivity].
  - destruct H3 as [H3|]; [left|now right]. intros E. rewrite E in H3. discriminate.
Qed.

(** An element that was not on the page at the start belongs to a style shown there. *)
Lemma elem_origin e page w k n id :
  dom_ok e page w -> nth_error (w_dom w) k = Some n -> ~ In id (page_ids page) ->
  existsb (is_elem id) (n_children n) = true ->
  exists j d, nth_error (w_contents w) j = Some d /\ c_id d = id
              /\ shown e page (w_mgrs w) k d = true.
Proof.
  intros [_ H] Hn Ho X. destruct (H _ _ Hn) as (n0 & _ & _ & _ & F).
  apply existsb_exists in X as (c & Ic & Ec). destruct c as [i t|]; [|discriminate].
  cbn in Ec. apply str_eqb_eq in Ec. subst i.
  assert (I : In (EStyle id t) (filter (own page) (n_children n))).
  { apply filter_In. split; [exact Ic|]. now apply own_in. }
  rewrite F in I. apply in_map_iff in I as (d & Ed & Id). apply filter_In in Id as [Id Sd].
  apply In_nth_error in Id as [j Hj]. exists j, d. unfold elem in Ed. injection Ed as E1 E2.
  auto.
Qed.

Section Preserve.
Variables (e : env) (page : dom) (loaded : list str) (N : nat).
Hypothesis apart : draws_apart (e_draw e) N.
Hypothesis page_fresh : forall id, In id (page_ids page) -> not_drawn (e_draw e) N id.
Hypothesis loaded_fresh : forall id, In id loaded -> not_drawn (e_draw e) N id.

Lemma new_id_dash g p d : exists q, new_id g p d = q ++ lit "-" ++ d.
Proof.
  destruct g; cbn [new_id]; [|now exists p].
  exists (p ++ lit "-global"). unfold new_global. now rewrite <- app_assoc.
Qed.

Lemma not_drawn_new id g p n : not_drawn (e_draw e) N id -> n < N -> id <> new_id g p (e_draw e n).
Proof. intros H L. destruct (new_id_dash g p (e_draw e n)) as [q ->]. now apply H. Qed.

Lemma created_not_page w cid c :
  ids_ok e loaded w -> w_draws w <= N -> nth_error (w_contents w) cid = Some c ->
  c_hydrated c = false -> ~ In (c_id c) (page_ids page).
Proof.
  intros [H _] L Hc Hh I. specialize (H _ _ Hc). rewrite Hh in H. destruct H as (n & Hn & M).
  apply page_fresh in I. revert M. apply not_drawn_new; [exact I | lia].
Qed.

Lemma release_dom cid extra w :
  inv e page loaded (cid :: extra) w -> w_draws w <= N -> dom_ok e page (release e cid w).
Proof.
  intros I L. destruct I as [Ic _ _ _ Ii _ Id _].
  assert (P : strong_of (w_contents w) cid >= 1).
  { rewrite Ic, cnt_cons, Nat.eqb_refl. lia. }
  unfold strong_of in P. unfold release.
  destruct (nth_error (w_contents w) cid) as [c|] eqn:E; [|exact Id]. cbv zeta.
  destruct (c_strong c) as [|n] eqn:S; [lia|]. cbn [Nat.pred Nat.eqb negb]. rewrite andb_true_r.
  destruct (Nat.eqb_spec n 0) as [->|Hn].
  2:{ destruct Id as [Id1 Id2]. split; [exact Id1|]. cbn. intros k m Hm.
      destruct (Id2 _ _ Hm) as (n0 & A & B & C & D). exists n0. repeat split; auto.
      rewrite D. symmetry. apply (filter_upd_same _ _ _ _ c E); [|reflexivity].
      unfold shown. cbn [set_strong c_strong c_id].
      replace (place (w_mgrs w) (set_strong n c)) with (place (w_mgrs w) c) by reflexivity.
      rewrite S. cbn [Nat.eqb]. destruct n; [lia|]. reflexivity. }
  cbn [with_dom w_dom with_contents]. unfold unmount.
  destruct (e_wasm e && e_document e && plain_ident (c_id c)) eqn:U.
  2:{ destruct Id as [Id1 Id2]. split; [exact Id1|]. cbn. intros k m Hm.
      destruct (Id2 _ _ Hm) as (n0 & A & B & C & D). exists n0. repeat split; auto.
      rewrite D. symmetry. apply (filter_upd_same _ _ _ _ c E); [|reflexivity].
      unfold shown, stuck. cbn [set_strong c_strong c_id].
      replace (place (w_mgrs w) (set_strong 0 c)) with (place (w_mgrs w) c) by reflexivity.
      rewrite S. cbn [Nat.eqb negb].
      destruct (e_wasm e); [|reflexivity]. destruct (e_document e); cbn in U |- *.
      - rewrite U. cbn. now rewrite !orb_true_r.
      - now rewrite ?orb_true_r. }
  apply andb_prop in U as [U Up]. apply andb_prop in U as [Uw Ud].
  (* who else has this id *)
  assert (Other : forall k m, nth_error (w_dom w) k = Some m -> n_in_document m = true ->
            ~ In (c_id c) (page_ids page) ->
            existsb (is_elem (c_id c)) (n_children m) = true ->
            c_hydrated c = false /\ place (w_mgrs w) c = Some k
            /\ reachable_node page k = true).
  { intros k m Hm Dm Np X.
    destruct (elem_origin _ _ _ _ _ _ Id Hm Np X) as (j & d & Hj & Ed & Sd).
    apply shown_inv in Sd as (_ & Pd & Hd & _).
    destruct (Nat.eq_dec j cid) as [->|Ne].
    - rewrite E in Hj. injection Hj as <-. repeat split; auto.
      destruct Id as [_ Id2]. destruct (Id2 _ _ Hm) as (n0 & A & B & _).
      unfold reachable_node. rewrite A. congruence.
    - exfalso. destruct Ii as [_ Ii]. apply (Ii j cid d c Hj E Ne Hd Ed). }
  assert (Sh : forall k, shown e page (w_mgrs w) k c = true -> place (w_mgrs w) c = Some k).
  { intros k Hs. now apply shown_inv in Hs. }
  assert (Sh0 : forall k, reachable_node page k = true ->
            shown e page (w_mgrs w) k (set_strong 0 c) = false).
  { intros k Hk. unfold shown, stuck. cbn [set_strong c_strong c_id]. rewrite Hk, Ud, Up.
    cbn. now rewrite andb_false_r. }
  (* no element is removed *)
  assert (None_removed : (forall k, place (w_mgrs w) c = Some k -> reachable_node page k = false) ->
     remove_first (c_id c) (w_dom w) = w_dom w \/ In (c_id c) (page_ids page) ->
     dom_ok e page
       (with_dom (with_contents w (upd (w_contents w) cid (set_strong 0)))
          (remove_first (c_id c) (w_dom w)))).
  { intros Hp Hr.
    assert (Keep : forall k,
       map elem (filter (shown e page (w_mgrs w) k) (upd (w_contents w) cid (set_strong 0)))
       = map elem (filter (shown e page (w_mgrs w) k) (w_contents w))).
    { intros k. apply (filter_upd_same _ _ _ _ c E); [|reflexivity].
      unfold shown. cbn [set_strong c_strong c_id].
      replace (place (w_mgrs w) (set_strong 0 c)) with (place (w_mgrs w) c) by reflexivity.
      destruct (place (w_mgrs w) c) as [k'|] eqn:Pc; [|now rewrite andb_false_r].
      destruct (Nat.eqb_spec k' k) as [->|]; [|now rewrite andb_false_r].
      unfold stuck. rewrite (Hp k eq_refl). cbn. now rewrite !orb_true_r. }
    destruct Id as [Id1 Id2]. destruct Hr as [Hr|Hr].
    - rewrite Hr. split; [exact Id1|]. cbn. intros k m Hm.
      destruct (Id2 _ _ Hm) as (n0 & A & B & C & D). exists n0. repeat split; auto.
      now rewrite Keep.
    - assert (Oid : forall t, own page (EStyle (c_id c) t) = false).
      { intros t. destruct (own page (EStyle (c_id c) t)) eqn:O; [|reflexivity].
        apply own_in in O. contradiction. }
      destruct (remove_first_cases (c_id c) (w_dom w)) as [R|(k0 & m0 & R1 & R2 & R3 & R)];
        rewrite R; cbn.
      + split; [exact Id1|]. intros k m Hm.
        destruct (Id2 _ _ Hm) as (n0 & A & B & C & D). exists n0. repeat split; auto.
        now cbn; rewrite Keep.
      + split; [now cbn; rewrite upd_length|]. cbn. intros k m Hm. rewrite nth_upd in Hm.
        destruct (Nat.eqb_spec k0 k) as [->|].
        * rewrite R1 in Hm. injection Hm as <-. destruct (Id2 _ _ R1) as (n0 & A & B & C & D).
          exists n0. cbn. repeat split; auto. rewrite remove_child_filter_out by exact Oid.
          now rewrite D, Keep.
        * destruct (Id2 _ _ Hm) as (n0 & A & B & C & D). exists n0. repeat split; auto.
          now rewrite Keep. }
  destruct (c_hydrated c) eqn:Hh.
  { apply None_removed.
    - intros k Hp. unfold place in Hp. rewrite Hh in Hp. discriminate.
    - destruct (in_dec str_eq_dec (c_id c) (page_ids page)) as [Ip|Np]; [now right|left].
      apply remove_first_none. intros m Im Dm. apply In_nth_error in Im as [k Hk].
      destruct (existsb (is_elem (c_id c)) (n_children m)) eqn:X; [|reflexivity].
      destruct (Other _ _ Hk Dm Np X). discriminate. }
  assert (Np : ~ In (c_id c) (page_ids page)) by (apply (created_not_page w cid); auto).
  destruct (place (w_mgrs w) c) as [k0|] eqn:Pl.
  2:{ apply None_removed; [discriminate|left].
      apply remove_first_none. intros m Im Dm. apply In_nth_error in Im as [k Hk].
      destruct (existsb (is_elem (c_id c)) (n_children m)) eqn:X; [|reflexivity].
      destruct (Other _ _ Hk Dm Np X) as (_ & ? & _). discriminate. }
  destruct (reachable_node page k0) eqn:Rk.
  2:{ apply None_removed; [now intros k [= <-]|left].
      apply remove_first_none. intros m Im Dm. apply In_nth_error in Im as [k Hk].
      destruct (existsb (is_elem (c_id c)) (n_children m)) eqn:X; [|reflexivity].
      destruct (Other _ _ Hk Dm Np X) as (_ & [= ->] & ?). congruence. }
  clear None_removed.
  assert (Sc : shown e page (w_mgrs w) k0 c = true).
  { unfold shown. rewrite Pl, Nat.eqb_refl, Uw, S. reflexivity. }
  destruct (upd_split _ _ (set_strong 0) _ E) as (a & b & Eab & La & Uab).
  pose proof Id as [Id1 Id2].
  destruct (remove_first_cases (c_id c) (w_dom w)) as [R|(k1 & m1 & R1 & R2 & R3 & R)].
  { exfalso.
    assert (Hk0 : exists m, nth_error (w_dom w) k0 = Some m).
    { destruct (nth_error (w_dom w) k0) eqn:Z; [eauto|]. apply nth_error_None in Z.
      unfold reachable_node in Rk. destruct (nth_error page k0) eqn:Y; [|discriminate].
      apply nth_lt in Y. lia. }
    destruct Hk0 as [m Hm]. destruct (Id2 _ _ Hm) as (n0 & A & B & C & D).
    assert (X : In (elem c) (n_children m)).
    { assert (In (elem c) (filter (own page) (n_children m))).
      { rewrite D. apply in_map. apply filter_In. split; [|exact Sc]. eapply nth_error_In; eauto. }
      now apply filter_In in H. }
    assert (T : texts_of (c_id c) (w_dom w) <> []).
    { intros Z. unfold texts_of in Z.
      assert (In (c_text c) []); [|contradiction]. rewrite <- Z. apply in_flat_map. exists m.
      split; [eapply nth_error_In; eauto|].
      unfold reachable_node in Rk. rewrite A in Rk. rewrite B, Rk.
      apply in_flat_map. exists (elem c). split; [exact X|]. cbn.
      rewrite str_eqb_refl. now left. }
    apply T. pose proof (texts_of_remove_same (c_id c) (w_dom w)) as Z. rewrite R in Z.
    apply (f_equal (@List.length _)) in Z. destruct (texts_of (c_id c) (w_dom w)); [reflexivity|].
    cbn in Z. lia. }
  destruct (Other _ _ R1 R2 Np R3) as (_ & [= ->] & _).
  rewrite R. cbn. split; [now cbn; rewrite upd_length|]. cbn. intros k m Hm.
  rewrite nth_upd in Hm. rewrite Uab. destruct (Nat.eqb_spec k1 k) as [<-|Nk].
  - rewrite R1 in Hm. injection Hm as <-. destruct (Id2 _ _ R1) as (n0 & A & B & C & D).
    exists n0. cbn. repeat split; auto.
    rewrite remove_child_filter by (intros t; now apply own_in).
    rewrite D, Eab, !filter_app. cbn [filter]. rewrite Sc, (Sh0 k1 Rk), !map_app. cbn [map].
    apply remove_child_mid; [|cbn; apply str_eqb_refl].
    match goal with |- ?x = false => destruct x eqn:X; [exfalso|reflexivity] end.
    apply existsb_exists in X as (y & Iy & Ey). apply in_map_iff in Iy as (d & <- & Idd).
    apply filter_In in Idd as [Idd Sd]. cbn in Ey. apply str_eqb_eq in Ey.
    apply In_nth_error in Idd as [j Hj].
    assert (Hj' : nth_error (w_contents w) j = Some d).
    { rewrite Eab. rewrite nth_error_app1; [exact Hj|]. now apply nth_lt in Hj. }
    destruct Ii as [_ Ii]. apply (Ii j cid d c Hj' E); auto.
    + apply nth_lt in Hj. lia.
    + now apply shown_inv in Sd.
  - destruct (Id2 _ _ Hm) as (n0 & A & B & C & D). exists n0. repeat split; auto.
    rewrite D, Eab, !filter_app. cbn [filter].
    assert (shown e page (w_mgrs w) k c = false) as ->.
    { destruct (shown e page (w_mgrs w) k c) eqn:Z; [|reflexivity]. apply Sh in Z. congruence. }
    assert (shown e page (w_mgrs w) k (set_strong 0 c) = false) as ->; [|reflexivity].
    destruct (shown e page (w_mgrs w) k (set_strong 0 c)) eqn:Z; [|reflexivity].
    apply shown_inv in Z as (_ & Z & _). change (place (w_mgrs w) c = Some k) in Z. congruence.
Qed.

Lemma skipn_tl {A} n (l : list A) : skipn (S n) l = tl (skipn n l).
Proof.
  revert l. induction n as [|n IH]; intros [|x l]; try reflexivity.
  change (skipn (S n) l = tl (skipn n l)). apply IH.
Qed.

Lemma gone_upd id l i c n :
  nth_error l i = Some c -> c_strong c = S n ->
  gone e id (upd l i (set_strong n))
  = (if c_hydrated c && str_eqb (c_id c) id && Nat.eqb n 0
        && (e_wasm e && e_document e && plain_ident id) then 1 else 0) + gone e id l.
Proof.
  intros E S. unfold gone. destruct (e_wasm e && e_document e && plain_ident id).
  2:{ now rewrite andb_false_r. }
  rewrite andb_true_r.
  destruct (upd_split _ _ (set_strong n) _ E) as (a & b & -> & _ & ->).
  rewrite !filter_app, !app_length. cbn [filter set_strong c_hydrated c_id c_strong].
  rewrite S. cbn [Nat.eqb]. rewrite andb_false_r.
  destruct (c_hydrated c && str_eqb (c_id c) id && Nat.eqb n 0); cbn [List.length]; lia.
Qed.

Lemma release_page cid extra w :
  inv e page loaded (cid :: extra) w -> w_draws w <= N -> page_ok e page (release e cid w).
Proof.
  intros I L. destruct I as [Ic _ _ _ Ii _ _ Ip].
  assert (P : strong_of (w_contents w) cid >= 1).
  { rewrite Ic, cnt_cons, Nat.eqb_refl. lia. }
  unfold strong_of in P. unfold release.
  destruct (nth_error (w_contents w) cid) as [c|] eqn:E; [|exact Ip]. cbv zeta.
  destruct (c_strong c) as [|n] eqn:S; [lia|]. cbn [Nat.pred Nat.eqb negb]. rewrite andb_true_r.
  intros id Iid. specialize (Ip id Iid).
  destruct (Nat.eqb_spec n 0) as [->|Hn]; cbn [w_dom w_contents with_dom with_contents].
  - rewrite (gone_upd id _ _ _ _ E S). cbn [Nat.eqb]. rewrite andb_true_r. unfold unmount.
    destruct (str_eqb (c_id c) id) eqn:Q.
    + apply str_eqb_eq in Q. subst id.
      assert (Hh : c_hydrated c = true).
      { destruct (c_hydrated c) eqn:Hh; [reflexivity|]. exfalso.
        now apply (created_not_page w cid c). }
      rewrite Hh. cbn [andb]. destruct (_ && plain_ident (c_id c)); [|exact Ip].
      cbn [Nat.add]. now rewrite skipn_tl, texts_of_remove_same, Ip.
    + rewrite andb_false_r. cbn [andb Nat.add].
      destruct (_ && plain_ident (c_id c)); [|exact Ip].
      rewrite texts_of_remove_other by now apply str_eqb_neq. exact Ip.
  - rewrite (gone_upd id _ _ _ _ E S). apply Nat.eqb_neq in Hn. rewrite Hn, andb_false_r.
    exact Ip.
Qed.

Lemma release_inv cid extra w :
  inv e page loaded (cid :: extra) w -> w_draws w <= N ->
  inv e page loaded extra (release e cid w).
Proof.
  intros I L. destruct (release_frame e cid w) as (F1 & F2 & F3 & F4 & F5).
  split.
  - apply release_counted, I.
  - intros mi. rewrite F2, F4. apply (i_mcounted _ _ _ _ _ I).
  - apply (base_reg_ok w); auto. apply (i_reg _ _ _ _ _ I).
  - apply (base_content_ok w); auto. apply (i_content _ _ _ _ _ I).
  - apply (base_ids_ok _ _ w); auto; [lia|]. apply (i_ids _ _ _ _ _ I).
  - apply (base_data_ok w); auto. apply (i_data _ _ _ _ _ I).
  - now apply (release_dom _ extra).
  - now apply (release_page _ extra).
Qed.

Lemma release_all_inv l extra w :
  inv e page loaded (l ++ extra) w -> w_draws w <= N ->
  inv e page loaded extra (release_all e l w) .
Proof.
  revert w. induction l as [|cid l IH]; intros w I L; [exact I|].
  cbn [release_all fold_left]. apply IH.
  - now apply release_inv.
  - destruct (release_frame e cid w) as (-> & _). exact L.
Qed.

Lemma release_all_frame l w :
  let w' := release_all e l w in
  w_draws w' = w_draws w /\ w_mgrs w' = w_mgrs w /\ w_handles w' = w_handles w
  /\ w_mhandles w' = w_mhandles w /\ map base (w_contents w') = map base (w_contents w).
Proof.
  revert w. induction l as [|cid l IH]; intros w; [now cbn|].
  cbn [release_all fold_left]. specialize (IH (release e cid w)).
  destruct (release_frame e cid w) as (F1 & F2 & F3 & F4 & F5).
  cbv zeta in *. unfold release_all in IH. rewrite F1, F2, F3, F4, F5 in IH. exact IH.
Qed.
End Preserve.
