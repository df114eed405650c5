(** * PropsSerde: ownership is invisible (C34); data survives serialization (C33, C53). *)

From Coq Require Import String Ascii List NArith Bool Arith Lia Permutation.
From Verif Require Import Str StrFacts Ast Manager ManagerFacts StaticData Owned Serde SpecSerde.
Import ListNotations.
Local Open Scope list_scope.

(** ** Lists *)

Section Lists.
  Context {A B : Type} (f : A -> B).

  Lemma slice_eqb_map (e : A -> A -> bool) : forall a b,
    Forall (fun x => forall y, e x y = true <-> f x = f y) a ->
    (slice_eqb e a b = true <-> map f a = map f b).
  Proof.
    induction a as [|x a IH]; intros [|y b] H; cbn; split; intros E; try easy.
    - inversion H as [|? ? Hx Ha]; subst. apply andb_prop in E as [E1 E2].
      apply Hx in E1. apply (IH _ Ha) in E2. congruence.
    - inversion H as [|? ? Hx Ha]; subst. injection E as E1 E2.
      apply Hx in E1. apply (IH _ Ha) in E2. now rewrite E1, E2.
  Qed.


  Lemma map_map_eq {C} (g : A -> C) : forall a b,
    Forall (fun x => forall y, f x = f y -> g x = g y) a ->
    map f a = map f b -> map g a = map g b.
  Proof.
    induction a as [|x a IH]; intros [|y b] H E; try easy. inversion H as [|? ? Hx Ha]; subst.
    injection E as E1 E2. cbn. f_equal; auto.
  Qed.

  Lemma slice_toks_map (g : A -> list tok) : forall a b,
    Forall (fun x => forall y, f x = f y -> g x = g y) a ->
    map f a = map f b -> slice_toks g a = slice_toks g b.
  Proof.
    intros a b H E. unfold slice_toks. f_equal.
    - f_equal. apply (f_equal (@List.length B)) in E. now rewrite !map_length in E.
    - rewrite !flat_map_concat_map. f_equal. now apply map_map_eq.
  Qed.
End Lists.

Lemma Forall_any {A} (P : A -> Prop) l : (forall x, P x) -> Forall P l.
Proof. intros H. induction l; auto. Qed.
#[local] Hint Resolve Forall_any : core.

(** ** C34: equality *)

Lemma cow_str_eqb a b : cow_eqb str_eqb a b = true <-> cderef a = cderef b.
Proof. unfold cow_eqb. apply str_eqb_eq. Qed.

Lemma ofrag_eqb_eq a b : ofrag_eqb a b = true <-> erase_frag a = erase_frag b.
Proof. apply cow_str_eqb. Qed.

Lemma ofrags_eqb_eq a b : ofrags_eqb a b = true <-> erase_frags a = erase_frags b.
Proof. apply slice_eqb_map. apply Forall_any. intros x y. apply ofrag_eqb_eq. Qed.

Lemma oselectors_eqb_eq a b :
  cow_eqb (slice_eqb oselector_eqb) a b = true
  <-> map erase_selector (cderef a) = map erase_selector (cderef b).
Proof. apply slice_eqb_map. apply Forall_any. intros x y. apply ofrags_eqb_eq. Qed.

Lemma orbc_eqb_eq : forall a b, orbc_eqb a b = true <-> erase_rbc a = erase_rbc b.
Proof.
  apply (orbc_ind2 (fun a => forall b, orbc_eqb a b = true <-> erase_rbc a = erase_rbc b)
          (fun l => Forall (fun a => forall b, orbc_eqb a b = true <-> erase_rbc a = erase_rbc b) l)).
  - intros a [b|r|r]; cbn.
    + unfold oattr_eqb. rewrite andb_true_iff, cow_str_eqb, ofrags_eqb_eq.
      unfold erase_attr. split; [intros [-> ->]; reflexivity|intros E; injection E; auto].
    + destruct (deref r). easy.
    + destruct (deref r). easy.
  - intros r IH [b|s|s]; cbn; unfold bow_eqb; destruct (deref r) as [c l]; [easy| |destruct (deref s); easy].
    destruct (deref s) as [d m]. rewrite andb_true_iff, ofrags_eqb_eq.
    change (cderef (orule_content (mk_orule c l))) with (cderef l) in IH.
    unfold cow_eqb. rewrite (slice_eqb_map erase_rbc orbc_eqb _ (cderef m) IH).
    split; [intros [-> ->]; reflexivity|intros E; injection E; auto].
  - intros r IH [b|s|s]; cbn; unfold bow_eqb; destruct (deref r) as [c l]; [easy|destruct (deref s); easy|].
    destruct (deref s) as [d m]. rewrite andb_true_iff, oselectors_eqb_eq.
    change (cderef (oblock_content (mk_oblock c l))) with (cderef l) in IH.
    unfold cow_eqb. rewrite (slice_eqb_map erase_rbc orbc_eqb _ (cderef m) IH).
    split; [intros [-> ->]; reflexivity|intros E; injection E; auto].
  - constructor.
  - intros c l Hc Hl. now constructor.
Qed.

Lemma oscope_eqb_eq a b : oscope_eqb a b = true <-> erase_scope a = erase_scope b.
Proof.
  assert (R : forall l m, cow_eqb (slice_eqb orbc_eqb) l m = true
            <-> map erase_rbc (cderef l) = map erase_rbc (cderef m)).
  { intros l m. apply slice_eqb_map. apply Forall_any. exact orbc_eqb_eq. }
  destruct a as [[c l]|[c l]], b as [[d m]|[d m]]; cbn; try easy;
    rewrite andb_true_iff, R, ?oselectors_eqb_eq, ?ofrags_eqb_eq;
    (split; [intros [-> ->]; reflexivity|intros E; injection E; auto]).
Qed.

(** Two sheets are equal exactly when they hold the same data, whoever owns which part. *)
Theorem equality_ignores_ownership : forall a b : osheet,
  osheet_eqb a b = true <-> erase_sheet a = erase_sheet b.
Proof.
  intros a b. unfold osheet_eqb, cow_eqb, erase_sheet. apply slice_eqb_map. apply Forall_any.
  exact oscope_eqb_eq.
Qed.
Print Assumptions equality_ignores_ownership.

(** The same for keys, so that registries may look at the data only (as [Manager.v] does). *)
Theorem key_equality_ignores_ownership : forall a b : okey,
  okey_eqb a b = key_eqb (erase_key a) (erase_key b).
Proof.
  intros a b. apply eq_true_iff_eq. unfold okey_eqb.
  rewrite key_eqb_eq, !andb_true_iff, cow_str_eqb, equality_ignores_ownership, eqb_true_iff.
  unfold erase_key. split; [intros [[-> ->] ->]; reflexivity|intros E; injection E; auto].
Qed.
Print Assumptions key_equality_ignores_ownership.

(** ** C34: cloning *)

Lemma cow_clone_id {A} (f : A -> A) (b : cow A) : (forall a, f a = a) -> cow_clone f b = b.
Proof. intros H. destruct b; cbn; now rewrite ?H. Qed.

Lemma map_same {A} (f : A -> A) l : Forall (fun a => f a = a) l -> map f l = l.
Proof. induction 1 as [|x l E _ IH]; cbn; congruence. Qed.

Lemma ofrags_clone_id l : ofrags_clone l = l.
Proof.
  apply cow_clone_id. intros x. apply map_same, Forall_any. intros [i]. unfold ofrag_clone. cbn.
  now rewrite cow_clone_id.
Qed.

Theorem clone_keeps_ownership_and_data : forall c : orbc, orbc_clone c = c.
Proof.
  apply (orbc_ind2 (fun c => orbc_clone c = c) (fun l => Forall (fun c => orbc_clone c = c) l)).
  - intros [k v]. cbn. unfold oattr_clone. cbn. rewrite ofrags_clone_id. now rewrite cow_clone_id.
  - intros [r|[c l]] IH; [reflexivity|]. cbn in *. rewrite ofrags_clone_id.
    destruct l as [l|l]; cbn in *; now rewrite ?(map_same _ _ IH).
  - intros [r|[c l]] IH; [reflexivity|]. cbn in *.
    rewrite (cow_clone_id (map oselector_clone) c).
    + destruct l as [l|l]; cbn in *; now rewrite ?(map_same _ _ IH).
    + intros x. apply map_same, Forall_any. intros [s]. unfold oselector_clone. cbn.
      now rewrite ofrags_clone_id.
  - constructor.
  - intros c l Hc Hl. now constructor.
Qed.
Print Assumptions clone_keeps_ownership_and_data.

(** ** C34: hashing and serializing *)

Local Arguments slice_toks : simpl never.
Local Arguments ofrags_toks : simpl never.
Local Arguments erase_frags : simpl never.
Local Arguments jfrags : simpl never.

Lemma ofrags_toks_erase a b : erase_frags a = erase_frags b -> ofrags_toks a = ofrags_toks b.
Proof.
  intros E. apply (slice_toks_map erase_frag); [|exact E]. apply Forall_any.
  intros x y H. unfold ofrag_toks, erase_frag in *. now rewrite H.
Qed.

Lemma oselectors_toks_erase (a b : list oselector) :
  map erase_selector a = map erase_selector b -> slice_toks oselector_toks a = slice_toks oselector_toks b.
Proof.
  intros E. apply (slice_toks_map erase_selector); [|exact E]. apply Forall_any.
  intros x y H. now apply ofrags_toks_erase.
Qed.

Lemma orbc_toks_erase : forall a b, erase_rbc a = erase_rbc b -> orbc_toks a = orbc_toks b.
Proof.
  apply (orbc_ind2 (fun a => forall b, erase_rbc a = erase_rbc b -> orbc_toks a = orbc_toks b)
          (fun l => Forall (fun a => forall b, erase_rbc a = erase_rbc b -> orbc_toks a = orbc_toks b) l)).
  - intros a [b|r|r]; cbn; try destruct (deref r); try easy. intros E. injection E as E1 E2.
    unfold oattr_toks. now rewrite E1, (ofrags_toks_erase _ _ E2).
  - intros r IH [b|s|s]; cbn; unfold bow_eqb; destruct (deref r) as [c l]; [easy| |destruct (deref s); easy].
    destruct (deref s) as [d m]. intros E. injection E as E1 E2.
    now rewrite (ofrags_toks_erase _ _ E1), (slice_toks_map erase_rbc orbc_toks (cderef l) _ IH E2).
  - intros r IH [b|s|s]; cbn; unfold bow_eqb; destruct (deref r) as [c l]; [easy|destruct (deref s); easy|].
    destruct (deref s) as [d m]. intros E. injection E as E1 E2.
    now rewrite (oselectors_toks_erase _ _ E1), (slice_toks_map erase_rbc orbc_toks (cderef l) _ IH E2).
  - constructor.
  - intros c l Hc Hl. now constructor.
Qed.

Lemma orbcs_toks_erase (a b : list orbc) :
  map erase_rbc a = map erase_rbc b -> slice_toks orbc_toks a = slice_toks orbc_toks b.
Proof. apply slice_toks_map, Forall_any, orbc_toks_erase. Qed.

Lemma oscope_toks_erase a b : erase_scope a = erase_scope b -> oscope_toks a = oscope_toks b.
Proof.
  destruct a as [[c l]|[c l]], b as [[d m]|[d m]]; cbn; try easy; intros E; injection E as E1 E2;
    rewrite (orbcs_toks_erase _ _ E2);
    [now rewrite (oselectors_toks_erase _ _ E1)|now rewrite (ofrags_toks_erase _ _ E1)].
Qed.

Lemma osheet_toks_erase a b : erase_sheet a = erase_sheet b -> osheet_toks a = osheet_toks b.
Proof. apply slice_toks_map, Forall_any, oscope_toks_erase. Qed.

Lemma okey_toks_erase a b : erase_key a = erase_key b -> okey_toks a = okey_toks b.
Proof.
  unfold erase_key, okey_toks. intros E. injection E as -> -> E.
  now rewrite (osheet_toks_erase _ _ E).
Qed.

Lemma ofrags_json_erase a b : erase_frags a = erase_frags b -> jfrags a = jfrags b.
Proof.
  intros E. unfold jfrags. f_equal. apply (map_map_eq erase_frag); [|exact E]. apply Forall_any.
  intros x y H. unfold jfrag, erase_frag in *. now rewrite H.
Qed.
Lemma oselectors_json_erase (a b : list oselector) :
  map erase_selector a = map erase_selector b -> map jselector a = map jselector b.
Proof.
  intros E. apply (map_map_eq erase_selector); [|exact E]. apply Forall_any.
  intros x y H. unfold jselector. now rewrite (ofrags_json_erase _ _ H).
Qed.
Lemma orbc_json_erase : forall a b, erase_rbc a = erase_rbc b -> jrbc a = jrbc b.
Proof.
  apply (orbc_ind2 (fun a => forall b, erase_rbc a = erase_rbc b -> jrbc a = jrbc b)
          (fun l => Forall (fun a => forall b, erase_rbc a = erase_rbc b -> jrbc a = jrbc b) l)).
  - intros a [b|r|r]; cbn; try destruct (deref r); try easy. intros E. injection E as E1 E2.
    unfold jattr. now rewrite E1, (ofrags_json_erase _ _ E2).
  - intros r IH [b|s|s]; cbn; unfold bow_eqb; destruct (deref r) as [c l]; [easy| |destruct (deref s); easy].
    destruct (deref s) as [d m]. intros E. injection E as E1 E2.
    now rewrite (ofrags_json_erase _ _ E1), (map_map_eq erase_rbc jrbc (cderef l) _ IH E2).
  - intros r IH [b|s|s]; cbn; unfold bow_eqb; destruct (deref r) as [c l]; [easy|destruct (deref s); easy|].
    destruct (deref s) as [d m]. intros E. injection E as E1 E2.
    now rewrite (oselectors_json_erase _ _ E1), (map_map_eq erase_rbc jrbc (cderef l) _ IH E2).
  - constructor.
  - intros c l Hc Hl. now constructor.
Qed.
Lemma oscope_json_erase a b : erase_scope a = erase_scope b -> jscope a = jscope b.
Proof.
  destruct a as [[c l]|[c l]], b as [[d m]|[d m]]; cbn; try easy; intros E; injection E as E1 E2;
    rewrite (map_map_eq erase_rbc jrbc _ _ (Forall_any _ _ orbc_json_erase) E2);
    [now rewrite (oselectors_json_erase _ _ E1)|now rewrite (ofrags_json_erase _ _ E1)].
Qed.

(** ** Reading tokens back *)

Definition reads {A B} (E : A -> B) (f : list tok -> tres A) (g : A -> list tok) (a : A) : Prop :=
  forall rest, exists a', f (g a ++ rest) = TOk a' rest /\ E a' = E a.

Lemma read_n_ok {A B} (E : A -> B) f g l :
  Forall (reads E f g) l ->
  forall rest, exists l', read_n f (List.length l) (flat_map g l ++ rest) = TOk l' rest /\ map E l' = map E l.
Proof.
  induction 1 as [|a l Ha _ IH]; intros rest; [now exists []|]. cbn [flat_map List.length read_n].
  rewrite <- app_assoc. destruct (Ha (flat_map g l ++ rest)) as (a' & -> & E1). cbn [tbind].
  destruct (IH rest) as (l' & E2 & E3). rewrite E2. cbn [tbind]. exists (a' :: l'). cbn. split; congruence.
Qed.

Lemma read_cow_ok {A B} (E : A -> B) f g (l : list A) :
  Forall (reads E f g) l ->
  forall rest, exists l', read_cow f (slice_toks g l ++ rest) = TOk l' rest
    /\ map E (cderef l') = map E l.
Proof.
  intros H rest. destruct (read_n_ok E f g l H rest) as (l' & E1 & E2).
  exists (CowOwned l'). unfold read_cow, read_vec, slice_toks. cbn [app]. rewrite E1. now split.
Qed.

Lemma frags_ok l rest : exists l', read_cow read_frag (ofrags_toks l ++ rest) = TOk l' rest
  /\ erase_frags l' = erase_frags l.
Proof.
  apply (read_cow_ok erase_frag). apply Forall_any. intros a r. eexists. now split.
Qed.

Lemma selectors_ok (l : list oselector) rest :
  exists l', read_cow read_selector (slice_toks oselector_toks l ++ rest) = TOk l' rest
  /\ map erase_selector (cderef l') = map erase_selector l.
Proof.
  apply (read_cow_ok erase_selector). apply Forall_any. intros a r.
  destruct (frags_ok (o_fragments a) r) as (l' & E1 & E2). eexists. unfold read_selector, oselector_toks.
  rewrite E1. now split.
Qed.

Lemma rule_ok f c l :
  Forall (reads erase_rbc f orbc_toks) (cderef l) ->
  forall rest, exists c' l',
    read_rule_with f (ofrags_toks c ++ slice_toks orbc_toks (cderef l) ++ rest)
    = TOk (mk_orule c' l') rest
    /\ erase_frags c' = erase_frags c /\ map erase_rbc (cderef l') = map erase_rbc (cderef l).
Proof.
  intros H rest. unfold read_rule_with.
  destruct (frags_ok c (slice_toks orbc_toks (cderef l) ++ rest)) as (c' & -> & E1). cbn [tbind].
  destruct (read_cow_ok erase_rbc f orbc_toks (cderef l) H rest) as (l' & -> & E2). cbn [tbind].
  exists c', l'. auto.
Qed.
Lemma block_ok f c l :
  Forall (reads erase_rbc f orbc_toks) (cderef l) ->
  forall rest, exists c' l',
    read_block_with f (slice_toks oselector_toks (cderef c) ++ slice_toks orbc_toks (cderef l) ++ rest)
    = TOk (mk_oblock c' l') rest
    /\ map erase_selector (cderef c') = map erase_selector (cderef c)
    /\ map erase_rbc (cderef l') = map erase_rbc (cderef l).
Proof.
  intros H rest. unfold read_block_with.
  destruct (selectors_ok (cderef c) (slice_toks orbc_toks (cderef l) ++ rest)) as (c' & -> & E1). cbn [tbind].
  destruct (read_cow_ok erase_rbc f orbc_toks (cderef l) H rest) as (l' & -> & E2). cbn [tbind].
  exists c', l'. auto.
Qed.

Lemma rbc_ok : forall c fuel, List.length (orbc_toks c) <= fuel ->
  reads erase_rbc (read_rbc fuel) orbc_toks c.
Proof.
  apply (orbc_ind2
    (fun c => forall fuel, List.length (orbc_toks c) <= fuel ->
              reads erase_rbc (read_rbc fuel) orbc_toks c)
    (fun l => forall fuel, List.length (flat_map orbc_toks l) <= fuel ->
              Forall (reads erase_rbc (read_rbc fuel) orbc_toks) l)).
  - intros a [|fuel] L rest; [cbn in L; lia|]. cbn [orbc_toks app read_rbc]. unfold read_attr, oattr_toks.
    cbn [app read_cow_str read_str tbind].
    destruct (frags_ok (o_value a) rest) as (l' & -> & E). cbn [tbind]. eexists. split; [reflexivity|].
    cbn. unfold erase_attr. cbn. now rewrite E.
  - intros r IH [|fuel] L rest; cbn [orbc_toks] in *; destruct (deref r) as [c l] eqn:Er; [cbn in L; lia|].
    cbn [app read_rbc]. rewrite <- app_assoc. cbn [orule_content] in IH.
    assert (H : Forall (reads erase_rbc (read_rbc fuel) orbc_toks) (cderef l)).
    { apply IH. unfold slice_toks in L. cbn in L. rewrite app_length in L. cbn in L. lia. }
    destruct (rule_ok (read_rbc fuel) c l H rest) as (c' & l' & -> & E1 & E2). cbn [tbind].
    eexists. split; [reflexivity|]. cbn. rewrite Er. now rewrite E1, E2.
  - intros r IH [|fuel] L rest; cbn [orbc_toks] in *; destruct (deref r) as [c l] eqn:Er; [cbn in L; lia|].
    cbn [app read_rbc]. rewrite <- app_assoc. cbn [oblock_content] in IH.
    assert (H : Forall (reads erase_rbc (read_rbc fuel) orbc_toks) (cderef l)).
    { apply IH. unfold slice_toks in L. cbn in L. rewrite app_length in L. cbn in L. lia. }
    destruct (block_ok (read_rbc fuel) c l H rest) as (c' & l' & -> & E1 & E2). cbn [tbind].
    eexists. split; [reflexivity|]. cbn. rewrite Er. now rewrite E1, E2.
  - constructor.
  - intros c l Hc Hl fuel L. cbn in L. rewrite app_length in L. constructor; [apply Hc|apply Hl]; lia.
Qed.

Lemma rbcs_ok l : forall fuel, List.length (flat_map orbc_toks l) <= fuel ->
  Forall (reads erase_rbc (read_rbc fuel) orbc_toks) l.
Proof.
  induction l as [|c l IH]; intros fuel L; constructor; cbn in L; rewrite app_length in L.
  - apply rbc_ok. lia.
  - apply IH. lia.
Qed.

Lemma scope_ok c fuel : List.length (oscope_toks c) <= fuel ->
  reads erase_scope (read_scope fuel) oscope_toks c.
Proof.
  destruct c as [[c l]|[c l]]; cbn [oscope_toks]; intros L rest; cbn [oscope_toks app read_scope];
    rewrite <- app_assoc;
    (assert (H : Forall (reads erase_rbc (read_rbc fuel) orbc_toks) (cderef l));
     [apply rbcs_ok; unfold slice_toks in L; cbn in L; rewrite app_length in L; cbn in L; lia|]).
  - destruct (block_ok (read_rbc fuel) c l H rest) as (c' & l' & -> & E1 & E2). cbn [tbind].
    eexists. split; [reflexivity|]. cbn. now rewrite E1, E2.
  - destruct (rule_ok (read_rbc fuel) c l H rest) as (c' & l' & -> & E1 & E2). cbn [tbind].
    eexists. split; [reflexivity|]. cbn. now rewrite E1, E2.
Qed.

Lemma sheet_ok s fuel : List.length (osheet_toks s) <= fuel ->
  reads erase_sheet (read_sheet fuel) osheet_toks s.
Proof.
  intros L. unfold read_sheet, osheet_toks, erase_sheet. intros rest. apply (read_cow_ok erase_scope).
  unfold osheet_toks, slice_toks in L. cbn in L. induction (cderef s) as [|c l IH]; constructor;
    cbn in L; rewrite app_length in L.
  - apply scope_ok. lia.
  - apply IH. lia.
Qed.

(** C33: a sheet written to and read from a binary format, with anything after it. *)
Theorem sheet_binary_round_trip : forall (s : osheet) (rest : list tok),
  exists s', sheet_of_toks (osheet_toks s ++ rest) = TOk s' rest /\ erase_sheet s' = erase_sheet s.
Proof. intros s rest. apply sheet_ok. rewrite app_length. lia. Qed.
Print Assumptions sheet_binary_round_trip.

Lemma key_ok k fuel : List.length (okey_toks k) <= fuel -> reads erase_key (read_key fuel) okey_toks k.
Proof.
  intros L rest. unfold okey_toks in *. cbn [app]. unfold read_key. cbn [read_bool tbind read_cow_str read_str].
  destruct (sheet_ok (ok_ast k) fuel ltac:(cbn in L; lia) rest) as (s' & -> & E). cbn [tbind].
  eexists. split; [reflexivity|]. unfold erase_key. cbn. now rewrite E.
Qed.

(** What is left of a record once sent and received. *)
Definition without_text (r : record) : record := mk_record (r_key r) (r_id r) [].

Theorem data_binary_round_trip : forall (d : odata) (rest : list tok),
  exists d', Serde.read_data (odata_toks d ++ rest) = TOk d' rest
    /\ map erase_record d' = map without_text (map erase_record d).
Proof.
  intros d rest. unfold Serde.read_data.
  set (fuel := S (List.length (odata_toks d ++ rest))).
  assert (L : List.length (odata_toks d) <= fuel) by (unfold fuel; rewrite app_length; lia).
  clearbody fuel. unfold odata_toks, slice_toks, read_vec in *. cbn [app].
  revert rest L. cbn [List.length]. rewrite map_map.
  set (E := fun r => mk_record (erase_key (or_key r)) (or_id r) []).
  intros rest L.
  assert (F : Forall (reads E (read_record fuel) orecord_toks) d).
  { apply Nat.lt_le_incl in L. clear rest. induction d as [|r d IH]; constructor;
      cbn [flat_map] in L; rewrite app_length in L.
    - intros rest. unfold read_record, orecord_toks in *. rewrite app_length in L. rewrite <- app_assoc.
      assert (Lk : List.length (okey_toks (or_key r)) <= fuel) by (cbn [List.length] in L; lia).
      destruct (key_ok (or_key r) fuel Lk ([TStr (or_id r)] ++ rest)) as (k' & -> & E').
      cbn [tbind app read_str]. eexists. split; [reflexivity|]. unfold E. cbn. now rewrite E'.
    - apply IH. lia. }
  destruct (read_n_ok E _ _ _ F rest) as (l' & E1 & E2). exists l'. split; [exact E1|].
  assert (T : forall n l rest l' r', read_n (read_record fuel) n l = TOk l' r' ->
             rest = r' -> map E l' = map erase_record l').
  { clear. induction n as [|n IH]; intros l rest l' r' H Hr; cbn in H.
    - injection H as <- _. reflexivity.
    - unfold read_record in H at 1. destruct (read_key fuel l) as [k l1| |]; try discriminate. cbn in H.
      destruct (read_str l1) as [i l2| |]; try discriminate. cbn in H.
      destruct (read_n (read_record fuel) n l2) as [q l3| |] eqn:R; try discriminate. cbn in H.
      injection H as <- <-. cbn. f_equal. eapply IH; eauto. }
  rewrite <- (T _ _ _ _ _ E1 eq_refl). exact E2.
Qed.
Print Assumptions data_binary_round_trip.

(** Reading any token sequence ends: the recursion is bounded by its length. *)
Definition good {A} (f : list tok -> tres A) (n : nat) : Prop :=
  forall l, List.length l <= n ->
    match f l with TOk _ r => List.length r <= List.length l | TErr => True | TFuel => False end.

Lemma good_bind {A B} (f : list tok -> tres A) (g : A -> list tok -> tres B) n :
  good f n -> (forall a, good (g a) n) -> good (fun l => tbind (f l) g) n.
Proof.
  intros F G l L. specialize (F l L). destruct (f l) as [a r| |]; cbn; auto.
  specialize (G a r ltac:(lia)). destruct (g a r); auto. lia.
Qed.
Lemma good_ret {A} (a : A) n : good (TOk a) n.
Proof. intros l _. auto. Qed.
Lemma good_mono {A} (f : list tok -> tres A) n m : good f n -> m <= n -> good f m.
Proof. intros H M l L. apply H. lia. Qed.
Lemma good_cow_str n : good read_cow_str n.
Proof. intros [|[] l] _; cbn; auto. Qed.
Lemma good_n {A} (f : list tok -> tres A) n k : good f n -> good (read_n f k) n.
Proof.
  intros H. induction k as [|k IH]; [apply good_ret|]. cbn [read_n].
  apply (good_bind f). exact H. intros a. apply (good_bind (read_n f k)); [exact IH|]. intros r. apply good_ret.
Qed.
Lemma good_cow {A} (f : list tok -> tres A) n : good f n -> good (read_cow f) n.
Proof.
  intros H. apply (good_bind (read_vec f)); [|intros; apply good_ret].
  intros [|[k|k|s|b] l] L; cbn; auto. pose proof (good_n f n k H l ltac:(cbn in L; lia)) as G.
  destruct (read_n f k l); auto.
Qed.
Lemma good_frags n : good (read_cow read_frag) n.
Proof. apply good_cow. apply good_bind; [apply good_cow_str|intros; apply good_ret]. Qed.
Lemma good_rule f n : good f n -> good (read_rule_with f) n.
Proof.
  intros H. apply good_bind; [apply good_frags|]. intros c. apply good_bind; [now apply good_cow|].
  intros; apply good_ret.
Qed.
Lemma good_block f n : good f n -> good (read_block_with f) n.
Proof.
  intros H. apply good_bind; [|intros c; apply good_bind; [now apply good_cow|intros; apply good_ret]].
  apply good_cow. apply good_bind; [apply good_frags|intros; apply good_ret].
Qed.
Lemma good_tl {A} (t : tok) (f : list tok -> tres A) n l :
  good f (Nat.pred n) -> List.length (t :: l) <= n ->
  match f l with TOk _ r => List.length r <= List.length (t :: l) | TErr => True | TFuel => False end.
Proof. intros H L. cbn in L. specialize (H l ltac:(lia)). destruct (f l); auto. cbn. lia. Qed.
Lemma good_rbc n : good (read_rbc (S n)) n.
Proof.
  induction n as [|n IH]; intros l L.
  - destruct l; [exact I|cbn in L; lia].
  - cbn [read_rbc]. destruct l as [|[[|[|[|k]]]|k|s|b] l]; auto.
    + apply (good_tl (TVariant 0) (fun l => tbind (read_attr l) (fun a l1 => TOk (OAttr a) l1)) (S n)); [|exact L].
      apply good_bind; [|intros; apply good_ret].
      apply good_bind; [apply good_cow_str|]. intros k. apply good_bind; [apply good_frags|intros; apply good_ret].
    + apply (good_tl (TVariant 1) (fun l => tbind (read_rule_with (read_rbc (S n)) l) (fun r l1 => TOk (ORule (Boxed r)) l1)) (S n)); [|exact L].
      apply good_bind; [apply good_rule, IH|intros; apply good_ret].
    + apply (good_tl (TVariant 2) (fun l => tbind (read_block_with (read_rbc (S n)) l) (fun r l1 => TOk (OBlock (Boxed r)) l1)) (S n)); [|exact L].
      apply good_bind; [apply good_block, IH|intros; apply good_ret].
Qed.
Lemma good_sheet n : good (read_sheet (S n)) n.
Proof.
  apply good_cow. intros l L. destruct l as [|[[|[|k]]|k|s|b] l]; cbn [read_scope]; auto.
  - apply (good_tl (TVariant 0) (fun l => tbind (read_block_with (read_rbc (S n)) l) (fun r l1 => TOk (OSBlock r) l1)) n); [|exact L].
    apply good_mono with n; [|lia]. apply good_bind; [apply good_block, good_rbc|intros; apply good_ret].
  - apply (good_tl (TVariant 1) (fun l => tbind (read_rule_with (read_rbc (S n)) l) (fun r l1 => TOk (OSRule r) l1)) n); [|exact L].
    apply good_mono with n; [|lia]. apply good_bind; [apply good_rule, good_rbc|intros; apply good_ret].
Qed.

Theorem tokens_read_terminates : forall l,
  sheet_of_toks l <> TFuel /\ Serde.read_data l <> TFuel.
Proof.
  intros l. split.
  - intros E. pose proof (good_sheet (List.length l) l (le_n _)) as G. unfold sheet_of_toks in E. now rewrite E in G.
  - unfold Serde.read_data, read_vec. destruct l as [|[k|k|s|b] l]; try discriminate.
    intros E. set (n := List.length (TLen k :: l)) in *.
    assert (G : good (read_n (read_record (S n)) k) n).
    { apply good_n. apply good_bind.
      - apply good_bind; [intros [|[] r] _; cbn; auto|]. intros g.
        apply good_bind; [apply good_cow_str|]. intros p. apply good_bind; [apply good_sheet|intros; apply good_ret].
      - intros q. apply good_bind; [intros [|[] r] _; cbn; auto|intros; apply good_ret]. }
    specialize (G l). rewrite E in G. apply G. unfold n. cbn. lia.
Qed.
Print Assumptions tokens_read_terminates.

(** Equal keys hash alike, and what distinct keys feed to the hasher differs; what is serialized
    is the same for equal keys as well. *)
Theorem hash_ignores_ownership : forall a b : okey,
  okey_eqb a b = true <-> okey_toks a = okey_toks b.
Proof.
  intros a b. rewrite key_equality_ignores_ownership, key_eqb_eq. split; [apply okey_toks_erase|].
  intros E. destruct (key_ok a _ (le_n _) []) as (a' & Ra & Ea).
  destruct (key_ok b _ (le_n _) []) as (b' & Rb & Eb). rewrite <- E, Ra in Rb. injection Rb as <-. congruence.
Qed.
Print Assumptions hash_ignores_ownership.

Theorem serialization_ignores_ownership : forall a b : osheet,
  erase_sheet a = erase_sheet b -> osheet_toks a = osheet_toks b /\ jsheet a = jsheet b.
Proof.
  intros a b E. split; [now apply osheet_toks_erase|]. unfold jsheet. f_equal.
  apply (map_map_eq erase_scope); [|exact E]. apply Forall_any, oscope_json_erase.
Qed.
Print Assumptions serialization_ignores_ownership.

(** A sheet from a macro (all borrowed) and the same sheet from the parser (all owned). *)
Definition borrowed_sheet : osheet :=
  CowBorrowed [OSBlock (mk_oblock (CowBorrowed [])
    (CowBorrowed [OAttr (mk_oattr (CowBorrowed (lit "color")) (CowBorrowed [mk_ofrag (CowBorrowed (lit "red"))]));
       ORule (Borrowed (mk_orule (CowBorrowed [mk_ofrag (CowBorrowed (lit "@media print"))]) (CowBorrowed [])))]))].
Definition owned_sheet : osheet :=
  CowOwned [OSBlock (mk_oblock (CowOwned [])
    (CowOwned [OAttr (mk_oattr (CowOwned (lit "color")) (CowOwned [mk_ofrag (CowOwned (lit "red"))]));
       ORule (Boxed (mk_orule (CowOwned [mk_ofrag (CowOwned (lit "@media print"))]) (CowOwned [])))]))].

Example ownership_ex :
  borrowed_sheet <> owned_sheet /\ osheet_eqb borrowed_sheet owned_sheet = true
  /\ sheet_of_toks (osheet_toks borrowed_sheet) = TOk owned_sheet [].
Proof. split; [discriminate|]. now vm_compute. Qed.

(** ** Reading trees back *)

Definition jreads {A B} (E : A -> B) (f : jval -> option A) (g : A -> jval) (a : A) : Prop :=
  forall j, reordered (g a) j -> exists a', f j = Some a' /\ E a' = E a.

Lemma get_vec_ok {A B} (E : A -> B) f g l :
  Forall (jreads E f g) l ->
  forall j, reordered (JSeq (map g l)) j -> exists l', get_vec f j = Some l' /\ map E l' = map E l.
Proof.
  intros H j R. inversion R as [| | |? l' F| |]; subst. cbn [get_vec]. clear R.
  revert l' F. induction H as [|a l Ha _ IH]; intros l' F; inversion F as [|? b ? l'' Rab Fl]; subst.
  - now exists [].
  - destruct (Ha _ Rab) as (a' & E1 & E2). destruct (IH _ Fl) as (r & E3 & E4).
    exists (a' :: r). cbn. rewrite E1, E3. cbn. split; congruence.
Qed.

Lemma look_in {A} k (v : A) l : NoDup (map fst l) -> In (k, v) l -> look k l = Some v.
Proof.
  induction l as [|[k' v'] l IH]; intros N I; [destruct I|]. cbn in *. inversion N as [|? ? N1 N2]; subst.
  destruct (str_eqb k' k) eqn:E.
  - apply str_eqb_eq in E as ->. destruct I as [I|I]; [congruence|]. exfalso. apply N1.
    apply in_map_iff. now exists (k, v).
  - destruct I as [I|I]; [|now apply IH]. injection I as -> ->. now rewrite str_eqb_refl in E.
Qed.

Lemma occurrences_le {A} k (l : list (str * A)) : NoDup (map fst l) -> occurrences k l <= 1.
Proof.
  unfold occurrences. induction l as [|[k' v'] l IH]; intros N; cbn; [lia|].
  inversion N as [|? ? N1 N2]; subst. destruct (str_eqb k' k) eqn:E; [|now apply IH].
  apply str_eqb_eq in E as ->. cbn.
  assert (Z : filter (fun p : str * A => str_eqb (fst p) k) l = []).
  { destruct (filter _ l) as [|[q v] r] eqn:F; [reflexivity|exfalso].
    assert (I : In (q, v) (filter (fun p : str * A => str_eqb (fst p) k) l)) by (rewrite F; now left).
    apply filter_In in I as [I1 I2]. cbn in I2. apply str_eqb_eq in I2 as ->. apply N1.
    apply in_map_iff. now exists (k, v). }
  rewrite Z. cbn. lia.
Qed.

Lemma forall2_length {A B} (R : A -> B -> Prop) l l' : Forall2 R l l' -> List.length l = List.length l'.
Proof. induction 1; cbn; auto. Qed.

Lemma pick_ok l j :
  NoDup (map fst l) -> reordered (JObj l) j ->
  exists vs, struct_fields (map fst l) j = Some vs /\ Forall2 reordered (map snd l) vs.
Proof.
  intros N R. inversion R as [| | | |? l1 l' P F|? l' V F]; subst.
  2:{ exists l'. split; [|exact F]. cbn [struct_fields]. unfold positional. rewrite map_length.
      rewrite <- (forall2_length _ _ _ F), map_length. now rewrite Nat.eqb_refl. }
  cbn [struct_fields].
  assert (N1 : NoDup (map fst l1)) by (eapply Permutation_NoDup; [apply Permutation_map, P|exact N]).
  assert (K : map fst l' = map fst l1).
  { clear -F. induction F as [|[] [] ? ? [E _] _ IH]; cbn in *; congruence. }
  assert (N' : NoDup (map fst l')) by now rewrite K.
  assert (G : forall k v, In (k, v) l -> exists v', look k l' = Some v' /\ reordered v v').
  { intros k v I. apply (Permutation_in _ P) in I.
    assert (X : exists v', In (k, v') l' /\ reordered v v').
    { clear -F I. induction F as [|[a x] [b y] ? ? [E1 E2] _ IH]; [destruct I|]. cbn in *. subst b.
      destruct I as [I|I].
      - injection I as -> ->. exists y. auto.
      - destruct (IH I) as (v' & I' & R'). exists v'. auto. }
    destruct X as (v' & I' & R'). exists v'. split; [now apply look_in|exact R']. }
  unfold pick.
  assert (X : existsb (fun k => 1 <? occurrences k l') (map fst l) = false).
  { clear -N'. generalize (map fst l) as ks.
    induction ks as [|k ks IH]; [reflexivity|]. cbn [existsb]. rewrite IH, orb_false_r.
    apply Nat.ltb_ge. now apply occurrences_le. }
  rewrite X.
  assert (S : forall m, (forall p, In p m -> In p l) ->
            exists vs, all_some (map (fun k => look k l') (map fst m)) = Some vs /\ Forall2 reordered (map snd m) vs).
  { induction m as [|[k v] m IH]; intros I; [exists []; split; [reflexivity|constructor]|]. cbn.
    destruct (G k v (I _ (or_introl eq_refl))) as (v' & -> & Rv).
    destruct IH as (vs & -> & Fv). { intros p Ip. apply I. now right. }
    exists (v' :: vs). split; [reflexivity|]. now constructor. }
  destruct (S l ltac:(auto)) as (vs & E & Fv). exists vs. auto.
Qed.

Lemma all_some_map {A B} (h : A -> B) l : all_some (map (option_map h) l) = option_map (map h) (all_some l).
Proof.
  induction l as [|[x|] l IH]; cbn; auto. rewrite IH. now destruct (all_some l).
Qed.

Lemma pick_map {A B} (h : A -> B) names (l : list (str * A)) :
  pick names (map (fun p => match p with (k, v) => (k, h v) end) l) = option_map (map h) (pick names l).
Proof.
  unfold pick.
  assert (O : forall k, occurrences k (map (fun p => match p with (k, v) => (k, h v) end) l) = occurrences k l).
  { intros k. unfold occurrences. induction l as [|[k' v] l IH]; [reflexivity|]. cbn.
    destruct (str_eqb k' k); cbn; now rewrite IH. }
  assert (X : existsb (fun k => 1 <? occurrences k (map (fun p => match p with (k, v) => (k, h v) end) l)) names
            = existsb (fun k => 1 <? occurrences k l) names).
  { induction names as [|k names IH]; [reflexivity|]. cbn [existsb]. now rewrite IH, O. }
  rewrite X. clear X. destruct (existsb (fun k => 1 <? occurrences k l) names); [reflexivity|].
  rewrite <- all_some_map, map_map. f_equal.
  apply map_ext. intros k. clear O. induction l as [|[k' v] l IH]; [reflexivity|]. cbn.
  destruct (str_eqb k' k); [reflexivity|exact IH].
Qed.

Ltac nodup :=
  repeat constructor; cbn; let X := fresh "X" in intros X; decompose [or] X; try contradiction; discriminate.
(* the values of a picked struct, one by one *)
Ltac values F :=
  repeat match type of F with
  | Forall2 _ (_ :: _) _ =>
      let R := fresh "R" in let F' := fresh "F" in
      inversion F as [|? ? ? ? R F']; subst; clear F; rename F' into F
  | Forall2 _ [] _ => inversion F; subst; clear F
  end.

Lemma frag_json f : jreads erase_frag get_frag jfrag f.
Proof.
  intros j R. apply pick_ok in R as (vs & P & F); [|nodup]. cbn [map snd] in F. values F.
  unfold get_frag. cbn [map fst] in P. rewrite P. inversion R; subst. cbn. eexists. now split.
Qed.
Lemma frags_json l j : reordered (jfrags l) j ->
  exists l', get_frags j = Some l' /\ erase_frags l' = erase_frags l.
Proof.
  intros R. destruct (get_vec_ok erase_frag get_frag jfrag (cderef l) (Forall_any _ _ frag_json) j R) as (l' & E1 & E2).
  unfold get_frags. rewrite E1. eexists. split; [reflexivity|]. exact E2.
Qed.
Lemma selectors_json (l : list oselector) j : reordered (JSeq (map jselector l)) j ->
  exists l', get_selectors j = Some l' /\ map erase_selector (cderef l') = map erase_selector l.
Proof.
  intros R. destruct (get_vec_ok erase_selector get_selector jselector l) with (j := j) as (l' & E1 & E2);
    [|exact R|].
  - apply Forall_any. intros s i Ri. apply pick_ok in Ri as (vs & P & F); [|nodup].
    cbn [map snd] in F. values F. unfold get_selector. cbn [map fst] in P. rewrite P.
    destruct (frags_json _ _ R0) as (q & -> & E). eexists. split; [reflexivity|]. exact E.
  - unfold get_selectors. rewrite E1. eexists. split; [reflexivity|]. exact E2.
Qed.
Lemma attr_json a j : reordered (jattr a) j -> exists a', get_attr j = Some a' /\ erase_attr a' = erase_attr a.
Proof.
  intros R. apply pick_ok in R as (vs & P & F); [|nodup]. cbn [map snd] in F. values F.
  unfold get_attr. cbn [map fst] in P. rewrite P. inversion R; subst. cbn [get_str].
  destruct (frags_json _ _ R0) as (q & -> & E). eexists. split; [reflexivity|]. unfold erase_attr. cbn.
  now rewrite E.
Qed.

Definition rbcs_json (l : list orbc) : Prop := forall j, reordered (JSeq (map jrbc l)) j ->
  exists l', as_rbcs (readings_of j) = Some l' /\ map erase_rbc l' = map erase_rbc l.

Lemma positional_map {A B} (h : A -> B) names l : positional names (map h l) = option_map (map h) (positional names l).
Proof. unfold positional. rewrite map_length. now destruct (Nat.eqb _ _). Qed.
Lemma as_rule_fields j :
  as_rule (readings_of j) = rule_of (option_map (map (fun v => (v, readings_of v))) (struct_fields rule_fields j)).
Proof.
  destruct j as [b|x|l|l|]; cbn [readings_of as_rule struct_fields]; try reflexivity.
  - now rewrite positional_map.
  - now rewrite (pick_map (fun v => (v, readings_of v))).
Qed.
Lemma as_block_fields j :
  as_block (readings_of j) = block_of (option_map (map (fun v => (v, readings_of v))) (struct_fields rule_fields j)).
Proof.
  destruct j as [b|x|l|l|]; cbn [readings_of as_block struct_fields]; try reflexivity.
  - now rewrite positional_map.
  - now rewrite (pick_map (fun v => (v, readings_of v))).
Qed.

Lemma rule_json c l j : rbcs_json (cderef l) -> reordered (jrule (mk_orule c l)) j ->
  exists c' l', as_rule (readings_of j) = Some (mk_orule c' l')
    /\ erase_frags c' = erase_frags c /\ map erase_rbc (cderef l') = map erase_rbc (cderef l).
Proof.
  intros H R. cbn [jrule jblock] in R. apply pick_ok in R as (vs & P & F); [|nodup]. cbn [map snd] in F. values F.
  rewrite as_rule_fields. change (struct_fields rule_fields j = Some [y; y0]) in P. rewrite P. cbn [option_map map rule_of].
  destruct (frags_json _ _ R) as (c' & -> & E1). destruct (H _ R0) as (l' & -> & E2).
  exists c', (CowOwned l'). auto.
Qed.
Lemma block_json c l j : rbcs_json (cderef l) -> reordered (jblock (mk_oblock c l)) j ->
  exists c' l', as_block (readings_of j) = Some (mk_oblock c' l')
    /\ map erase_selector (cderef c') = map erase_selector (cderef c)
    /\ map erase_rbc (cderef l') = map erase_rbc (cderef l).
Proof.
  intros H R. cbn [jrule jblock] in R. apply pick_ok in R as (vs & P & F); [|nodup]. cbn [map snd] in F. values F.
  rewrite as_block_fields. change (struct_fields rule_fields j = Some [y; y0]) in P. rewrite P. cbn [option_map map block_of].
  destruct (selectors_json _ _ R) as (c' & -> & E1). destruct (H _ R0) as (l' & -> & E2).
  exists c', (CowOwned l'). auto.
Qed.

Lemma single_field k v j : In k variants -> reordered (JObj [(k, v)]) j ->
  exists v', j = JObj [(k, v')] /\ reordered v v'.
Proof.
  intros K R. inversion R as [| | | |? l1 l' P F|? l' V F]; subst; [|elim V; now exists k, v]. apply Permutation_length_1_inv in P as ->.
  inversion F as [|? [k' v'] ? ? [E Rv] F']; subst. inversion F'; subst. cbn in *. subst. now exists v'.
Qed.

Lemma rbc_json : forall c, jreads erase_rbc (fun j => as_rbc (readings_of j)) jrbc c.
Proof.
  apply (orbc_ind2 (fun c => jreads erase_rbc (fun j => as_rbc (readings_of j)) jrbc c)
    (fun l => Forall (jreads erase_rbc (fun j => as_rbc (readings_of j)) jrbc) l)).
  - intros a j R. apply single_field in R as (v & -> & R); [|cbn; tauto]. cbn [readings_of as_rbc map rbc_of].
    destruct (attr_json _ _ R) as (a' & E1 & E2). cbn. rewrite E1. eexists. split; [reflexivity|].
    cbn. now rewrite E2.
  - intros r IH j R. cbn [jrbc] in R. cbn [erase_rbc]. destruct (deref r) as [c l].
    apply single_field in R as (v & -> & R); [|cbn; tauto]. cbn [readings_of as_rbc map rbc_of].
    destruct (rule_json c l v) as (c' & l' & E1 & E2 & E3); [|exact R|].
    { intros j Rj. cbn in IH. destruct (get_vec_ok _ _ _ _ IH j Rj) as (q & E1 & E2).
      exists q. split; [|exact E2]. inversion Rj; subst. cbn in *. now rewrite map_map. }
    cbn. rewrite E1. eexists. split; [reflexivity|]. cbn. now rewrite E2, E3.
  - intros r IH j R. cbn [jrbc] in R. cbn [erase_rbc]. destruct (deref r) as [c l].
    apply single_field in R as (v & -> & R); [|cbn; tauto]. cbn [readings_of as_rbc map rbc_of].
    destruct (block_json c l v) as (c' & l' & E1 & E2 & E3); [|exact R|].
    { intros j Rj. cbn in IH. destruct (get_vec_ok _ _ _ _ IH j Rj) as (q & E1 & E2).
      exists q. split; [|exact E2]. inversion Rj; subst. cbn in *. now rewrite map_map. }
    cbn. rewrite E1. eexists. split; [reflexivity|]. cbn. now rewrite E2, E3.
  - constructor.
  - intros c l Hc Hl. now constructor.
Qed.

Lemma rbcs_json_ok l : rbcs_json l.
Proof.
  intros j Rj. destruct (get_vec_ok _ _ _ l (Forall_any _ _ rbc_json) j Rj) as (q & E1 & E2).
  exists q. split; [|exact E2]. inversion Rj; subst. cbn in *. now rewrite map_map.
Qed.

Lemma scope_json c : jreads erase_scope get_scope jscope c.
Proof.
  intros j R. destruct c as [[c l]|[c l]]; cbn [jscope] in R; (apply single_field in R as (v & -> & R); [|cbn; tauto]); cbn.
  - destruct (block_json c l v (rbcs_json_ok _) R) as (c' & l' & -> & E2 & E3).
    eexists. split; [reflexivity|]. cbn. now rewrite E2, E3.
  - destruct (rule_json c l v (rbcs_json_ok _) R) as (c' & l' & -> & E2 & E3).
    eexists. split; [reflexivity|]. cbn. now rewrite E2, E3.
Qed.

(** C33: a sheet written as a tree and read back, with the fields in any order or without their names. *)
Theorem sheet_tree_round_trip : forall (s : osheet) (j : jval),
  reordered (jsheet s) j -> exists s', get_sheet j = Some s' /\ erase_sheet s' = erase_sheet s.
Proof.
  intros s j R.
  destruct (get_vec_ok erase_scope get_scope jscope (cderef s) (Forall_any _ _ scope_json) j R) as (l' & E1 & E2).
  unfold get_sheet. rewrite E1. eexists. split; [reflexivity|]. exact E2.
Qed.
Print Assumptions sheet_tree_round_trip.

Theorem data_tree_round_trip : forall (d : odata) (j : jval),
  reordered (jdata d) j ->
  exists d', get_data j = Some d' /\ map erase_record d' = map without_text (map erase_record d).
Proof.
  intros d j R. set (E := fun r => (erase_key (or_key r), or_id r)).
  assert (G : forall r, jreads E get_record jrecord r /\
      forall j r', get_record j = Some r' -> or_text r' = []).
  { intros r. split.
    - intros i Ri. apply pick_ok in Ri as (vs & P & F); [|nodup]. cbn [map snd] in F. values F.
      unfold get_record. cbn [map fst] in P. rewrite P. inversion R1; subst. cbn [get_str].
      apply pick_ok in R0 as (vs & P' & F); [|nodup]. cbn [map snd] in F. values F.
      unfold get_key. cbn [map fst] in P'. rewrite P'. inversion R0; subst.
      inversion R2; subst. cbn [get_str get_bool].
      destruct (sheet_tree_round_trip _ _ R3) as (s' & -> & Es). eexists. split; [reflexivity|].
      unfold E, erase_key. cbn. now rewrite Es.
    - intros i r' H. unfold get_record in H. destruct (struct_fields _ i) as [[|k [|q [|]]]|]; try discriminate.
      destruct (get_key k), (get_str q); try discriminate. now injection H as <-. }
  destruct (get_vec_ok E get_record jrecord d) with (j := j) as (d' & E1 & E2); [|exact R|].
  { apply Forall_any. intros r. apply G. }
  exists d'. split; [exact E1|].
  assert (T : Forall (fun r => or_text r = []) d').
  { destruct j as [| |l| |]; try discriminate. cbn in E1. clear E2 R. revert d' E1.
    induction l as [|x l IH]; intros d' E1; cbn in E1; [injection E1 as <-; constructor|].
    destruct (get_record x) as [r|] eqn:Er; [|discriminate].
    destruct (all_some (map get_record l)) as [q|] eqn:Eq; [|discriminate]. injection E1 as <-.
    constructor; [now apply (proj2 (G r) x)|now apply IH]. }
  clear -E2 T. revert d E2. induction T as [|r d' Hr _ IH]; intros [|q d] E2; cbn in *; try discriminate; [reflexivity|].
  unfold E in E2 at 1 3. injection E2 as H1 H2 H3 H4 H5. rewrite (IH d H5). f_equal.
  unfold erase_record, without_text, erase_key. cbn. now rewrite H1, H2, H3, H4, Hr.
Qed.
Print Assumptions data_tree_round_trip.

(** The client needs nothing else: loading what was received is loading what was sent. *)
Theorem received_data_loads_like_sent : forall e w h d d',
  map erase_record d' = map without_text (map erase_record d) ->
  step e w (OLoad h (map erase_record d')) = step e w (OLoad h (map erase_record d)).
Proof.
  intros e w h d d' ->. cbn [step]. destruct (handle_of (w_mhandles w) h) as [mi|]; [|reflexivity].
  generalize (map erase_record d) as l. intros l. revert w.
  induction l as [|r l IH]; intros w; [reflexivity|]. cbn [map load_data].
  change (load_one mi (without_text r) w) with (load_one mi r w).
  destruct (load_one mi r w); [apply IH|reflexivity].
Qed.
Print Assumptions received_data_loads_like_sent.

Definition sample_data : odata :=
  [mk_orecord (mk_okey false (CowBorrowed (lit "stylist")) borrowed_sheet) (lit "stylist-1") (lit "css")].

(** The same as a compact format writes it. *)
Example data_compact_ex :
  let sent := JSeq [JSeq [JSeq [JBool false; JStr (lit "stylist"); jsheet borrowed_sheet]; JStr (lit "stylist-1")]] in
  reordered (jdata sample_data) sent
  /\ get_data sent = Some [mk_orecord (mk_okey false (CowOwned (lit "stylist")) owned_sheet) (lit "stylist-1") []].
Proof.
  cbv zeta. split; [|now vm_compute].
  assert (Refl : forall j, reordered j j).
  { fix F 1. intros [b|s|l|l|]; try constructor.
    - induction l; constructor; auto.
    - eapply re_obj; [apply Permutation_refl|]. induction l as [|[k v] l IH]; constructor; cbn; auto. }
  assert (N : forall a b l, ~ is_variant (a :: b :: l)) by (intros a b l (k & v & E & _); discriminate).
  unfold jdata, sample_data. cbn [map]. apply re_seq. constructor; [|constructor].
  apply re_struct; [apply N|]. cbn [map snd or_key or_id]. constructor; [|constructor; [apply Refl|constructor]].
  apply re_struct; [apply N|]. cbn [map snd]. repeat (constructor; [apply Refl|]). constructor.
Qed.

Example data_round_trip_ex :
  let sent := JSeq [JObj [(lit "id", JStr (lit "stylist-1"));
     (lit "key", JObj [(lit "ast", jsheet borrowed_sheet); (lit "is_global", JBool false);
                       (lit "prefix", JStr (lit "stylist"))])]] in
  reordered (jdata sample_data) sent
  /\ get_data sent = Some [mk_orecord (mk_okey false (CowOwned (lit "stylist")) owned_sheet) (lit "stylist-1") []].
Proof.
  cbv zeta. split; [|now vm_compute].
  assert (Refl : forall j, reordered j j).
  { fix F 1. intros [b|s|l|l|]; try constructor.
    - induction l; constructor; auto.
    - eapply re_obj; [apply Permutation_refl|]. induction l as [|[k v] l IH]; constructor; cbn; auto. }
  unfold jdata, sample_data. cbn [map]. apply re_seq. constructor; [|constructor]. unfold jrecord. cbn [or_key or_id].
  eapply re_obj; [apply perm_swap|]. constructor; [split; [reflexivity|apply Refl]|].
  constructor; [|constructor]. split; [reflexivity|]. cbn [snd]. unfold jkey.
  eapply re_obj.
  - eapply perm_trans; [apply perm_skip, perm_swap|]. apply perm_swap.
  - cbn. constructor; [split; [reflexivity|apply Refl]|].
    constructor; [split; [reflexivity|apply Refl]|]. constructor; [|constructor]. split; [reflexivity|apply Refl].
Qed.

(** C53: the markup of received style data is not that of the data sent: its texts are gone. *)
Theorem received_markup_refuted : forall esc,
  esc [] <> esc (lit "css") ->
  exists d', Serde.read_data (odata_toks sample_data) = TOk d' []
    /\ static_markup esc (map erase_record d') <> static_markup esc (map erase_record sample_data).
Proof.
  intros esc He. eexists. split; [vm_compute; reflexivity|]. unfold static_markup, element_markup. cbn.
  rewrite !app_nil_r. intros E. apply He. repeat injection E as E. apply app_inv_tail in E. exact E.
Qed.
Print Assumptions received_markup_refuted.

(** What holds: the markup of received data has the elements of the data sent, with the same ids
    in the same order, all of them empty; so it is the same exactly if there was no CSS in it. *)
Theorem received_markup_partial : forall esc (d : odata), esc [] = [] ->
  exists d', Serde.read_data (odata_toks d) = TOk d' []
    /\ static_markup esc (map erase_record d')
       = flat_map (fun r => lit "<style data-style=""" ++ or_id r ++ lit """></style>") d
    /\ (static_markup esc (map erase_record d') = static_markup esc (map erase_record d)
        <-> forall r, In r d -> esc (r_text (erase_record r)) = []).
Proof.
  intros esc d He. destruct (data_binary_round_trip d []) as (d' & R & E). rewrite app_nil_r in R.
  exists d'. split; [exact R|]. rewrite E. clear R E d'.
  assert (M : static_markup esc (map without_text (map erase_record d))
              = flat_map (fun r => lit "<style data-style=""" ++ or_id r ++ lit """></style>") d).
  { unfold static_markup. induction d as [|r d IH]; [reflexivity|]. cbn [map flat_map]. rewrite IH.
    unfold element_markup. cbn [r_id r_text without_text erase_record]. rewrite He. cbn [app]. reflexivity. }
  split; [exact M|]. rewrite M. clear M. split.
  - intros H. apply (f_equal (@List.length _)) in H.
    assert (L : forall l : odata, List.length (static_markup esc (map erase_record l))
              = List.length (flat_map (fun r => lit "<style data-style=""" ++ or_id r ++ lit """></style>") l)
                + List.length (flat_map (fun r => esc (r_text (erase_record r))) l)).
    { unfold static_markup. induction l as [|r l IH]; [reflexivity|]. cbn [map flat_map]. rewrite !app_length, IH.
      unfold element_markup. rewrite !app_length. cbn [r_id erase_record].
      change (List.length (lit """></style>")) with (List.length (lit """>") + List.length (lit "</style>")). lia. }
    rewrite L in H. assert (Z : List.length (flat_map (fun r => esc (r_text (erase_record r))) d) = 0) by lia.
    apply length_zero_iff_nil in Z. intros r I. destruct (esc (r_text (erase_record r))) as [|c t] eqn:K; auto. exfalso.
    assert (In c (flat_map (fun r => esc (r_text (erase_record r))) d)) by (apply in_flat_map; exists r; split; auto; rewrite K; now left).
    rewrite Z in *. contradiction.
  - intros H. unfold static_markup. induction d as [|r d IH]; [reflexivity|]. cbn [map flat_map].
    rewrite <- IH by (intros x I; apply H; now right). unfold element_markup.
    rewrite (H r (or_introl eq_refl)). cbn [r_id erase_record app]. reflexivity.
Qed.
Print Assumptions received_markup_partial.
