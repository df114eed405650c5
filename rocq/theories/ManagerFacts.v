(** * ManagerFacts: invariants of the manager state machine. *)

From Coq Require Import String Ascii List NArith Bool Arith Lia.
From Verif Require Import Str StrFacts Ast Render CssParser Ids IdFacts Manager SpecManager.
Import ListNotations.
Local Open Scope list_scope.
Local Opaque parse to_style_str.

(** ** Key equality *)

Lemma list_eqb_eq {A} (e : A -> A -> bool) (a b : list A) :
  (forall x, In x a -> forall y, e x y = true <-> x = y) -> list_eqb e a b = true <-> a = b.
Proof.
  revert b. induction a as [|x a IH]; intros [|y b] H; cbn [list_eqb];
    try (split; [discriminate | intros E; discriminate E]); [tauto|].
  rewrite andb_true_iff, (H x) by now left. rewrite IH by (intros; apply H; now right).
  split; [intros [-> ->]; reflexivity | intros [= -> ->]; split; reflexivity].
Qed.

Lemma strs_eqb_eq a b : list_eqb str_eqb a b = true <-> a = b.
Proof. apply list_eqb_eq. intros. apply str_eqb_eq. Qed.

Lemma sels_eqb_eq a b : list_eqb (list_eqb str_eqb) a b = true <-> a = b.
Proof. apply list_eqb_eq. intros. apply strs_eqb_eq. Qed.

Lemma attr_eqb_eq a b : attr_eqb a b = true <-> a = b.
Proof.
  destruct a, b. unfold attr_eqb. cbn [Ast.a_key Ast.a_value].
  rewrite andb_true_iff, str_eqb_eq, strs_eqb_eq.
  split; [intros [-> ->]; reflexivity | intros [= -> ->]; split; reflexivity].
Qed.

Lemma rbc_eqb_eq : forall a b, rbc_eqb a b = true <-> a = b.
Proof.
  apply (rbc_ind2 (fun a => forall b, rbc_eqb a b = true <-> a = b)
           (fun l => forall m,
              (fix go (l m : list rbc) : bool :=
                match l, m with
                | [], [] => true
                | x :: l', y :: m' => rbc_eqb x y && go l' m'
                | _, _ => false
                end) l m = true <-> l = m)).
  - intros a [x| |]; cbn [rbc_eqb]; try (split; [discriminate | intros E; discriminate E]).
    rewrite attr_eqb_eq. split; [now intros -> | now intros [= ->]].
  - intros c l IH [|d m|]; cbn [rbc_eqb]; try (split; [discriminate | intros E; discriminate E]).
    rewrite andb_true_iff, strs_eqb_eq, IH.
    split; [intros [-> ->]; reflexivity | intros [= -> ->]; split; reflexivity].
  - intros c l IH [| |d m]; cbn [rbc_eqb]; try (split; [discriminate | intros E; discriminate E]).
    rewrite andb_true_iff, sels_eqb_eq, IH.
    split; [intros [-> ->]; reflexivity | intros [= -> ->]; split; reflexivity].
  - intros [|]; [tauto|]. split; [discriminate | intros E; discriminate E].
  - intros c l Hc Hl [|d m]; [split; [discriminate | intros E; discriminate E]|].
    rewrite andb_true_iff, Hc, Hl.
    split; [intros [-> ->]; reflexivity | intros [= -> ->]; split; reflexivity].
Qed.

Lemma rbcs_eqb_eq a b : list_eqb rbc_eqb a b = true <-> a = b.
Proof. apply list_eqb_eq. intros. apply rbc_eqb_eq. Qed.

Lemma sheet_eqb_eq a b : sheet_eqb a b = true <-> a = b.
Proof.
  apply list_eqb_eq. intros [c l|c l] _ [d m|d m]; cbn [scope_content_eqb];
    try (split; [discriminate | intros E; discriminate E]);
    rewrite andb_true_iff, rbcs_eqb_eq, ?strs_eqb_eq, ?sels_eqb_eq;
    (split; [intros [-> ->]; reflexivity | intros [= -> ->]; split; reflexivity]).
Qed.

Lemma key_eqb_eq a b : key_eqb a b = true <-> a = b.
Proof.
  destruct a as [g p t], b as [g' p' t']. unfold key_eqb. cbn [k_global k_prefix k_ast].
  rewrite !andb_true_iff, eqb_true_iff, str_eqb_eq, sheet_eqb_eq.
  split; [intros [[-> ->] ->]; reflexivity | intros [= -> -> ->]; repeat split; reflexivity].
Qed.

Lemma key_eqb_refl a : key_eqb a a = true.
Proof. now apply key_eqb_eq. Qed.

Lemma key_eq_dec (a b : key) : {a = b} + {a <> b}.
Proof.
  destruct (key_eqb a b) eqn:E; [left; now apply key_eqb_eq|].
  right. intros ->. rewrite key_eqb_refl in E. discriminate.
Qed.

(** ** Lists *)

Lemma upd_length {A} (l : list A) i f : List.length (upd l i f) = List.length l.
Proof. revert i. induction l; intros [|i]; cbn; auto. Qed.

Lemma nth_upd_eq {A} (l : list A) i f :
  nth_error (upd l i f) i = option_map f (nth_error l i).
Proof. revert i. induction l; intros [|i]; cbn; auto. Qed.

Lemma nth_upd_ne {A} (l : list A) i j f : i <> j -> nth_error (upd l i f) j = nth_error l j.
Proof.
  revert i j. induction l; intros [|i] [|j] H; cbn; auto; lia.
Qed.

Lemma nth_upd {A} (l : list A) i j f :
  nth_error (upd l i f) j = if Nat.eqb i j then option_map f (nth_error l j) else nth_error l j.
Proof.
  destruct (Nat.eqb_spec i j) as [->|H]; [apply nth_upd_eq | now apply nth_upd_ne].
Qed.

Lemma upd_split {A} (l : list A) i f x :
  nth_error l i = Some x ->
  exists a b, l = a ++ x :: b /\ List.length a = i /\ upd l i f = a ++ f x :: b.
Proof.
  revert i. induction l as [|y l IH]; intros [|i]; cbn [nth_error upd]; try discriminate.
  - intros [= ->]. exists [], l. repeat split.
  - intros E. destruct (IH _ E) as (a & b & -> & Ha & Hu).
    exists (y :: a), b. cbn. rewrite Hu, Ha. repeat split.
Qed.

Lemma upd_none {A} (l : list A) i f : nth_error l i = None -> upd l i f = l.
Proof.
  revert i. induction l as [|x l IH]; intros [|i] E; cbn in *; try discriminate; auto.
  now rewrite IH.
Qed.

Lemma map_upd_same {A B} (g : A -> B) l i f :
  (forall x, g (f x) = g x) -> map g (upd l i f) = map g l.
Proof.
  intros H. revert i. induction l; intros [|i]; cbn; auto; now rewrite ?H, ?IHl.
Qed.

Lemma in_upd {A} (l : list A) i f x : In x (upd l i f) -> In x l \/ exists y, nth_error l i = Some y /\ x = f y.
Proof.
  revert i. induction l as [|a l IH]; intros [|i]; cbn; auto.
  - intros [<-|H]; [right; now exists a | auto].
  - intros [<-|H]; auto. destruct (IH _ H) as [|(y & ? & ?)]; eauto.
Qed.

Definition cnt (l : list nat) (x : nat) : nat := count_occ Nat.eq_dec l x.

Lemma cnt_app a b x : cnt (a ++ b) x = cnt a x + cnt b x.
Proof. apply count_occ_app. Qed.

Lemma cnt_cons a l x : cnt (a :: l) x = (if Nat.eqb a x then 1 else 0) + cnt l x.
Proof.
  unfold cnt. cbn. destruct (Nat.eq_dec a x), (Nat.eqb_spec a x); congruence || lia.
Qed.

Lemma cnt_nil x : cnt [] x = 0.
Proof. reflexivity. Qed.

Lemma cnt_pos l x : cnt l x > 0 <-> In x l.
Proof. symmetry. apply count_occ_In. Qed.

Lemma cnt_flat_upd {A} (g : A -> list nat) l i f a x :
  nth_error l i = Some a ->
  cnt (flat_map g (upd l i f)) x + cnt (g a) x = cnt (flat_map g l) x + cnt (g (f a)) x.
Proof.
  intros E. destruct (upd_split _ _ f _ E) as (p & q & -> & _ & ->).
  rewrite !flat_map_app. cbn [flat_map]. rewrite !cnt_app. lia.
Qed.

Lemma nth_app_new {A} (l : list A) x : nth_error (l ++ [x]) (List.length l) = Some x.
Proof. rewrite nth_error_app2, Nat.sub_diag by lia. reflexivity. Qed.

Lemma nth_app_old {A} (l : list A) x i y : nth_error l i = Some y -> nth_error (l ++ [x]) i = Some y.
Proof.
  intros E. rewrite nth_error_app1; [exact E|]. apply nth_error_Some. now rewrite E.
Qed.

Lemma nth_app_inv {A} (l : list A) x i y :
  nth_error (l ++ [x]) i = Some y ->
  nth_error l i = Some y \/ (i = List.length l /\ y = x).
Proof.
  destruct (lt_eq_lt_dec i (List.length l)) as [[H|H]|H].
  - rewrite nth_error_app1 by lia. auto.
  - subst. rewrite nth_app_new. intros [= <-]. auto.
  - intros E. assert (i < List.length (l ++ [x])) by (apply nth_error_Some; congruence).
    rewrite app_length in *. cbn in *. lia.
Qed.

Lemma nth_lt {A} (l : list A) i x : nth_error l i = Some x -> i < List.length l.
Proof. intros E. apply nth_error_Some. congruence. Qed.

(** ** Registry *)

Lemma reg_get_in r k c : reg_get r k = Some c -> In (k, c) r.
Proof.
  induction r as [|[k' c'] r IH]; cbn; [discriminate|].
  destruct (key_eqb k' k) eqn:E; [|auto]. intros [= ->]. apply key_eqb_eq in E. subst. auto.
Qed.

Lemma reg_get_none r k : reg_get r k = None <-> ~ In k (map fst r).
Proof.
  induction r as [|[k' c'] r IH]; cbn; [tauto|].
  destruct (key_eqb k' k) eqn:E.
  - apply key_eqb_eq in E. subst. split; [discriminate | intros H; exfalso; auto].
  - rewrite IH. split; [|tauto]. intros H [->|I]; [|tauto].
    rewrite key_eqb_refl in E. discriminate.
Qed.

Lemma reg_get_complete r k c : NoDup (map fst r) -> In (k, c) r -> reg_get r k = Some c.
Proof.
  induction r as [|[k' c'] r IH]; cbn; [tauto|]. intros ND H. apply NoDup_cons_iff in ND.
  destruct H as [[= -> ->]|H]; [now rewrite key_eqb_refl|].
  destruct (key_eqb k' k) eqn:E; [|tauto].
  apply key_eqb_eq in E. subst. exfalso. apply (proj1 ND).
  apply in_map_iff. now exists (k, c).
Qed.

Lemma reg_remove_spec r k r' o :
  reg_remove r k = (r', o) ->
  (o = None /\ r' = r /\ ~ In k (map fst r))
  \/ exists a c b, o = Some c /\ r = a ++ (k, c) :: b /\ r' = a ++ b /\ ~ In k (map fst a).
Proof.
  revert r' o. induction r as [|[k' c'] r IH]; cbn; intros r' o.
  - intros [= <- <-]. left. auto.
  - destruct (key_eqb k' k) eqn:E.
    + intros [= <- <-]. apply key_eqb_eq in E. subst. right. exists [], c', r. cbn. auto.
    + destruct (reg_remove r k) as [r1 o1]. intros [= <- <-].
      assert (k' <> k) by (intros ->; rewrite key_eqb_refl in E; discriminate).
      destruct (IH _ _ eq_refl) as [(-> & -> & H1)|(a & c & b & -> & -> & -> & H1)].
      * left. repeat split; auto. intros [?|?]; auto.
      * right. exists ((k', c') :: a), c, b. repeat split; auto. cbn. intros [?|?]; auto.
Qed.
