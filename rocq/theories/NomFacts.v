(** * NomFacts: generic facts about the combinators. *)

From Coq Require Import String Ascii List NArith Bool Arith Lia.
From Verif Require Import Str StrFacts Ast Nom SpecSays.
Import ListNotations.
Local Open Scope list_scope.

(** ** Soundness: what a successful parse has consumed *)

Definition sound {A} (p : parser A) (R : str -> A -> Prop) : Prop :=
  forall i r a, p i = ROk r a -> exists t, i = t ++ r /\ R t a.

Lemma sound_weaken {A} (p : parser A) (R R' : str -> A -> Prop) :
  sound p R -> (forall t a, R t a -> R' t a) -> sound p R'.
Proof. intros H HR i r a E. destruct (H _ _ _ E) as (t & -> & Ht). eauto. Qed.

Lemma bind_ok {A B} (x : res A) (f : str -> A -> res B) r b :
  bind x f = ROk r b -> exists r' a, x = ROk r' a /\ f r' a = ROk r b.
Proof. destruct x; cbn; try discriminate. eauto. Qed.

Lemma sound_tag t : sound (tag t) (fun u a => u = t /\ a = t).
Proof.
  intros i r a. unfold tag. destruct (starts_with t i) eqn:E; [|discriminate].
  apply starts_with_spec in E. destruct E as [s ->]. intros [= <- <-].
  rewrite skipn_app, skipn_all, Nat.sub_diag. exists t. auto.
Qed.

Lemma span_spec f s a b : span f s = (a, b) ->
  s = a ++ b /\ forallb f a = true /\ match b with [] => True | c :: _ => f c = false end.
Proof.
  revert a b. induction s as [|c s IH]; cbn; intros a b.
  - intros [= <- <-]. auto.
  - destruct (f c) eqn:E.
    + destruct (span f s) as [x y]. intros [= <- <-]. destruct (IH x y eq_refl) as (-> & H & H2).
      cbn. rewrite E, H. auto.
    + intros [= <- <-]. cbn. auto.
Qed.

Lemma sound_take_while1 f : sound (take_while1 f) (fun u a => u = a /\ a <> [] /\ forallb f a = true).
Proof.
  intros i r a. unfold take_while1. destruct (span f i) as [x y] eqn:E.
  apply span_spec in E. destruct E as (-> & H & _). destruct x; [discriminate|].
  intros [= <- <-]. eexists; split; [reflexivity|]. repeat split; auto. discriminate.
Qed.

Lemma sound_is_not set :
  sound (is_not set) (fun u a => u = a /\ run_of (fun c => ~ In c set) a).
Proof.
  eapply sound_weaken; [apply sound_take_while1|]. intros t a (-> & H & H2). split; auto.
  split; auto. rewrite forallb_forall in H2. apply Forall_forall. intros c Hc.
  apply H2 in Hc. apply negb_true_iff in Hc. now apply mem_not_In.
Qed.

Lemma sound_none_of set : sound (none_of set) (fun u a => u = [a] /\ ~ In a set).
Proof.
  intros i r a. unfold none_of. destruct i as [|c i]; [discriminate|].
  destruct (mem c set) eqn:E; [discriminate|]. intros [= <- <-]. exists [c].
  repeat split; auto. now apply mem_not_In.
Qed.

Lemma sound_anychar : sound anychar (fun u a => u = [a]).
Proof. intros i r a. destruct i as [|c i]; [discriminate|]. intros [= <- <-]. now exists [c]. Qed.

Lemma sound_not {A} (p : parser A) : sound (not_p p) (fun u _ => u = []).
Proof. intros i r a. unfold not_p. destruct (p i); try discriminate. intros [= <- <-]. now exists []. Qed.

Lemma sound_fail {A} (R : str -> A -> Prop) : sound fail_p R.
Proof. intros i r a E. discriminate. Qed.

Lemma sound_map {A B} (f : A -> B) p R :
  sound p R -> sound (map_p f p) (fun t b => exists a, R t a /\ b = f a).
Proof.
  intros H i r b E. apply bind_ok in E. destruct E as (r' & a & E1 & [= <- <-]).
  destruct (H _ _ _ E1) as (t & -> & Ht). eauto 6.
Qed.

Lemma sound_opt {A} (p : parser A) R :
  sound p R -> sound (opt p) (fun t o => (t = [] /\ o = None) \/ exists a, o = Some a /\ R t a).
Proof.
  intros H i r o. unfold opt. destruct (p i) eqn:E; try discriminate; intros [= <- <-].
  - destruct (H _ _ _ E) as (t & -> & Ht). eauto 8.
  - exists []. auto.
Qed.

Lemma firstn_app_l {A} (a b : list A) : firstn (List.length (a ++ b) - List.length b) (a ++ b) = a.
Proof.
  rewrite app_length. replace (List.length a + List.length b - List.length b) with (List.length a) by lia.
  rewrite firstn_app, firstn_all, Nat.sub_diag. cbn. now rewrite app_nil_r.
Qed.

Lemma sound_recognize {A} (p : parser A) R :
  sound p R -> sound (recognize p) (fun t u => u = t /\ exists a, R t a).
Proof.
  intros H i r u E. apply bind_ok in E. destruct E as (r' & a & E1 & [= <- <-]).
  destruct (H _ _ _ E1) as (t & -> & Ht). exists t. rewrite firstn_app_l. eauto.
Qed.

Lemma sound_alt {A} (ps : list (parser A)) R :
  Forall (fun p => sound p R) ps -> sound (alt ps) R.
Proof.
  intros H i r a. induction H as [|p ps Hp _ IH]; cbn; [discriminate|].
  destruct (p i) eqn:E; try discriminate; auto. intros [= <- <-]. eauto.
Qed.

Lemma sound_pair {A B} (p : parser A) (q : parser B) R S :
  sound p R -> sound q S ->
  sound (pair_p p q) (fun t ab => exists u v, t = u ++ v /\ R u (fst ab) /\ S v (snd ab)).
Proof.
  intros Hp Hq i r ab E. apply bind_ok in E. destruct E as (r1 & a & E1 & E).
  apply bind_ok in E. destruct E as (r2 & b & E2 & [= <- <-]).
  destruct (Hp _ _ _ E1) as (u & -> & Hu). destruct (Hq _ _ _ E2) as (v & -> & Hv).
  exists (u ++ v). rewrite app_assoc. cbn. eauto 8.
Qed.

Lemma sound_preceded {A B} (p : parser A) (q : parser B) R S :
  sound p R -> sound q S ->
  sound (preceded p q) (fun t b => exists u v, t = u ++ v /\ (exists a, R u a) /\ S v b).
Proof.
  intros Hp Hq i r b E. apply bind_ok in E. destruct E as (r1 & a & E1 & E2).
  destruct (Hp _ _ _ E1) as (u & -> & Hu). destruct (Hq _ _ _ E2) as (v & -> & Hv).
  exists (u ++ v). rewrite app_assoc. eauto 8.
Qed.

Lemma sound_terminated {A B} (p : parser A) (q : parser B) R S :
  sound p R -> sound q S ->
  sound (terminated p q) (fun t a => exists u v, t = u ++ v /\ R u a /\ (exists b, S v b)).
Proof.
  intros Hp Hq i r b E. apply bind_ok in E. destruct E as (r1 & a & E1 & E).
  apply bind_ok in E. destruct E as (r2 & c & E2 & [= <- <-]).
  destruct (Hp _ _ _ E1) as (u & -> & Hu). destruct (Hq _ _ _ E2) as (v & -> & Hv).
  exists (u ++ v). rewrite app_assoc. eauto 8.
Qed.

Lemma sound_delimited {A B C} (p : parser A) (q : parser B) (s : parser C) R S T :
  sound p R -> sound q S -> sound s T ->
  sound (delimited p q s)
    (fun t b => exists u v w, t = u ++ v ++ w /\ (exists a, R u a) /\ S v b /\ (exists c, T w c)).
Proof.
  intros Hp Hq Hs. eapply sound_weaken.
  { eapply sound_preceded; [exact Hp|]. eapply sound_terminated; [exact Hq|exact Hs]. }
  intros t b (u & v & -> & Hu & v1 & v2 & -> & Hv & Hw). eauto 10.
Qed.

Lemma sound_separated_pair {A B C} (p : parser A) (s : parser B) (q : parser C) R S T :
  sound p R -> sound s S -> sound q T ->
  sound (separated_pair p s q)
    (fun t ab => exists u v w, t = u ++ v ++ w /\ R u (fst ab) /\ (exists c, S v c) /\ T w (snd ab)).
Proof.
  intros Hp Hs Hq. eapply sound_weaken.
  { eapply sound_pair; [exact Hp|]. eapply sound_preceded; [exact Hs|exact Hq]. }
  intros t b (u & v & -> & Hu & v1 & v2 & -> & Hv & Hw). eauto 10.
Qed.

Lemma sound_many0_fuel {A} (p : parser A) R n : sound p R -> sound (many0_fuel n p) (star R).
Proof.
  intros H. induction n as [|n IH]; intros i r l; cbn; [discriminate|].
  destruct (p i) eqn:E; try discriminate.
  - destruct (Nat.eqb _ _); [discriminate|]. intros E2. apply bind_ok in E2.
    destruct E2 as (r2 & l2 & E2 & [= <- <-]).
    destruct (H _ _ _ E) as (t & -> & Ht). destruct (IH _ _ _ E2) as (t2 & -> & Ht2).
    exists (t ++ t2). rewrite app_assoc. split; auto. now constructor.
  - intros [= <- <-]. exists []. split; auto. constructor.
Qed.

Lemma sound_many0 {A} (p : parser A) R : sound p R -> sound (many0 p) (star R).
Proof. intros H i r l. now apply sound_many0_fuel. Qed.

Lemma sound_many1 {A} (p : parser A) R :
  sound p R -> sound (many1 p) (fun t l => l <> [] /\ star R t l).
Proof.
  intros H i r l E. apply bind_ok in E. destruct E as (r1 & a & E1 & E).
  apply bind_ok in E. destruct E as (r2 & l2 & E2 & [= <- <-]).
  destruct (H _ _ _ E1) as (t & -> & Ht).
  destruct (sound_many0 _ _ H _ _ _ E2) as (t2 & -> & Ht2).
  exists (t ++ t2). rewrite app_assoc. split; auto. split; [discriminate|]. now constructor.
Qed.

Lemma sound_sep_fuel {A B} (sep : parser B) (p : parser A) S R n :
  sound sep S -> sound p R ->
  sound (sep_fuel n sep p) (star (fun t a => exists u v, t = u ++ v /\ (exists b, S u b) /\ R v a)).
Proof.
  intros Hs Hp. induction n as [|n IH]; intros i r l; cbn; [discriminate|].
  destruct (sep i) eqn:E; try discriminate.
  - destruct (Nat.eqb _ _); [discriminate|].
    destruct (p rest) eqn:E2; try discriminate.
    + intros E3. apply bind_ok in E3. destruct E3 as (r3 & l3 & E3 & [= <- <-]).
      destruct (Hs _ _ _ E) as (u & -> & Hu). destruct (Hp _ _ _ E2) as (v & -> & Hv).
      destruct (IH _ _ _ E3) as (t3 & -> & Ht3).
      exists ((u ++ v) ++ t3). rewrite <- !app_assoc. split; auto.
      rewrite app_assoc. constructor; eauto 8.
    + intros [= <- <-]. exists []. split; auto. constructor.
  - intros [= <- <-]. exists []. split; auto. constructor.
Qed.

Lemma sound_separated_list1 {A B} (sep : parser B) (p : parser A) S R :
  sound sep S -> sound p R ->
  sound (separated_list1 sep p)
    (fun t l => exists u a v l', t = u ++ v /\ l = a :: l' /\ R u a
       /\ star (fun t a => exists u v, t = u ++ v /\ (exists b, S u b) /\ R v a) v l').
Proof.
  intros Hs Hp i r l E. apply bind_ok in E. destruct E as (r1 & a & E1 & E).
  apply bind_ok in E. destruct E as (r2 & l2 & E2 & [= <- <-]).
  destruct (Hp _ _ _ E1) as (t & -> & Ht).
  destruct (sound_sep_fuel _ _ _ _ _ Hs Hp _ _ _ E2) as (t2 & -> & Ht2).
  exists (t ++ t2). rewrite app_assoc. split; auto. eauto 10.
Qed.

Lemma star_weaken {A} (R R' : str -> A -> Prop) t l :
  (forall t a, R t a -> R' t a) -> star R t l -> star R' t l.
Proof. intros H. induction 1; constructor; auto. Qed.

(** ** Absence of [RFail] and [RFuel] *)

(** On inputs of length at most [n], [p] neither fails hard nor runs out of fuel. *)
Definition safe {A} (n : nat) (p : parser A) : Prop :=
  forall i, List.length i <= n -> p i <> RFail /\ p i <> RFuel.

(** [p] returns a suffix of its input. *)
Definition shrinks {A} (p : parser A) : Prop :=
  forall i r a, p i = ROk r a -> exists t, i = t ++ r.

Lemma sound_shrinks {A} (p : parser A) R : sound p R -> shrinks p.
Proof. intros H i r a E. destruct (H _ _ _ E) as (t & -> & _). eauto. Qed.

Lemma shrinks_le {A} (p : parser A) i r a : shrinks p -> p i = ROk r a -> List.length r <= List.length i.
Proof. intros H E. destruct (H _ _ _ E) as (t & ->). rewrite app_length. lia. Qed.

Lemma safe_bind {A B} (x : res A) (f : str -> A -> res B) :
  x <> RFail /\ x <> RFuel ->
  (forall r a, x = ROk r a -> f r a <> RFail /\ f r a <> RFuel) ->
  bind x f <> RFail /\ bind x f <> RFuel.
Proof. intros [H1 H2] H. destruct x; cbn; auto; now split. Qed.

Section Safe.
  Variable n : nat.

  Lemma safe_tag t : safe n (tag t).
  Proof. intros i _. unfold tag. destruct (starts_with t i); now split. Qed.
  Lemma safe_take_while1 f : safe n (take_while1 f).
  Proof. intros i _. unfold take_while1. destruct (span f i) as [[|]]; now split. Qed.
  Lemma safe_is_not set : safe n (is_not set).
  Proof. apply safe_take_while1. Qed.
  Lemma safe_none_of set : safe n (none_of set).
  Proof. intros i _. destruct i as [|c i]; cbn; [now split|]. destruct (mem c set); now split. Qed.
  Lemma safe_anychar : safe n anychar.
  Proof. intros i _. destruct i; now split. Qed.
  Lemma safe_char_p c : safe n (char_p c).
  Proof. intros i _. destruct i as [|c0 i]; cbn; [now split|]. destruct (char_eqb c0 c); now split. Qed.
  Lemma safe_fail {A} : safe n (@fail_p A).
  Proof. intros i _. now split. Qed.
  Lemma safe_map {A B} (f : A -> B) p : safe n p -> safe n (map_p f p).
  Proof. intros H i Hi. apply safe_bind; [now apply H|]. now split. Qed.
  Lemma safe_not {A} (p : parser A) : safe n p -> safe n (not_p p).
  Proof. intros H i Hi. destruct (H i Hi). unfold not_p. destruct (p i); now split. Qed.
  Lemma safe_opt {A} (p : parser A) : safe n p -> safe n (opt p).
  Proof. intros H i Hi. destruct (H i Hi). unfold opt. destruct (p i); now split. Qed.
  Lemma safe_recognize {A} (p : parser A) : safe n p -> safe n (recognize p).
  Proof. intros H i Hi. apply safe_bind; [now apply H|]. now split. Qed.
  Lemma safe_alt {A} (ps : list (parser A)) : Forall (safe n) ps -> safe n (alt ps).
  Proof.
    intros H i Hi. induction H as [|p ps Hp _ IH]; cbn; [now split|].
    destruct (Hp i Hi). destruct (p i); auto; now split.
  Qed.
  Lemma safe_pair {A B} (p : parser A) (q : parser B) :
    shrinks p -> safe n p -> safe n q -> safe n (pair_p p q).
  Proof.
    intros S Hp Hq i Hi. apply safe_bind; [now apply Hp|]. intros r a E.
    apply safe_bind; [|now split]. apply Hq. apply shrinks_le in E; auto. lia.
  Qed.
  Lemma safe_preceded {A B} (p : parser A) (q : parser B) :
    shrinks p -> safe n p -> safe n q -> safe n (preceded p q).
  Proof.
    intros S Hp Hq i Hi. apply safe_bind; [now apply Hp|]. intros r a E.
    apply Hq. apply shrinks_le in E; auto. lia.
  Qed.
  Lemma safe_terminated {A B} (p : parser A) (q : parser B) :
    shrinks p -> safe n p -> safe n q -> safe n (terminated p q).
  Proof.
    intros S Hp Hq i Hi. apply safe_bind; [now apply Hp|]. intros r a E.
    apply safe_bind; [|now split]. apply Hq. apply shrinks_le in E; auto. lia.
  Qed.
  Lemma safe_many0_fuel {A} (p : parser A) k i :
    shrinks p -> safe n p -> List.length i < k -> List.length i <= n ->
    many0_fuel k p i <> RFail /\ many0_fuel k p i <> RFuel.
  Proof.
    intros S Hp. revert i. induction k as [|k IH]; intros i Hk Hi; [lia|]. cbn.
    destruct (Hp i Hi). destruct (p i) eqn:E; try (now split).
    destruct (Nat.eqb_spec (List.length rest) (List.length i)); [now split|].
    apply shrinks_le in E; auto. apply safe_bind; [|now split]. apply IH; lia.
  Qed.
  Lemma safe_many0 {A} (p : parser A) : shrinks p -> safe n p -> safe n (many0 p).
  Proof. intros S Hp i Hi. apply safe_many0_fuel; auto. Qed.
  Lemma safe_many1 {A} (p : parser A) : shrinks p -> safe n p -> safe n (many1 p).
  Proof.
    intros S Hp i Hi. apply safe_bind; [now apply Hp|]. intros r a E.
    apply safe_bind; [|now split]. apply safe_many0; auto. apply shrinks_le in E; auto. lia.
  Qed.
  Lemma safe_sep_fuel {A B} (sep : parser B) (p : parser A) k i :
    shrinks sep -> shrinks p -> safe n sep -> safe n p ->
    List.length i < k -> List.length i <= n ->
    sep_fuel k sep p i <> RFail /\ sep_fuel k sep p i <> RFuel.
  Proof.
    intros Ss S Hs Hp. revert i. induction k as [|k IH]; intros i Hk Hi; [lia|]. cbn.
    destruct (Hs i Hi). destruct (sep i) eqn:E; try (now split).
    destruct (Nat.eqb_spec (List.length rest) (List.length i)); [now split|].
    apply shrinks_le in E; auto.
    assert (Hr : List.length rest <= n) by lia. destruct (Hp rest Hr).
    destruct (p rest) eqn:E2; try (now split). apply shrinks_le in E2; auto.
    apply safe_bind; [|now split]. apply IH; lia.
  Qed.
  Lemma safe_separated_list1 {A B} (sep : parser B) (p : parser A) :
    shrinks sep -> shrinks p -> safe n sep -> safe n p -> safe n (separated_list1 sep p).
  Proof.
    intros Ss S Hs Hp i Hi. apply safe_bind; [now apply Hp|]. intros r a E.
    apply shrinks_le in E; auto. apply safe_bind; [|now split]. apply safe_sep_fuel; auto. lia.
  Qed.
End Safe.
