(** * PropsConfine: a scoped style styles its element and what is inside of it (C98). *)

From Coq Require Import String Ascii List NArith Bool Arith Lia.
From Verif Require Import Str StrFacts Ast Render CssParser Manager SpecRender RenderFacts RenderRead ScopeFacts SpecGuard SpecConfine PropsGuard.
Import ListNotations.
Local Open Scope list_scope.

(** ** The combinators of a text and of the text with the class *)

Lemma comb_next p c : comb_char c = true -> is_top p = true -> next_place p c = top.
Proof.
  intros H T. apply is_top_iff in T. subst p. unfold comb_char in H.
  unfold mem in H. apply existsb_exists in H. destruct H as (x & I & E). apply char_eqb_eq in E. subst x.
  cbn in I. repeat (destruct I as [<-|I]; [reflexivity|]). destruct I.
Qed.

Definition no_comb (s : str) : Prop := Forall (fun c => comb_char c = false) s.

Lemma comb_run_app q x y : (forall c r, x = c :: r -> comb_char c = false) -> (forall c r, y = c :: r -> comb_char c = false) ->
  comb_run (q ++ x) = comb_run (q ++ y).
Proof.
  intros Hx Hy. induction q as [|c q IH]; cbn [List.app comb_run].
  - assert (E : forall z, (forall c r, z = c :: r -> comb_char c = false) -> comb_run z = []).
    { intros z Hz. destruct z as [|c r]; [reflexivity|]. cbn [comb_run]. now rewrite (Hz c r eq_refl). }
    now rewrite !E.
  - destruct (comb_char c); [now rewrite IH|reflexivity].
Qed.

Lemma first_comb_skip m x : no_comb m -> forall p, first_comb p (m ++ x) = first_comb (fold_left next_place m p) x.
Proof.
  induction 1 as [|c m H _ IH]; intros p; cbn [List.app first_comb fold_left]; [reflexivity|]. now rewrite H, andb_false_r.
Qed.

Lemma first_comb_app q x y : (forall c r, x = c :: r -> comb_char c = false) -> (forall c r, y = c :: r -> comb_char c = false) ->
  forall p, first_comb (fold_left next_place q p) x = first_comb (fold_left next_place q p) y ->
  first_comb p (q ++ x) = first_comb p (q ++ y).
Proof.
  intros Hx Hy. induction q as [|c q IH]; intros p E; cbn [List.app first_comb fold_left] in *; [exact E|].
  destruct (is_top p && comb_char c); [exact (comb_run_app (c :: q) x y Hx Hy)|auto].
Qed.

Lemma marker_no_comb m : marker m -> no_comb m /\ m <> [].
Proof. intros [-> | ->]; (split; [repeat constructor|discriminate]). Qed.

Section Class.
Variable class : str.
Hypothesis plain : forallb ident_char class = true.
Let d := lit "." ++ class.

Lemma class_no_comb : no_comb d /\ d <> [].
Proof.
  split; [|discriminate]. constructor; [reflexivity|]. apply Forall_forall. intros c I. rewrite forallb_forall in plain.
  apply ident_no_comb. auto.
Qed.

Lemma first_comb_weave pieces last : Forall (fun pm => marker (snd pm)) pieces -> forall p, quote_ok p ->
  first_comb p (weave (map (subst_of class) pieces) last) = first_comb p (weave pieces last).
Proof.
  induction 1 as [|[q m] pieces M _ IH]; intros p Q; cbn [map subst_of fst weave snd] in *; [reflexivity|].
  change (lit "." ++ class) with d.
  destruct (marker_neutral m M) as [M1 M2]. destruct (class_neutral class plain) as [C1 C2].
  destruct (marker_no_comb m M) as [M3 _]. destruct class_no_comb as [C3 _]. fold d in C1, C2.
  generalize dependent d. intros dd C1 C2 C3.
  assert (Hd : forall z y, z <> [] -> no_comb z -> forall c r, z ++ y = c :: r -> comb_char c = false).
  { intros z y Hz Hn c r E. destruct z as [|k z]; [easy|]. injection E as <- _. now inversion Hn. }
  apply first_comb_app; eauto. rewrite !first_comb_skip by auto.
  rewrite (neutral_fold m), (neutral_fold dd) by auto using quote_ok_fold. apply IH.
  intros x. cbn [pl_quote]. apply quote_ok_fold, Q.
Qed.
End Class.

(** ** The tokens after the class *)

(** The first combinator among the tokens. *)
Fixpoint comb_of (l : list token) : str :=
  match l with
  | [] => []
  | Simple _ :: l' => comb_of l'
  | Comb c :: _ => c
  end.
Lemma comb_tokens s : forall t, exists l, tokens_from top (Comb t) s = Comb (t ++ comb_run s) :: l.
Proof.
  induction s as [|c s IH]; intros t; cbn [tokens_from comb_run]; [exists []; now rewrite app_nil_r|].
  change (is_top top) with true. fold (comb_char c). destruct (comb_char c) eqn:E.
  - rewrite (comb_next top c E eq_refl). destruct (IH (t ++ [c])) as (l & ->). exists l. now rewrite <- app_assoc.
  - rewrite app_nil_r. eexists. reflexivity.
Qed.
Lemma tokens_comb s : forall p t, comb_of (tokens_from p (Simple t) s) = first_comb p s.
Proof.
  induction s as [|c s IH]; intros p t; cbn [tokens_from first_comb]; [reflexivity|]. fold (comb_char c).
  destruct (is_top p) eqn:T; cbn [andb].
  - destruct (comb_char c) eqn:E.
    + cbn [comb_of comb_run]. rewrite E, (comb_next p c E T). destruct (comb_tokens s [c]) as (l & ->). reflexivity.
    + destruct (_ || _); cbn [comb_of]; apply IH.
  - destruct (comb_char c); apply IH.
Qed.

Definition guarded_inside (class sel : str) : Prop :=
  exists a b, sel = a ++ lit "." ++ class ++ b /\ place_after a = top /\ name_ends b /\ goes_inside b.

Lemma inside_tokens class a b : forallb ident_char class = true -> place_after a = top -> name_ends b ->
  exists pre l, tokens (a ++ lit "." ++ class ++ b) = pre ++ Simple (lit "." ++ class) :: l /\ comb_of l = first_comb top b.
Proof.
  intros Hc P Nm. unfold tokens.
  destruct (tokens_app a (lit "." ++ class ++ b) top (Comb [])) as (out & cur & ->).
  unfold place_after in P. rewrite P.
  assert (D : exists l, tokens_from top (Simple (lit ".")) (class ++ b) = Simple (lit "." ++ class) :: l /\ comb_of l = first_comb top b).
  { rewrite tokens_name by auto. pose proof (tokens_comb b top (lit "." ++ class)) as T.
    destruct b as [|x b]; [exists []; auto|]. destruct Nm as (N1 & N2 & N3).
    assert (X : exists l, tokens_from top (Simple (lit "." ++ class)) (x :: b) = Simple (lit "." ++ class) :: l).
    { cbn [tokens_from]. change (is_top top) with true. cbv iota. destruct (mem x (css_space ++ lit ">+~")); [eexists; reflexivity|].
      unfold name_char. rewrite N1. destruct (char_eqb x backslash) eqn:E; [now apply char_eqb_eq in E|].
      destruct (x =? 0)%N eqn:Z; [now apply N.eqb_eq in Z|]. cbn [orb].
      destruct (str_eqb (lit "." ++ class) (lit ":")) eqn:S; [apply str_eqb_eq in S; discriminate|].
      change (starts_with (lit ":") (lit "." ++ class)) with false. eexists. reflexivity. }
    destruct X as (l & X). rewrite X in *. exists l. split; [reflexivity|exact T]. }
  destruct D as (l & D & C).
  change (lit "." ++ class ++ b) with (ch "." :: class ++ b). cbn [tokens_from].
  change (is_top top) with true. change (next_place top (ch ".")) with top.
  change (mem (ch ".") (css_space ++ lit ">+~")) with false. cbv iota.
  exists (out ++ [cur]), l. split; [|exact C]. rewrite <- app_assoc. cbn [List.app]. f_equal.
  destruct cur as [t|t]; [|exact (f_equal (cons (Comb t)) D)]. change (name_char (ch ".")) with false.
  change (char_eqb (ch ".") (ch ":")) with false. change (char_eqb (ch ".") (ch "(")) with false. rewrite !andb_false_r. cbn [orb]. exact (f_equal (cons (Simple t)) D).
Qed.

Lemma leads_split pg s l pre : forall e f, present pg e -> leads pg (pre ++ Simple s :: l) e f ->
  exists e', present pg e' /\ matches pg e' s /\ leads pg l e' f.
Proof.
  induction pre as [|t pre IH]; intros e f Pe H.
  - destruct H as [H1 H2]. eauto.
  - destruct t as [t|c]; [apply (IH e f Pe (proj2 H))|].
    destruct pre as [|t' pre']; cbn [List.app] in *.
    + change (exists e', present pg e' /\ reaches pg c e e' /\ leads pg (Simple s :: l) e' f) in H. destruct H as (e' & P' & _ & H). eauto.
    + change (exists e', present pg e' /\ reaches pg c e e' /\ leads pg (t' :: pre' ++ Simple s :: l) e' f) in H.
      destruct H as (e' & P' & _ & H). eauto.
Qed.

Section Tree.
Variable pg : page.
Variable inside : element pg -> element pg -> Prop.
Hypothesis tree : css_tree pg inside.

Lemma leads_stays l : forall e f g, leads pg l e f -> inside g e -> inside g f.
Proof.
  induction l as [|t l IH]; intros e f g H I; [now rewrite <- H|].
  destruct t as [t|c]; [destruct H as [_ H]; eauto|]. destruct l as [|t' l']; [destruct H as [_ H]; now rewrite <- H|].
  change (exists e', present pg e' /\ reaches pg c e e' /\ leads pg (t' :: l') e' f) in H.
  destruct H as (e' & _ & R & H). apply (IH e' f g H). now apply (proj1 tree c e).
Qed.
Lemma leads_inside l : forall e f, leads pg l e f -> ~ In (ch "+") (comb_of l) -> ~ In (ch "~") (comb_of l) -> e = f \/ inside e f.
Proof.
  induction l as [|t l IH]; intros e f H N1 N2; [now left|].
  destruct t as [t|c]; [destruct H as [_ H]; eauto|]. destruct l as [|t' l']; [destruct H as [_ H]; now left|].
  change (exists e', present pg e' /\ reaches pg c e e' /\ leads pg (t' :: l') e' f) in H.
  destruct H as (e' & _ & R & H). right. apply (leads_stays _ e' f e H). now apply (proj2 tree c).
Qed.

Lemma guarded_inside_selects class sel f : css_page pg -> plain_ident class = true -> guarded_inside class sel -> selects_one pg sel f ->
  exists e, present pg e /\ has_class pg e class /\ (e = f \/ inside e f).
Proof.
  intros Hp Hi (a & b & -> & P & Nm & G1 & G2) (e & Pe & H). pose proof (plain_chars class Hi) as Hc.
  destruct (inside_tokens class a b Hc P Nm) as (pre & l & E & C).
  assert (L : exists e', present pg e' /\ leads pg (pre ++ Simple (lit "." ++ class) :: l) e' f \/
              exists c pre', pre = Comb c :: pre' /\ exists e', present pg e' /\ leads pg (pre' ++ Simple (lit "." ++ class) :: l) e' f).
  { rewrite E in H. destruct pre as [|[t|c] pre]; cbn [List.app] in *; [exists e; left; auto|exists e; left; auto|].
    destruct H as [_ H]. exists e. right. exists c, pre. split; [reflexivity|]. eauto. }
  assert (M : exists e', present pg e' /\ matches pg e' (lit "." ++ class) /\ leads pg l e' f).
  { destruct L as (e' & [[P' L]|(c & pre' & _ & e'' & P' & L)]); eapply leads_split; eauto. }
  destruct M as (e' & P' & M & L'). exists e'. split; auto. split; [now apply Hp|].
  apply (leads_inside l e' f L'); now rewrite C.
Qed.
End Tree.

(** ** Selectors with the class *)

Lemma marked_inside_guarded class sel : forallb ident_char class = true -> marked_inside sel -> guarded_inside class (scoped (Some class) sel).
Proof.
  intros plain (a & m & b & -> & M & P & Nm & G).
  destruct (weave_exists a) as (pa & la & -> & Ha & Hla). destruct (weave_exists b) as (pb & lb & -> & Hb & Hlb).
  rewrite <- weave_app. rewrite scoped_weave; auto.
  - rewrite map_app. change (map (subst_of class) ((la, m) :: pb)) with ((la, lit "." ++ class) :: map (subst_of class) pb).
    rewrite weave_app, <- (app_assoc (lit ".")). apply markers_of in Ha, Hb. eexists _, _. split; [reflexivity|].
    split; [unfold place_after; rewrite place_weave; auto using top_ok|]. split; [now apply ends_weave|].
    unfold goes_inside in *. rewrite first_comb_weave; auto using top_ok.
  - now destruct pa.
  - apply Forall_app. split; auto.
Qed.
Lemma unmarked_inside_guarded class sel : unmarked_inside sel -> guarded_inside class (scoped (Some class) sel).
Proof.
  intros [H G]. destruct (weave_exists sel) as (pieces & last & E & Hp & Hl).
  destruct pieces as [|[p m] pieces].
  - cbn [weave] in E. subst. unfold scoped.
    destruct (contains_char (ch "&") last) eqn:C1; [apply contains_char_spec in C1; now elim (proj1 Hl)|].
    destruct (contains_str (lit ":root") last) eqn:C2; [apply contains_str_spec in C2; now elim (proj2 Hl)|].
    cbn [orb]. destruct (starts_with (lit ":") last) eqn:S.
    + exists [], last. split; [reflexivity|]. split; [reflexivity|]. split; [|exact G].
      destruct last as [|c l]; [exact I|]. apply starts_with_spec in S. destruct S as (t & S). injection S as -> _. repeat split; discriminate.
    + exists [], (lit " " ++ last). split; [reflexivity|]. split; [reflexivity|]. split; [|exact G]. repeat split; discriminate.
  - elim H. exists p, m, (weave pieces last). split; auto. inversion_clear Hp as [|? ? X _]. apply X.
Qed.

(** One selector. *)
Theorem scoped_selector_stays_inside : forall class frags,
  plain_ident class = true -> let sel := List.concat frags in
  single sel -> unmarked_inside sel \/ marked_inside sel -> selects_inside class (write_selector (Some class) frags).
Proof.
  intros class frags Hi sel S H pg inside f Hp Ht (x & I & Hs). rewrite write_selector_scoped in I. fold sel in I.
  pose proof (plain_chars class Hi) as Hc. destruct (scoped_single class Hc sel S) as [L _]. rewrite L in I. destruct I as [<-|[]].
  eapply guarded_inside_selects; eauto. destruct H; [now apply unmarked_inside_guarded|now apply marked_inside_guarded].
Qed.
Print Assumptions scoped_selector_stays_inside.

(** ** Exactly when *)

(** A token of a text stands somewhere in it. *)
Lemma token_end s : forall p t0 t l, tokens_from p (Simple t0) s = Simple t :: l ->
  exists x b, s = x ++ b /\ t = t0 ++ x /\ tokens_from (fold_left next_place x p) (Simple t) b = Simple t :: l
    /\ (forall c b', b = c :: b' -> comb_char c = true \/ name_char c = false).
Proof.
  induction s as [|c s IH]; intros p t0 t l H; cbn [tokens_from] in H.
  - injection H as <- <-. exists [], []. split; [reflexivity|]. split; [now rewrite app_nil_r|]. split; [reflexivity|]. now intros ? ? [=].
  - assert (Go : tokens_from (next_place p c) (Simple (t0 ++ [c])) s = Simple t :: l ->
      exists x b, c :: s = x ++ b /\ t = t0 ++ x /\ tokens_from (fold_left next_place x p) (Simple t) b = Simple t :: l
        /\ (forall c b', b = c :: b' -> comb_char c = true \/ name_char c = false)).
    { intros E. destruct (IH _ _ _ _ E) as (x & b & -> & -> & E1 & E2). exists (c :: x), b.
      rewrite <- app_assoc in *. repeat split; auto. }
    fold (comb_char c) in H. destruct (is_top p) eqn:T.
    + destruct (comb_char c) eqn:E.
      * assert (Et : t0 = t) by (injection H; auto). subst t0. exists [], (c :: s). split; [reflexivity|]. split; [now rewrite app_nil_r|].
        split; [|intros ? ? [= <- _]; auto]. cbn [fold_left tokens_from]. fold (comb_char c). rewrite T, E. exact H.
      * destruct (name_char c || _ || _) eqn:N; [auto|].
        assert (Et : t0 = t) by (injection H; auto). subst t0. exists [], (c :: s). split; [reflexivity|]. split; [now rewrite app_nil_r|].
        split.
        -- cbn [fold_left tokens_from]. fold (comb_char c). rewrite T, E, N. exact H.
        -- intros ? ? [= <- _]. right. apply orb_false_iff in N. destruct N as [N _]. now apply orb_false_iff in N.
    + destruct (comb_char c); auto.
Qed.

Lemma token_start s : forall pre p cur t l, (forall w, cur = Comb w -> is_top p = true) ->
  tokens_from p cur s = pre ++ Simple t :: l ->
  (exists t0, cur = Simple t0 /\ tokens_from p cur s = Simple t :: l)
  \/ (exists a c s2, s = a ++ c :: s2 /\ is_top (fold_left next_place a p) = true
        /\ tokens_from (fold_left next_place (a ++ [c]) p) (Simple [c]) s2 = Simple t :: l).
Proof.
  induction s as [|c s IH]; intros pre p cur t l Hc H.
  - cbn [tokens_from] in *. destruct pre as [|k pre]; [|destruct pre; discriminate]. injection H as -> <-. left. eauto.
  - assert (Skip : forall cur', (forall w, cur' = Comb w -> is_top (next_place p c) = true) -> forall pre',
        tokens_from (next_place p c) cur' s = pre' ++ Simple t :: l ->
        (exists t0, cur' = Simple t0 /\ tokens_from (next_place p c) cur' s = Simple t :: l)
        \/ (exists a k s2, c :: s = a ++ k :: s2 /\ is_top (fold_left next_place a p) = true
             /\ tokens_from (fold_left next_place (a ++ [k]) p) (Simple [k]) s2 = Simple t :: l)).
    { intros cur' Hc' pre' E. destruct (IH pre' _ cur' t l Hc' E) as [L|(a & k & s2 & -> & A & B)]; [now left|].
      right. exists (c :: a), k, s2. auto. }
    assert (New : is_top p = true -> forall pre', tokens_from (next_place p c) (Simple [c]) s = pre' ++ Simple t :: l ->
        exists a k s2, c :: s = a ++ k :: s2 /\ is_top (fold_left next_place a p) = true
             /\ tokens_from (fold_left next_place (a ++ [k]) p) (Simple [k]) s2 = Simple t :: l).
    { intros T pre' E. destruct (Skip (Simple [c]) ltac:(discriminate) pre' E) as [(t0 & [= <-] & L)|R]; [|exact R].
      exists [], c, s. auto. }
    cbn [tokens_from] in H |- *. fold (comb_char c) in *. destruct cur as [t0|w].
    + destruct (is_top p) eqn:T.
      * destruct (comb_char c) eqn:E.
        -- destruct pre as [|k pre]; [left; eauto|]. injection H as _ H. right.
           destruct (Skip (Comb [c])) with (pre' := pre) as [(? & X & _)|R]; auto; [|discriminate].
           intros _ _. now rewrite (comb_next p c E T).
        -- destruct (_ || _ || _).
           ++ destruct (Skip (Simple (t0 ++ [c])) ltac:(discriminate) pre H) as [(? & _ & L)|R]; [left; eauto|now right].
           ++ destruct pre as [|k pre]; [left; eauto|]. injection H as _ H. right. eauto.
      * assert (H' : tokens_from (next_place p c) (Simple (t0 ++ [c])) s = pre ++ Simple t :: l) by (destruct (comb_char c); exact H).
        destruct (Skip (Simple (t0 ++ [c])) ltac:(discriminate) pre H') as [(? & _ & L)|R]; [left|now right].
        exists t0. split; [reflexivity|]. destruct (comb_char c); exact L.
    + specialize (Hc w eq_refl). rewrite Hc in H. right. destruct (comb_char c) eqn:E.
      * destruct (Skip (Comb (w ++ [c]))) with (pre' := pre) as [(? & X & _)|R]; auto; [|discriminate].
        intros _ _. now rewrite (comb_next p c E Hc).
      * destruct pre as [|k pre]; [discriminate|]. injection H as _ H. eauto.
Qed.

Lemma comb_not_name c : comb_char c = true -> name_char c = false.
Proof.
  intros H. unfold comb_char, mem in H. apply existsb_exists in H. destruct H as (x & I & E). apply char_eqb_eq in E. subst x.
  cbn in I. repeat (destruct I as [<-|I]; [reflexivity|]). destruct I.
Qed.

Lemma class_token class s pre l : forallb ident_char class = true -> tokens s = pre ++ Simple (lit "." ++ class) :: l ->
  exists a b, s = a ++ lit "." ++ class ++ b /\ place_after a = top /\ name_ends b /\ comb_of l = first_comb top b.
Proof.
  intros Hc H. destruct (token_start s pre top (Comb []) (lit "." ++ class) l) as [(? & X & _)|(a & c & s2 & -> & A & B)]; auto; [discriminate|].
  destruct (token_end _ _ _ _ _ B) as (x & b & -> & E & C & N). injection E as <- <-.
  apply is_top_iff in A. rewrite fold_left_app, A in C. cbn [fold_left] in C. change (next_place top 46%N) with top in C.
  assert (T : fold_left next_place class top = top).
  { clear -Hc. induction class as [|c l IH]; [reflexivity|]. cbn [forallb fold_left] in *. apply andb_true_iff in Hc. destruct Hc. rewrite ident_next; auto. }
  rewrite T in C. exists a, b. split; [reflexivity|]. split; [exact A|]. split.
  - destruct b as [|k b]; [exact I|]. assert (Hk : name_char k = false) by (destruct (N k b eq_refl); auto using comb_not_name).
    unfold name_char in Hk. apply orb_false_iff in Hk. destruct Hk as [Hk K3]. apply orb_false_iff in Hk. destruct Hk as [K1 K2].
    split; [exact K1|]. split; [intros ->; discriminate|intros ->; discriminate].
  - rewrite <- (tokens_comb b top (lit "." ++ class)). rewrite C. reflexivity.
Qed.

(** The page in which a selector selects what it says and nothing else: an element for each compound. *)
Fixpoint compound (l : list token) (k : nat) : list str :=
  match l with
  | [] => []
  | Simple s :: l' => match k with 0 => s :: compound l' 0 | _ => compound l' k end
  | Comb _ :: l' => match k with 0 => [] | S k' => compound l' k' end
  end.
Fixpoint comb_at (l : list token) (k : nat) : str :=
  match l with
  | [] => []
  | Simple _ :: l' => comb_at l' k
  | Comb c :: l' => match k with 0 => c | S k' => comb_at l' k' end
  end.
Fixpoint steps (l : list token) : nat :=
  match l with
  | [] => 0
  | Simple _ :: l' => steps l'
  | [Comb _] => 0
  | Comb _ :: l' => S (steps l')
  end.
Definition said (l : list token) : page :=
  mk_page nat (fun _ => True) (fun e c => In (lit "." ++ c) (compound l e)) (fun e s => In s (compound l e))
    (fun c e f => c = comb_at l e /\ f = S e /\ e < steps l).
Definition below (l : list token) (e f : nat) : Prop :=
  e < f /\ e < steps l /\ ~ In (ch "+") (comb_at l e) /\ ~ In (ch "~") (comb_at l e).

Definition ends_white (l : list token) : Prop := forall l' c, l = l' ++ [Comb c] -> forall x, In x c -> In x css_space.
Lemma ends_white_tail t l : ends_white (t :: l) -> ends_white l.
Proof. intros H l' c ->. exact (H (t :: l') c eq_refl). Qed.

Lemma leads_said H (M : nat -> str -> Prop) (R : str -> nat -> nat -> Prop) l : ends_white l -> forall k,
  (forall j s, In s (compound l j) -> M (k + j) s) -> (forall j, j < steps l -> R (comb_at l j) (k + j) (S (k + j))) ->
  leads (mk_page nat (fun _ => True) H M R) l k (k + steps l).
Proof.
  induction l as [|t l IH]; intros W k HM HR; [cbn; lia|]. pose proof (ends_white_tail _ _ W) as W'. destruct t as [s|c].
  - split.
    + specialize (HM 0 s). rewrite Nat.add_0_r in HM. apply HM. now left.
    + apply IH; auto. intros j s' I. apply HM. cbn [compound]. destruct j; [now right|exact I].
  - destruct l as [|t' l'].
    + cbn [leads steps]. split; [|cbn; lia]. apply Forall_forall. intros x. apply (W [] c eq_refl).
    + change (exists e', True /\ R c k e' /\ leads (mk_page nat (fun _ => True) H M R) (t' :: l') e' (k + S (steps (t' :: l')))).
      exists (S k). split; [exact I|]. split.
      * specialize (HR 0). rewrite Nat.add_0_r in HR. apply HR. change (0 < S (steps (t' :: l'))). lia.
      * rewrite <- plus_n_Sm. apply (IH W' (S k)).
        -- intros j s I. specialize (HM (S j) s I). now rewrite <- plus_n_Sm in HM.
        -- intros j L. specialize (HR (S j)). rewrite <- plus_n_Sm in HR. apply HR. change (S j < S (steps (t' :: l'))). lia.
Qed.

Lemma compound_split l : forall k s, In s (compound l k) -> exists pre l', l = pre ++ Simple s :: l' /\ comb_of l' = comb_at l k.
Proof.
  assert (Z : forall l0, comb_of l0 = comb_at l0 0) by (intros l0; induction l0 as [|[?|?] ? IH]; cbn; auto).
  induction l as [|[t|c] l IH]; intros k s I; [destruct I| |].
  - cbn [compound comb_at] in *. destruct k as [|k].
    + destruct I as [-> |I]; [exists [], l; auto|]. destruct (IH 0 s I) as (pre & l' & -> & E). exists (Simple t :: pre), l'. auto.
    + destruct (IH (S k) s I) as (pre & l' & -> & E). exists (Simple t :: pre), l'. auto.
  - cbn [compound comb_at] in *. destruct k as [|k]; [destruct I|]. destruct (IH k s I) as (pre & l' & -> & E). exists (Comb c :: pre), l'. auto.
Qed.
Lemma last_comb l : ends_white l -> forall x, In x (comb_at l (steps l)) -> In x css_space.
Proof.
  induction l as [|[t|c] l IH]; intros W x I; [destruct I| |].
  - apply IH; [now apply ends_white_tail in W|exact I].
  - destruct l as [|t' l']; [apply (W [] c eq_refl x I)|]. apply IH; [now apply ends_white_tail in W|exact I].
Qed.

Lemma selects_inside_guarded class sel : forallb ident_char class = true -> single sel -> proper sel ->
  selects_inside class sel -> guarded_inside class sel.
Proof.
  intros Hc [L _] Pr H. unfold proper in Pr. destruct (tokens sel) as [|[?|w] l] eqn:T; [easy|easy|]. destruct Pr as [Hw W].
  destruct (H (said l) (below l) (steps l)) as (e & _ & E & B).
  - intros e c _. cbn. reflexivity.
  - split; cbn.
    + intros c e f g (-> & -> & Hs) (G1 & G2). split; [lia|exact G2].
    + intros c e f (-> & -> & Hs) N1 N2. split; [lia|auto].
  - exists sel. rewrite L. split; [now left|]. exists 0. split; [exact I|]. rewrite T. split; [now apply Forall_forall|].
    apply (leads_said _ _ _ l W 0); cbn; auto.
  - cbn in E. destruct (compound_split l e _ E) as (pre & l' & El & C).
    destruct (class_token class sel (Comb w :: pre) l' Hc) as (a & b & -> & P & N & F); [now rewrite T, El|].
    exists a, b. split; [reflexivity|]. split; [exact P|]. split; [exact N|]. unfold goes_inside. rewrite <- F, C.
    destruct B as [-> |(_ & _ & B)]; [|exact B]. cbn in W |- *.
    split; intros X; apply (last_comb l W) in X; cbn in X; repeat (destruct X as [X|X]; [discriminate|]); exact X.
Qed.

Lemma guarded_inside_back class sel : forallb ident_char class = true -> ~ sub_text (lit "." ++ class) sel ->
  guarded_inside class (scoped (Some class) sel) -> unmarked_inside sel \/ marked_inside sel.
Proof.
  intros Hc Hs (A & B & E & P & Nm & G). destruct (weave_exists sel) as (pieces & last & Es & Hp & Hl). subst sel.
  destruct pieces as [|pm pieces].
  - left. cbn [weave] in *. split.
    + intros (a & m & b & -> & [-> | ->]).
      * apply (proj1 Hl). apply in_or_app. right. now left.
      * apply (proj2 Hl). now exists a, b.
    + unfold scoped in E.
      destruct (contains_char (ch "&") last) eqn:C1; [apply contains_char_spec in C1; now elim (proj1 Hl)|].
      destruct (contains_str (lit ":root") last) eqn:C2; [apply contains_str_spec in C2; now elim (proj2 Hl)|]. cbn [orb] in E.
      set (sp := if starts_with (lit ":") last then [] else lit " ") in *.
      assert (E' : (lit "." ++ class) ++ (sp ++ last) = A ++ lit "." ++ class ++ B).
      { rewrite <- E. unfold sp. destruct (starts_with (lit ":") last); now rewrite <- !app_assoc. }
      assert (A0 : A = []).
      { destruct A as [|k A]; [reflexivity|]. exfalso.
        pose proof (dot_split class Hc (k :: A) (class ++ B) (sp ++ last) E' ltac:(discriminate)) as Len.
        destruct (app_longer _ _ _ _ E' Len) as (q & _ & E2). apply Hs. unfold sp in E2.
        destruct (starts_with (lit ":") last).
        - exists q, B. rewrite <- app_assoc. exact E2.
        - destruct q as [|k' q]; [discriminate|]. injection E2 as _ E2. exists q, B. rewrite <- app_assoc. exact E2. }
      subst A. cbn [List.app] in E'. assert (X : sp ++ last = B).
      { apply (app_inv_head (lit "." ++ class)). rewrite E', <- app_assoc. reflexivity. }
      unfold sp in X. destruct (starts_with (lit ":") last); rewrite <- X in G; exact G.
  - right. rewrite scoped_weave in E; auto; [|discriminate]. destruct (weave_sub _ _ _ Hs) as [S1 S2].
    destruct (class_found class Hc _ _ A B S1 S2) as (pa & la & m & pb & Eq & -> & ->).
    { rewrite E. now rewrite <- app_assoc. }
    rewrite Eq in *. clear Eq. apply markers_of in Hp. apply Forall_app in Hp. destruct Hp as [Ma Mb]. inversion_clear Mb as [|? ? Mm Mb'].
    exists (weave pa la), m, (weave pb last). split; [apply weave_app|]. split; [exact Mm|]. split; [|split].
    + unfold place_after in *. rewrite place_weave in P; auto using top_ok.
    + exact (proj1 (ends_weave class pb last Mb') Nm).
    + unfold goes_inside in *. rewrite first_comb_weave in G; auto using top_ok.
Qed.

(** The selectors that select only elements with the class and what is inside of them are exactly
    these. *)
Theorem scoped_selector_stays_inside_iff : forall class frags,
  plain_ident class = true -> let sel := List.concat frags in
  single sel -> ~ sub_text (lit "." ++ class) sel -> proper (write_selector (Some class) frags) ->
  selects_inside class (write_selector (Some class) frags) <-> unmarked_inside sel \/ marked_inside sel.
Proof.
  intros class frags Hi sel S Hs Pr. split; [|now apply scoped_selector_stays_inside].
  rewrite write_selector_scoped in *. fold sel in Pr |- *. pose proof (plain_chars class Hi) as Hc. intros H.
  apply (guarded_inside_back class); auto. apply selects_inside_guarded; auto. now apply scoped_single.
Qed.
Print Assumptions scoped_selector_stays_inside_iff.

(** The same for C97: the selectors that select nothing where no element has the class are exactly
    these. *)
Theorem scoped_selector_needs_class_iff : forall class frags,
  plain_ident class = true -> let sel := List.concat frags in
  single sel -> ~ sub_text (lit "." ++ class) sel -> proper (write_selector (Some class) frags) ->
  needs_class class (write_selector (Some class) frags) <-> unmarked sel \/ marked sel.
Proof.
  intros class frags Hi sel S Hs Pr. pose proof (plain_chars class Hi) as Hc.
  pose proof (scoped_is_guarded_iff class frags Hc Hs) as Gi. fold sel in Gi. rewrite <- Gi. clear Gi.
  assert (S' : single (write_selector (Some class) frags)) by (rewrite write_selector_scoped; now apply scoped_single).
  set (t := write_selector (Some class) frags) in *. clearbody t. destruct S' as [L _]. split.
  - intros H. unfold proper in Pr. destruct (tokens t) as [|[?|w] l] eqn:T; [easy|easy|]. destruct Pr as [Hw W].
    destruct (H (said l) (steps l)) as (e & _ & E).
    + intros e c _. cbn. reflexivity.
    + exists t. rewrite L. split; [now left|]. exists 0. split; [exact I|]. rewrite T. split; [now apply Forall_forall|].
      apply (leads_said _ _ _ l W 0); cbn; auto.
    + cbn in E. destruct (compound_split l e _ E) as (pre & l' & El & _).
      destruct (class_token class t (Comb w :: pre) l' Hc) as (a & b & -> & P & N & _); [now rewrite T, El|]. exists a, b. auto.
  - intros G pg f Hp (x & I & Hx). rewrite L in I. destruct I as [<-|[]].
    destruct (guarded_selects pg class t f Hc G Hx) as (e & E1 & E2). exists e. split; auto. now apply Hp.
Qed.
Print Assumptions scoped_selector_needs_class_iff.

(** ** Whole styles *)

Definition inside_list (class sel : str) : Prop :=
  exists l, sel = join (lit ", ") l /\ l <> [] /\ Forall (guarded_inside class) l /\ Forall single l.

Lemma inside_space class sel : guarded_inside class sel -> guarded_inside class (lit " " ++ sel).
Proof. intros (a & b & -> & P & N). exists (lit " " ++ a), b. split; [now rewrite <- app_assoc|]. split; [exact P|exact N]. Qed.

Lemma inside_list_selects class sels : plain_ident class = true -> inside_list class sels -> selects_inside class sels.
Proof.
  intros Hi (l & -> & N & G & S) pg inside f Hp Ht (sel & I & H).
  assert (Gs : guarded_inside class sel).
  { destruct (list_split l S N sel [] I) as (y & Y & E). rewrite Forall_forall in G.
    destruct E as [-> | ->]; [apply G, Y|apply inside_space, G, Y]. }
  eapply guarded_inside_selects; eauto.
Qed.

Definition stays (t : str) : Prop := single t /\ (unmarked_inside t \/ marked_inside t).

Lemma block_sel_inside class sel cond : forallb ident_char class = true ->
  (forall s, sel = Some s -> inside_list class s) -> Forall (fun s => stays (List.concat s)) cond ->
  inside_list class (block_sel (Some class) sel cond).
Proof.
  intros Hc Hs H. unfold block_sel. destruct cond as [|s cond].
  - destruct sel as [s|]; [auto|]. exists [lit "." ++ class]. split; [reflexivity|]. split; [discriminate|]. split; constructor; [|constructor| |constructor].
    + exists [], []. split; [cbn; now rewrite app_nil_r|]. split; [reflexivity|]. split; [exact I|]. split; intros [].
    + apply single_iff. split; [apply class_no_comma; auto using top_ok|]. unfold place_after.
      destruct (class_neutral class Hc). rewrite neutral_fold; auto using top_ok.
  - eexists. split; [reflexivity|]. split; [discriminate|]. split; apply Forall_map; (eapply Forall_impl; [|exact H]);
      intros x [S U]; [|now apply scoped_single]. destruct U as [U|M]; [now apply unmarked_inside_guarded|now apply marked_inside_guarded].
Qed.

Lemma decls_inside class c : forallb ident_char class = true -> forall rules sel,
  (forall s, sel = Some s -> inside_list class s) -> (sel = None -> in_blocks c = true) -> all_selectors stays c ->
  Forall (fun i => exists p s, item_path i = p ++ [s] /\ inside_list class s) (decls_of (Some class) rules sel c).
Proof.
  intros Hc. induction c as [a|cond content IH|cond content IH| |c l IHc IHl] using rbc_ind2 with
    (Q := fun l => forall rules sel, (forall s, sel = Some s -> inside_list class s) -> (sel = None -> forallb in_blocks l = true) ->
       Forall (all_selectors stays) l ->
       Forall (fun i => exists p s, item_path i = p ++ [s] /\ inside_list class s) (flat_map (decls_of (Some class) rules sel) l));
    intros rules sel Hs Hb H; cbn [decls_of].
  - constructor; [|constructor]. destruct sel as [s|]; [|now specialize (Hb eq_refl)]. exists rules, s. split; auto.
  - apply all_Forall in H. apply IH; auto.
  - destruct H as [H1 H2]. apply all_Forall in H2. apply IH; auto; [|discriminate].
    intros s [= <-]. now apply block_sel_inside.
  - constructor.
  - inversion_clear H. cbn [flat_map forallb] in *. apply Forall_app. split.
    + apply IHc; auto. intros E. apply Hb in E. now apply andb_true_iff in E.
    + apply IHl; auto. intros E. apply Hb in E. now apply andb_true_iff in E.
Qed.
Lemma sheet_decls_inside class s :
  forallb ident_char class = true -> forallb (fun c => in_blocks (rbc_of_scope c)) s = true ->
  Forall (fun c => all_selectors stays (rbc_of_scope c)) s ->
  Forall (fun i => exists p sel, item_path i = p ++ [sel] /\ inside_list class sel) (sheet_decls (Some class) s).
Proof.
  intros Hc Hb H. unfold sheet_decls. induction H as [|c s H _ IH]; [constructor|].
  cbn [forallb flat_map] in *. apply andb_true_iff in Hb. destruct Hb as [B1 B2]. apply Forall_app. split; [|auto].
  apply decls_inside; auto. discriminate.
Qed.

(** If no [+] and [~] leads away from the element of the class, each declaration that is read from the
    CSS of a style applies to elements with its class and to what is inside of them only. *)
Theorem scoped_style_stays_inside_partial : forall class s,
  plain_ident class = true -> closed_sheet s -> forallb (fun c => in_blocks (rbc_of_scope c)) s = true ->
  Forall (fun c => all_selectors (fun t => single t /\ (unmarked_inside t \/ marked_inside t)) (rbc_of_scope c)) s ->
  exists items, read_css (to_style_str (Some class) s) = Some items
    /\ List.length (decls items) = List.length (sheet_decls (Some class) s)
    /\ Forall (fun i => exists p sels, item_path i = p ++ [trim sels] /\ selects_inside class sels) (decls items).
Proof.
  intros class s Hi Hcl Hb H. pose proof (plain_chars class Hi) as Hc.
  assert (Bo : boring_class (Some class)).
  { cbn [boring_class]. rewrite forallb_forall in Hc |- *. intros c I. specialize (Hc c I). unfold boring. apply negb_true_iff, mem_false.
    intros M. cbn in M. repeat (destruct M as [<-|M]; [discriminate Hc|]). exact M. }
  destruct (read_to_style_str _ s Bo Hcl) as (items & R & D & _). exists items. split; [exact R|]. rewrite D, map_length. split; [reflexivity|].
  apply Forall_map. eapply Forall_impl; [|exact (sheet_decls_inside class s Hc Hb H)].
  intros i (p & sel & E & G). exists (map trim p), sel. split; [destruct i; cbn in *; now rewrite E, map_app|].
  now apply inside_list_selects.
Qed.
Print Assumptions scoped_style_stays_inside_partial.

(** ** Counterexamples *)

(** Two elements next to each other: the first has the class, the second is a [p]. *)
Definition siblings : page :=
  mk_page bool (fun _ => True) (fun e c => e = false /\ c = lit "stylist-Ab1")
    (fun e s => e = false /\ In s [lit ".stylist-Ab1"; lit ":hover"] \/ e = true /\ s = lit "p")
    (fun c e f => e = false /\ f = true /\ (In (ch "+") c \/ In (ch "~") c)).

Theorem scoped_stays_inside_refuted :
  exists class, plain_ident class = true
  /\ forall sel, In sel [lit "+ p"; lit "& + p"; lit ":hover ~ p"] ->
       (exists s attrs, parse (sel ++ lit "{color:red;}") = Parsed s /\ s = [SBlock [[sel]] attrs])
       /\ ~ selects_inside class (write_selector (Some class) [sel]).
Proof.
  exists (lit "stylist-Ab1"). split; [reflexivity|]. intros sel I0.
  assert (Cp : css_page siblings).
  { intros e c _. cbn. split; [|intros [-> ->]; left; auto].
    intros [[-> [H|[H|[]]]]|[_ H]]; [injection H as <-; auto|discriminate|discriminate]. }
  assert (Ct : css_tree siblings (fun _ _ => False)).
  { split; [easy|]. intros c e f (_ & _ & [H|H]) N1 N2; [now elim N1|now elim N2]. }
  assert (N : forall sel t l, write_selector (Some (lit "stylist-Ab1")) [sel] = t -> selector_list t = [t] -> tokens t = Comb [] :: l ->
            leads siblings l false true -> ~ selects_inside (lit "stylist-Ab1") (write_selector (Some (lit "stylist-Ab1")) [sel])).
  { intros sel' t l -> L T H X. destruct (X siblings (fun _ _ => False) true Cp Ct) as (e & _ & E & [-> |[]]); [|destruct E; discriminate].
    exists t. rewrite L. split; [now left|]. exists false. split; [exact I|]. rewrite T. split; [constructor|exact H]. }
  destruct I0 as [<-|[<-|[<-|[]]]];
    (split; [eexists _, _; vm_compute; auto|]; eapply N; [vm_compute; reflexivity|vm_compute; reflexivity|vm_compute; reflexivity|]).
  1,2: split; [left; split; [reflexivity|now left]|]; exists true; split; [exact I|]; split; [cbn; auto 8|]; split; [right; auto|reflexivity].
  split; [left; split; [reflexivity|now left]|]. split; [left; split; [reflexivity|right; now left]|]. exists true; split; [exact I|]; split; [cbn; auto 8|]; split; [right; auto|reflexivity].
Qed.
Print Assumptions scoped_stays_inside_refuted.

(** ** A style *)

(** [p ~ a], [&:hover], [.dark + .wide > &.on p + p] and declarations without a block. *)
Definition card : sheet :=
  [SBlock [] [CAttr (mk_attr (lit "color") [lit "red"])];
   SBlock [[lit "p ~ a"]; [lit "&:hover"]] [CAttr (mk_attr (lit "top") [lit "0"])];
   SRule [lit "@media "; lit "print"] [CBlock [[lit ".dark + .wide > &.on p + p"]] [CAttr (mk_attr (lit "top") [lit "1px"])]]].
Example scoped_style_stays_inside_ex :
  plain_ident (lit "stylist-Ab1") = true /\ closed_sheet card /\ forallb (fun c => in_blocks (rbc_of_scope c)) card = true
  /\ Forall (fun c => all_selectors (fun t => single t /\ (unmarked_inside t \/ marked_inside t)) (rbc_of_scope c)) card
  /\ map item_path (sheet_decls (Some (lit "stylist-Ab1")) card)
     = [[lit ".stylist-Ab1"]; [lit ".stylist-Ab1 p ~ a, .stylist-Ab1:hover"];
        [lit "@media print"; lit ".dark + .wide > .stylist-Ab1.on p + p"]].
Proof.
  split; [reflexivity|]. split.
  { repeat first
    [ progress cbn [card rbc_of_scope closed_rbc] | progress unfold closed_sheet, closed_attr, closed
    | exact I | apply Forall_nil | apply Forall_cons | apply conj
    | reflexivity | (let X := fresh in intros X; vm_compute in X; intuition discriminate) ]. }
  split; [reflexivity|]. split; [|reflexivity].
  assert (G : forall s, mem (ch "+") (first_comb top s) = false -> mem (ch "~") (first_comb top s) = false -> goes_inside s).
  { intros s H1 H2. split; now apply mem_false. }
  constructor; [|constructor; [|constructor; [|constructor]]]; cbn [card rbc_of_scope all_selectors].
  - split; [constructor|auto].
  - split; [|auto]. constructor; [|constructor; [|constructor]]; (split; [split; vm_compute; reflexivity|]); [left|right].
    + split; [|apply G; vm_compute; reflexivity].
      intros (a & m & b & E & [-> | ->]).
      * assert (X : contains_char (ch "&") (List.concat [lit "p ~ a"]) = true); [|vm_compute in X; discriminate].
        rewrite E. apply contains_char_spec. apply in_or_app. right. now left.
      * assert (X : contains_str (lit ":root") (List.concat [lit "p ~ a"]) = true); [|vm_compute in X; discriminate].
        rewrite E. apply contains_str_spec. now exists a, b.
    + exists [], (lit "&"), (lit ":hover"). split; [reflexivity|]. split; [now left|]. split; [reflexivity|].
      split; [repeat split; discriminate|]. apply G; vm_compute; reflexivity.
  - split; [|exact I]. split; [|auto]. constructor; [|constructor]. split; [split; vm_compute; reflexivity|]. right.
    exists (lit ".dark + .wide > "), (lit "&"), (lit ".on p + p"). split; [reflexivity|]. split; [now left|]. split; [vm_compute; reflexivity|].
    split; [repeat split; discriminate|]. apply G; vm_compute; reflexivity.
Qed.

(** A page that is a tree: an element with the class, a [p] in it and the next [p]. *)
Definition nested : page :=
  mk_page nat (fun e => e < 3) (fun e c => e = 0 /\ c = lit "stylist-Ab1") (fun e s => e = 0 /\ s = lit ".stylist-Ab1" \/ 0 < e /\ s = lit "p")
    (fun c e f => if mem (ch "+") c then e = 1 /\ f = 2 else if mem (ch "~") c then e = 1 /\ f = 2 else e = 0 /\ 0 < f).
Example selects_inside_ex :
  css_page nested /\ css_tree nested (fun e f => e = 0 /\ 0 < f) /\ selects nested (lit ".stylist-Ab1 p + p") 2.
Proof.
  split; [|split; [split|]].
  - intros e c _. cbn. split; [|intros [-> ->]; auto]. intros [[-> H]|[_ H]]; [injection H as <-; auto|discriminate].
  - cbn. intros c e f g R [-> H]. split; auto. destruct (mem _ c); [lia|]. destruct (mem _ c); lia.
  - cbn. intros c e f R N1 N2. apply mem_false in N1, N2. rewrite N1, N2 in R. exact R.
  - assert (T : tokens (lit ".stylist-Ab1 p + p") = [Comb []; Simple (lit ".stylist-Ab1"); Comb (lit " "); Simple (lit "p"); Comb (lit " + "); Simple (lit "p")]) by (vm_compute; reflexivity).
    exists (lit ".stylist-Ab1 p + p"). split; [vm_compute; auto|]. exists 0. split; [cbn; lia|]. rewrite T. split; [constructor|].
    split; [left; auto|]. exists 1. split; [cbn; lia|]. split; [cbn; lia|]. split; [right; split; [lia|reflexivity]|].
    exists 2. split; [cbn; lia|]. split; [cbn; lia|]. split; [right; split; [lia|reflexivity]|reflexivity].
Qed.

Example scoped_selector_iff_ex :
  forall sel, In sel [lit "+ p"; lit "& + p"; lit ":hover ~ p"; lit "p ~ a"; lit ".dark > &"; lit ":not(&)"; lit "&-title"] ->
  single sel /\ ~ sub_text (lit ".stylist-Ab1") sel /\ proper (write_selector (Some (lit "stylist-Ab1")) [sel]).
Proof.
  assert (P : forall s w l, tokens s = Comb w :: l -> w = [] -> (forall c, last l (Simple []) <> Comb c) -> proper s).
  { intros s w l T -> H. unfold proper. rewrite T. split; [intros x []|]. intros l' c ->. elim (H c). apply last_last. }
  intros sel I. repeat (destruct I as [<-|I];
    [split; [split; vm_compute; reflexivity|]; split; [intros X; apply contains_str_spec in X; vm_compute in X; discriminate|];
     eapply P; [vm_compute; reflexivity|reflexivity|intros c; vm_compute; discriminate]|]).
  destruct I.
Qed.
