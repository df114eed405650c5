(** * PropsGuard: a scoped style selects nothing where no element has its class (C97). *)

From Coq Require Import String Ascii List NArith Bool Arith Lia.
From Verif Require Import Str StrFacts Ast Render CssParser Manager SpecRender RenderFacts RenderRead ScopeFacts SpecGuard.
Import ListNotations.
Local Open Scope list_scope.

(** ** Counterexamples *)

(** One element, with the class [stylist-Ab1-title] and without the class [stylist-Ab1]. *)
Definition titled : page :=
  mk_page unit (fun _ => True) (fun _ c => c = lit "stylist-Ab1-title")
    (fun _ s => In s [lit ":not(.stylist-Ab1)"; lit "[href=""?a.stylist-Ab1b""]"; lit ".stylist-Ab1-title"]) (fun _ _ _ => False).

(** A class name inside of [:not()], in the text of an attribute, or that goes on: these selectors
    select elements of the whole page. *)
Theorem scoped_is_guarded_refuted :
  exists class, plain_ident class = true
  /\ forall sel, In sel [lit ":not(&)"; lit "[href=""?a&b""]"; lit "&-title"] ->
       (exists s attrs, parse (sel ++ lit "{color:red;}") = Parsed s /\ s = [SBlock [[sel]] attrs])
       /\ ~ guarded class (write_selector (Some class) [sel])
       /\ exists pg f, css_page pg /\ (forall e, ~ has_class pg e class) /\ selects pg (write_selector (Some class) [sel]) f.
Proof.
  exists (lit "stylist-Ab1"). split; [reflexivity|]. intros sel I0.
  assert (N : forall s, (forall k, k <= List.length s -> skipn k s = [] \/
              starts_with (lit ".stylist-Ab1") (skipn k s) = false
              \/ place_after (firstn k s) <> top
              \/ ~ name_ends (skipn 12 (skipn k s))) -> ~ guarded (lit "stylist-Ab1") s).
  { intros s H (a & b & E & P & Nm). subst s.
    assert (L : List.length a <= List.length (a ++ lit "." ++ lit "stylist-Ab1" ++ b)) by (rewrite app_length; lia).
    specialize (H _ L). rewrite skipn_app, skipn_all, Nat.sub_diag, firstn_app, firstn_all, Nat.sub_diag in H.
    cbn [skipn firstn] in H. rewrite app_nil_r in H. cbn [List.app] in H.
    destruct H as [H|[H|[H|H]]]; [discriminate|discriminate|now elim H|now elim H]. }
  assert (D : forall s, forallb (fun k => negb (starts_with (lit ".stylist-Ab1") (skipn k s))
                  || negb (is_top (place_after (firstn k s)))
                  || match skipn 12 (skipn k s) with [] => false | c :: _ => ident_char c end) (seq 0 (S (List.length s))) = true ->
                ~ guarded (lit "stylist-Ab1") s).
  { intros s H. apply N. intros k Hk. rewrite forallb_forall in H. specialize (H k).
    rewrite in_seq in H. specialize (H ltac:(lia)). rewrite !orb_true_iff in H. destruct H as [[H|H]|H].
    - right. left. now apply negb_true_iff.
    - right. right. left. intros E. rewrite E in H. discriminate.
    - right. right. right. destruct (skipn 12 (skipn k s)) as [|c r]; [discriminate|]. intros (X & _). congruence. }
  assert (S : forall sel t, write_selector (Some (lit "stylist-Ab1")) [sel] = t -> selector_list t = [t] -> tokens t = [Comb []; Simple t] ->
            matches titled tt t -> exists pg f, css_page pg /\ (forall e, ~ has_class pg e (lit "stylist-Ab1"))
              /\ selects pg (write_selector (Some (lit "stylist-Ab1")) [sel]) f).
  { intros sel' t -> L T Mt. exists titled, tt. split; [|split].
    - intros [] c _. cbn. split; [|intros ->; auto]. intros [H|[H|[H|[]]]]; [discriminate|discriminate|now injection H].
    - intros e. cbn. discriminate.
    - exists t. rewrite L. split; [now left|]. exists tt. split; [exact I|]. rewrite T. split; [constructor|]. now split. }
  destruct I0 as [<-|[<-|[<-|[]]]];
    (split; [eexists _, _; vm_compute; auto|]; split; [apply D; vm_compute; reflexivity|];
     eapply S; [vm_compute; reflexivity|vm_compute; reflexivity|vm_compute; reflexivity|vm_compute; auto]).
Qed.
Print Assumptions scoped_is_guarded_refuted.

(** ** Exactly when *)

Lemma weave_app pa la m pb lb : weave (pa ++ (la, m) :: pb) lb = weave pa la ++ m ++ weave pb lb.
Proof. induction pa as [|[p q] pa IH]; cbn [List.app weave]; [reflexivity|]. now rewrite IH, <- !app_assoc. Qed.

Definition subst_of (c : str) (pm : str * str) : str * str := (fst pm, lit "." ++ c).

(** Chars that leave a reader where it is. *)
Definition neutral (c : char) : Prop := mem c (backslash :: quote_chars ++ lit "([)]/*") = false.
Definition quote_ok (p : place) : Prop := forall q, pl_quote p = Some q -> mem q quote_chars = true.

Lemma mem_false c l : mem c l = false <-> ~ In c l.
Proof.
  unfold mem. split.
  - intros H I. assert (existsb (char_eqb c) l = true); [|congruence]. apply existsb_exists. exists c. split; auto. now apply char_eqb_eq.
  - intros H. apply Bool.not_true_is_false. intros X. apply existsb_exists in X. destruct X as (d & I1 & I2). apply char_eqb_eq in I2. now subst.
Qed.

Lemma quote_ok_next p c : quote_ok p -> quote_ok (next_place p c).
Proof.
  intros Q q. unfold next_place. destruct (pl_comment p); [destruct (_ && _); apply Q|].
  destruct (pl_escape p); [apply Q|]. destruct (char_eqb c backslash); [apply Q|].
  destruct (pl_quote p) as [q'|] eqn:E.
  - destruct (char_eqb c q'); [discriminate|]. intros [= <-]. now apply Q.
  - destruct (mem c quote_chars) eqn:M; [intros [= <-]; auto|].
    destruct (mem c (lit "([")); [discriminate|]. destruct (mem c (lit ")]")); [discriminate|]. destruct (_ && _); discriminate.
Qed.
Lemma quote_ok_fold s : forall p, quote_ok p -> quote_ok (fold_left next_place s p).
Proof. induction s as [|c s IH]; intros p H; cbn [fold_left]; auto using quote_ok_next. Qed.

Lemma neutral_next p c : neutral c -> quote_ok p ->
  next_place p c = mk_place (pl_quote p) false (pl_depth p) (pl_comment p) false.
Proof.
  intros H Q. unfold neutral in H. apply mem_false in H. unfold next_place. destruct p as [q e d m h].
  cbn [pl_escape pl_quote pl_depth pl_comment pl_half] in *.
  assert (X : forall l, (forall x, In x l -> In x (backslash :: quote_chars ++ lit "([)]/*")) -> mem c l = false).
  { intros l Hl. apply mem_false. auto. }
  assert (Y : forall x, In x (backslash :: quote_chars ++ lit "([)]/*") -> char_eqb c x = false).
  { intros x Hx. apply Bool.not_true_is_false. intros E. apply char_eqb_eq in E. now subst. }
  rewrite (Y backslash), (Y (ch "/")), (Y (ch "*")), !andb_false_r by (cbn; intuition).
  destruct m; [reflexivity|]. destruct e; [reflexivity|]. destruct q as [q|].
  - rewrite Y; [reflexivity|]. specialize (Q q eq_refl). right. apply in_or_app. left. unfold mem in Q. apply existsb_exists in Q.
    destruct Q as (x & I1 & I2). apply char_eqb_eq in I2. now subst.
  - rewrite !X; [reflexivity| | |]; intros x Hx; cbn in *; intuition.
Qed.
Lemma neutral_fold s : s <> [] -> Forall neutral s -> forall p, quote_ok p ->
  fold_left next_place s p = mk_place (pl_quote p) false (pl_depth p) (pl_comment p) false.
Proof.
  induction s as [|c s IH]; [easy|]. intros _ H p Q. inversion_clear H as [|? ? H1 H2]. cbn [fold_left].
  rewrite neutral_next by auto. destruct s as [|c' s']; [reflexivity|]. rewrite IH; auto. easy.
Qed.

Lemma ident_neutral c : ident_char c = true -> neutral c.
Proof.
  intros H. apply mem_false. intros I. cbn in I. repeat (destruct I as [<-|I]; [discriminate H|]). exact I.
Qed.
Lemma marker_neutral m : marker m -> m <> [] /\ Forall neutral m.
Proof. intros [-> | ->]; (split; [discriminate|repeat constructor]). Qed.

Lemma app_shorter {A} (l a x y : list A) : l ++ y = a ++ x -> List.length a < List.length l -> exists q, l = a ++ q /\ q <> [].
Proof.
  revert a. induction l as [|k l IH]; intros a E L; [cbn in L; lia|].
  destruct a as [|k' a]; [exists (k :: l); split; [reflexivity|discriminate]|]. cbn in E. injection E as <- E.
  destruct (IH a E) as (q & -> & Hq); [cbn in L; lia|]. exists q. auto.
Qed.
Lemma app_longer {A} (l a x y : list A) : l ++ y = a ++ x -> List.length l <= List.length a -> exists q, a = l ++ q /\ y = q ++ x.
Proof.
  revert a. induction l as [|k l IH]; intros a E L; [exists a; auto|].
  destruct a as [|k' a]; [cbn in L; lia|]. cbn in E. injection E as <- E.
  destruct (IH a E) as (q & -> & Hq); [cbn in L; lia|]. exists q. auto.
Qed.

Lemma plain_chars class : plain_ident class = true -> forallb ident_char class = true.
Proof.
  assert (S : forall c, ident_start c = true -> ident_char c = true) by (intros c H; unfold ident_char; now rewrite H).
  destruct class as [|c s]; [easy|]. cbn [plain_ident forallb]. destruct (char_eqb c (ch "-")) eqn:E.
  - apply char_eqb_eq in E. subst. destruct s as [|x s]; [easy|]. intros H. apply andb_true_iff in H. destruct H as [H1 H2].
    cbn [forallb]. rewrite H2, andb_true_r. apply orb_true_iff in H1. destruct H1 as [H1|H1]; [now rewrite (S x H1)|].
    apply char_eqb_eq in H1. now subst.
  - intros H. apply andb_true_iff in H. destruct H as [H1 ->]. now rewrite (S c H1).
Qed.

Section Class.
Variable class : str.
Hypothesis plain : forallb ident_char class = true.
Let d := lit "." ++ class.

Lemma class_no c : ident_char c = false -> ~ In c class.
Proof. intros H I. rewrite forallb_forall in plain. apply plain in I. congruence. Qed.
Lemma class_neutral : d <> [] /\ Forall neutral d.
Proof.
  split; [discriminate|]. constructor; [reflexivity|]. apply Forall_forall. intros c I. rewrite forallb_forall in plain.
  apply ident_neutral. auto.
Qed.

Lemma place_weave pieces last : Forall (fun pm => marker (snd pm)) pieces -> forall p, quote_ok p ->
  fold_left next_place (weave (map (subst_of class) pieces) last) p = fold_left next_place (weave pieces last) p.
Proof.
  induction 1 as [|[q m] pieces M _ IH]; intros p Q; cbn [map subst_of fst weave snd] in *; [reflexivity|].
  destruct (marker_neutral m M) as [M1 M2]. destruct class_neutral as [C1 C2].
  change (lit "." ++ class) with d. generalize dependent d. intros dd C1 C2.
  rewrite !fold_left_app. rewrite (neutral_fold m), (neutral_fold dd) by auto using quote_ok_fold. apply IH.
  intros x. cbn [pl_quote]. apply quote_ok_fold, Q.
Qed.
Lemma top_ok : quote_ok top.
Proof. easy. Qed.

Lemma ends_weave pieces last : Forall (fun pm => marker (snd pm)) pieces ->
  name_ends (weave (map (subst_of class) pieces) last) <-> name_ends (weave pieces last).
Proof.
  intros H. destruct pieces as [|[q m] pieces]; cbn [map subst_of fst weave]; [reflexivity|].
  destruct q as [|c q]; [|reflexivity]. inversion_clear H as [|? ? M _]. cbn [snd] in M. cbn [List.app].
  assert (X : name_ends (lit "." ++ class ++ weave (map (subst_of class) pieces) last)) by (repeat split; discriminate).
  destruct M as [-> | ->]; (split; [|intros _; exact X]); intros _; repeat split; discriminate.
Qed.

Lemma scoped_weave pieces last :
  pieces <> [] -> Forall (fun pm => plain_piece (fst pm) /\ marker (snd pm)) pieces -> plain_piece last ->
  scoped (Some class) (weave pieces last) = weave (map (subst_of class) pieces) last.
Proof.
  intros Hn Hp Hl. pose proof (scoped_markers class pieces last [weave pieces last]) as W.
  rewrite write_selector_scoped in W. cbn [List.concat] in W. rewrite app_nil_r in W.
  apply W; auto. now apply class_no.
Qed.

Lemma markers_of {A} (P : A -> Prop) (l : list (A * str)) :
  Forall (fun pm => P (fst pm) /\ marker (snd pm)) l -> Forall (fun pm => marker (snd pm)) l.
Proof. intros H. eapply Forall_impl; [|exact H]. now intros ? [? ?]. Qed.

Lemma marked_guarded sel : marked sel -> guarded class (scoped (Some class) sel).
Proof.
  intros (a & m & b & -> & M & P & Nm).
  destruct (weave_exists a) as (pa & la & -> & Ha & Hla). destruct (weave_exists b) as (pb & lb & -> & Hb & Hlb).
  rewrite <- weave_app. rewrite scoped_weave; auto.
  - rewrite map_app. change (map (subst_of class) ((la, m) :: pb)) with ((la, lit "." ++ class) :: map (subst_of class) pb).
    rewrite weave_app, <- (app_assoc (lit ".")). eexists _, _. split; [reflexivity|].
    split; [|now apply ends_weave, Nm; eapply markers_of; eauto]. unfold place_after. rewrite place_weave; auto using top_ok.
    eapply markers_of; eauto.
  - now destruct pa.
  - apply Forall_app. split; auto.
Qed.

Lemma unmarked_guarded sel : unmarked sel -> guarded class (scoped (Some class) sel).
Proof.
  intros H. destruct (weave_exists sel) as (pieces & last & E & Hp & Hl).
  destruct pieces as [|[p m] pieces].
  - cbn [weave] in E. subst. unfold scoped.
    destruct (contains_char (ch "&") last) eqn:C1; [apply contains_char_spec in C1; now elim (proj1 Hl)|].
    destruct (contains_str (lit ":root") last) eqn:C2; [apply contains_str_spec in C2; now elim (proj2 Hl)|].
    cbn [orb]. destruct (starts_with (lit ":") last) eqn:S.
    + exists [], last. split; [reflexivity|]. split; [reflexivity|]. destruct last as [|c l]; [exact I|]. apply starts_with_spec in S. destruct S as (t & S). injection S as -> _. repeat split; discriminate.
    + exists [], (lit " " ++ last). split; [reflexivity|]. split; [reflexivity|]. repeat split; discriminate.
  - elim H. exists p, m, (weave pieces last). split; auto. inversion_clear Hp as [|? ? X _]. apply X.
Qed.

(** A class selector in the text is one that was put there. *)
Lemma dot_split a (x y : str) : d ++ y = a ++ lit "." ++ x -> a <> [] -> List.length d <= List.length a.
Proof.
  intros E Ha. destruct (le_lt_dec (List.length d) (List.length a)) as [L|L]; auto. exfalso.
  destruct (app_shorter _ _ _ _ E L) as (q & Q & Hq). rewrite Q, <- app_assoc in E. apply app_inv_head in E.
  destruct a as [|c a]; [easy|]. destruct q as [|k q]; [easy|]. injection E as -> _.
  unfold d in Q. injection Q as _ Q. apply (class_no (ch ".")); [reflexivity|]. rewrite Q. apply in_or_app. right. now left.
Qed.

Lemma class_found pieces last : forall A B,
  Forall (fun pm => ~ sub_text d (fst pm)) pieces -> ~ sub_text d last ->
  weave (map (subst_of class) pieces) last = A ++ d ++ B ->
  exists pa la m pb, pieces = pa ++ (la, m) :: pb /\ A = weave (map (subst_of class) pa) la /\ B = weave (map (subst_of class) pb) last.
Proof.
  induction pieces as [|[p m] pieces IH]; intros A B Hp Hl E.
  - elim Hl. exists A, B. exact E.
  - inversion_clear Hp as [|? ? P1 P2]. cbn [fst] in P1.
    change (weave (map (subst_of class) ((p, m) :: pieces)) last) with (p ++ d ++ weave (map (subst_of class) pieces) last) in E.
    destruct (le_lt_dec (List.length p) (List.length A)) as [L|L].
    + destruct (app_longer _ _ _ _ E L) as (q & -> & E1). destruct q as [|c q].
      * exists [], p, m, pieces. rewrite app_nil_r. cbn [List.app] in E1. apply app_inv_head in E1. auto.
      * assert (L2 : List.length d <= List.length (c :: q)).
        { apply (dot_split (c :: q) (class ++ B) (weave (map (subst_of class) pieces) last)); [|discriminate]. exact E1. }
        destruct (app_longer _ _ _ _ E1 L2) as (q' & -> & E2).
        destruct (IH q' B P2 Hl E2) as (pa & la & m' & pb & -> & -> & ->).
        exists ((p, m) :: pa), la, m', pb. split; [reflexivity|]. split; [|reflexivity]. reflexivity.
    + exfalso. destruct (app_shorter _ _ _ _ E L) as (q & -> & Hq). rewrite <- app_assoc in E. apply app_inv_head in E.
      assert (L2 : List.length d <= List.length q).
      { apply (dot_split q (class ++ weave (map (subst_of class) pieces) last) B); auto. }
      symmetry in E. destruct (app_longer _ _ _ _ E L2) as (q' & -> & _). apply P1. now exists A, q'.
Qed.

Lemma weave_sub pieces last x : ~ sub_text x (weave pieces last) ->
  Forall (fun pm => ~ sub_text x (fst pm)) pieces /\ ~ sub_text x last.
Proof.
  induction pieces as [|[p m] pieces IH]; cbn [weave]; intros H; [auto|].
  destruct IH as [I1 I2].
  { intros (a & b & E). apply H. exists (p ++ m ++ a), b. rewrite E, <- !app_assoc. reflexivity. }
  split; auto. constructor; auto. cbn [fst]. intros (a & b & ->). apply H.
  exists a, (b ++ m ++ weave pieces last). now rewrite <- !app_assoc.
Qed.

Lemma guarded_back sel : ~ sub_text d sel -> guarded class (scoped (Some class) sel) -> unmarked sel \/ marked sel.
Proof.
  intros Hs (A & B & E & P & Nm). destruct (weave_exists sel) as (pieces & last & Es & Hp & Hl). subst sel.
  destruct pieces as [|pm pieces].
  - left. cbn [weave]. intros (a & m & b & -> & [-> | ->]).
    + apply (proj1 Hl). apply in_or_app. right. now left.
    + apply (proj2 Hl). now exists a, b.
  - right. rewrite scoped_weave in E; auto; [|discriminate]. destruct (weave_sub _ _ _ Hs) as [S1 S2].
    destruct (class_found _ _ A B S1 S2) as (pa & la & m & pb & Eq & -> & ->).
    { rewrite E. unfold d. now rewrite <- app_assoc. }
    rewrite Eq in *. clear Eq. apply markers_of in Hp. apply Forall_app in Hp. destruct Hp as [Ma Mb]. inversion_clear Mb as [|? ? Mm Mb'].
    exists (weave pa la), m, (weave pb last). split; [apply weave_app|]. split; [exact Mm|]. split.
    + unfold place_after in *. rewrite place_weave in P; auto using top_ok.
    + exact (proj1 (ends_weave pb last Mb') Nm).
Qed.

End Class.

(** The class of a scoped style is in a selector, outside of strings, parentheses and brackets, if and
    only if it has no [&] and [:root], or has one there that is not followed by a char of names. *)
Theorem scoped_is_guarded_iff : forall class frags,
  forallb ident_char class = true -> let sel := List.concat frags in ~ sub_text (lit "." ++ class) sel ->
  guarded class (write_selector (Some class) frags) <-> unmarked sel \/ marked sel.
Proof.
  intros class frags H sel Hs. rewrite write_selector_scoped. fold sel. split; [now apply guarded_back|]. intros [U|M]; [now apply unmarked_guarded|now apply marked_guarded].
Qed.
Print Assumptions scoped_is_guarded_iff.

(** ** What is selected *)

Lemma is_top_iff p : is_top p = true <-> p = top.
Proof.
  destruct p as [[q|] [] [|d] [] []]; cbn; split; intros H; try discriminate; reflexivity.
Qed.

Lemma tokens_app a r : forall p cur, exists out cur',
  tokens_from p cur (a ++ r) = out ++ tokens_from (fold_left next_place a p) cur' r.
Proof.
  induction a as [|c a IH]; intros p cur; [exists [], cur; reflexivity|].
  cbn [List.app tokens_from fold_left].
  set (p' := next_place p c).
  assert (K : forall cur1, exists out cur', tokens_from p' cur1 (a ++ r) = out ++ tokens_from (fold_left next_place a p') cur' r)
    by (intros; apply IH).
  assert (K' : forall cur1, exists out cur', cur :: tokens_from p' cur1 (a ++ r) = out ++ tokens_from (fold_left next_place a p') cur' r).
  { intros cur1. destruct (K cur1) as (o & c' & ->). now exists (cur :: o), c'. }
  destruct (is_top p), (mem c (css_space ++ lit ">+~")), cur; auto. destruct (_ || _); auto.
Qed.

Lemma ident_next c : ident_char c = true -> next_place top c = top.
Proof. intros H. rewrite neutral_next; auto using ident_neutral. easy. Qed.
Lemma ident_no_comb c : ident_char c = true -> mem c (css_space ++ lit ">+~") = false.
Proof. intros H. apply mem_false. intros I. cbn in I. repeat (destruct I as [<-|I]; [discriminate H|]). exact I. Qed.

Lemma tokens_name c : forallb ident_char c = true -> forall t b,
  tokens_from top (Simple t) (c ++ b) = tokens_from top (Simple (t ++ c)) b.
Proof.
  induction c as [|x c IH]; intros H t b; [now rewrite app_nil_r|]. cbn [forallb] in H. apply andb_true_iff in H. destruct H as [H1 H2].
  cbn [List.app tokens_from]. rewrite ident_next, ident_no_comb by auto. change (is_top top) with true. cbv iota.
  unfold name_char. rewrite H1. cbn [orb]. rewrite IH by auto. now rewrite <- app_assoc.
Qed.

Lemma guarded_token class sel : forallb ident_char class = true -> guarded class sel -> In (Simple (lit "." ++ class)) (tokens sel).
Proof.
  intros Hc (a & b & -> & P & Nm). unfold tokens.
  destruct (tokens_app a (lit "." ++ class ++ b) top (Comb [])) as (out & cur & ->).
  apply in_or_app. right. unfold place_after in P. rewrite P.
  assert (D : In (Simple (lit "." ++ class)) (tokens_from top (Simple (lit ".")) (class ++ b))).
  { rewrite tokens_name by auto. destruct b as [|x b]; [now left|]. destruct Nm as (N1 & N2 & N3). cbn [tokens_from].
    change (is_top top) with true. cbv iota. destruct (mem x _); [now left|].
    unfold name_char. rewrite N1. destruct (char_eqb x backslash) eqn:E; [now apply char_eqb_eq in E|].
    destruct (x =? 0)%N eqn:Z; [now apply N.eqb_eq in Z|]. cbn [orb].
    destruct (str_eqb (lit "." ++ class) (lit ":")) eqn:S; [apply str_eqb_eq in S; discriminate|].
    change (starts_with (lit ":") (lit "." ++ class)) with false. now left. }
  change (lit "." ++ class ++ b) with (ch "." :: class ++ b). cbn [tokens_from].
  change (is_top top) with true. change (next_place top (ch ".")) with top.
  change (mem (ch ".") (css_space ++ lit ">+~")) with false. cbv iota.
  destruct cur as [t|t]; [|now right]. change (name_char (ch ".")) with false.
  change (char_eqb (ch ".") (ch ":")) with false. change (char_eqb (ch ".") (ch "(")) with false. rewrite !andb_false_r. now right.
Qed.

Lemma leads_matches pg s l : In (Simple s) l -> forall e f, present pg e -> leads pg l e f ->
  exists e', present pg e' /\ matches pg e' s.
Proof.
  induction l as [|t l IH]; [easy|]. intros I e f Pe H. destruct t as [t|c].
  - cbn [leads] in H. destruct H as [H1 H2]. destruct I as [[= ->]|I]; eauto.
  - destruct I as [I|I]; [discriminate|]. destruct l as [|t' l']; [easy|].
    change (exists e', present pg e' /\ reaches pg c e e' /\ leads pg (t' :: l') e' f) in H. destruct H as (e' & P' & _ & H). eauto.
Qed.
Lemma guarded_selects pg class sel f : forallb ident_char class = true -> guarded class sel -> selects_one pg sel f ->
  exists e, present pg e /\ matches pg e (lit "." ++ class).
Proof.
  intros Hc G (e & Pe & H). apply guarded_token in G; auto. destruct (tokens sel) as [|[t|c] l]; [easy| |].
  - eapply leads_matches; eauto.
  - destruct G as [G|G]; [discriminate|]. destruct H as [_ H]. eapply leads_matches; eauto.
Qed.

(** ** Lists of selectors *)

Fixpoint no_comma (p : place) (s : str) : bool :=
  match s with
  | [] => true
  | c :: s' => negb (is_top p && char_eqb c (ch ",")) && no_comma (next_place p c) s'
  end.
Lemma no_comma_app s t : forall p, no_comma p (s ++ t) = no_comma p s && no_comma (fold_left next_place s p) t.
Proof. induction s as [|c s IH]; intros p; cbn [List.app no_comma fold_left]; [reflexivity|]. now rewrite IH, andb_assoc. Qed.
Lemma split_no_comma s r : forall p d, no_comma p s = true -> split_top p d (s ++ r) = split_top (fold_left next_place s p) (d ++ s) r.
Proof.
  induction s as [|c s IH]; intros p d H; cbn [List.app fold_left]; [now rewrite app_nil_r|].
  cbn [no_comma split_top] in *. apply andb_true_iff in H. destruct H as [H1 H2]. apply negb_true_iff in H1. rewrite H1, IH by auto.
  now rewrite <- app_assoc.
Qed.
Lemma split_some s : forall p d, split_top p d s <> [].
Proof. induction s as [|c s IH]; intros p d; cbn [split_top]; [easy|]. destruct (_ && _); [easy|apply IH]. Qed.
Lemma split_one s : forall p d x, split_top p d s = [x] -> no_comma p s = true.
Proof.
  induction s as [|c s IH]; intros p d x H; cbn [split_top no_comma] in *; [reflexivity|].
  destruct (_ && _); [injection H as _ H; now apply split_some in H|]. cbn. eauto.
Qed.
Lemma single_iff s : single s <-> no_comma top s = true /\ place_after s = top.
Proof.
  unfold single, selector_list. split; intros [H1 H2]; (split; [|exact H2]); [eauto using split_one|].
  rewrite <- (app_nil_r s) at 1. now rewrite split_no_comma.
Qed.

Lemma plain_no_comma s : Forall neutral s -> ~ In (ch ",") s -> forall p, quote_ok p -> no_comma p s = true.
Proof.
  induction s as [|c s IH]; intros H N p Q; cbn [no_comma]; [reflexivity|]. inversion_clear H as [|? ? H1 H2].
  destruct (char_eqb c (ch ",")) eqn:E; [apply char_eqb_eq in E; subst; elim N; now left|]. rewrite andb_false_r. cbn [negb andb].
  apply IH; auto using quote_ok_next. intros I. apply N. now right.
Qed.

Section Singles.
Variable class : str.
Hypothesis plain : forallb ident_char class = true.
Let d := lit "." ++ class.

Lemma class_no_comma p : quote_ok p -> no_comma p d = true.
Proof.
  intros Q. apply plain_no_comma; auto; [apply (class_neutral class plain)|].
  intros [I|I]; [discriminate|]. apply (class_no class plain) in I; [exact I|reflexivity].
Qed.
Lemma weave_no_comma pieces last : Forall (fun pm => marker (snd pm)) pieces -> forall p, quote_ok p ->
  no_comma p (weave (map (subst_of class) pieces) last) = no_comma p (weave pieces last).
Proof.
  induction 1 as [|[q m] pieces M _ IH]; intros p Q; cbn [map subst_of fst weave snd] in *; [reflexivity|].
  change (lit "." ++ class) with d.
  destruct (marker_neutral m M) as [M1 M2]. destruct (class_neutral class plain) as [C1 C2]. fold d in C1, C2.
  assert (N : forall p, quote_ok p -> no_comma p d = true) by (intros; now apply class_no_comma).
  generalize dependent d. intros dd C1 C2 N.
  rewrite !no_comma_app, N by auto using quote_ok_fold.
  rewrite (plain_no_comma m) by (auto using quote_ok_fold; destruct M as [-> | ->]; cbn; intuition discriminate).
  rewrite (neutral_fold m), (neutral_fold dd) by auto using quote_ok_fold. f_equal. cbn [andb]. apply IH.
  intros x. cbn [pl_quote]. apply quote_ok_fold, Q.
Qed.

Lemma scoped_single sel : single sel -> single (scoped (Some class) sel).
Proof.
  rewrite !single_iff. intros [H1 H2]. destruct (weave_exists sel) as (pieces & last & E & Hp & Hl). subst sel.
  destruct pieces as [|pm pieces].
  - cbn [weave] in *. unfold scoped.
    destruct (contains_char (ch "&") last) eqn:C1; [apply contains_char_spec in C1; now elim (proj1 Hl)|].
    destruct (contains_str (lit ":root") last) eqn:C2; [apply contains_str_spec in C2; now elim (proj2 Hl)|].
    cbn [orb]. destruct (class_neutral class plain) as [X1 X2]. fold d in X1, X2.
    assert (T : fold_left next_place d top = top) by (rewrite neutral_fold; auto using top_ok).
    assert (N : no_comma top d = true) by apply class_no_comma, top_ok.
    destruct (starts_with (lit ":") last); cbn [List.app]; change (ch "." :: class) with d.
    + rewrite app_assoc. change (lit "." ++ class) with d. unfold place_after. rewrite no_comma_app, fold_left_app, T, N. auto.
    + rewrite app_assoc. change (lit "." ++ class) with d. unfold place_after. rewrite no_comma_app, fold_left_app, T, N. cbn [no_comma fold_left List.app lit]. auto.
  - rewrite scoped_weave; auto; [|discriminate]. apply markers_of in Hp. unfold place_after in *.
    rewrite place_weave, weave_no_comma; auto using top_ok.
Qed.
End Singles.

Lemma guarded_space class sel : guarded class sel -> guarded class (lit " " ++ sel).
Proof. intros (a & b & -> & P & N). exists (lit " " ++ a), b. split; [now rewrite <- app_assoc|]. split; [exact P|exact N]. Qed.

Lemma list_split l : Forall single l -> l <> [] -> forall x d, In x (split_top top d (join (lit ", ") l)) ->
  exists y, In y l /\ (x = d ++ y \/ x = lit " " ++ y).
Proof.
  induction 1 as [|y l Hy Hl IH]; [easy|]. intros _ x d I. apply single_iff in Hy. destruct Hy as [Y1 Y2]. unfold place_after in Y2.
  destruct l as [|z l].
  - cbn [join] in I. rewrite <- (app_nil_r y) in I. rewrite split_no_comma in I by auto. cbn [split_top] in I.
    destruct I as [<-|[]]. exists y. split; [now left|]. now left.
  - change (join (lit ", ") (y :: z :: l)) with (y ++ lit ", " ++ join (lit ", ") (z :: l)) in I.
    rewrite split_no_comma, Y2 in I by auto.
    change (lit ", " ++ join (lit ", ") (z :: l)) with (ch "," :: ch " " :: join (lit ", ") (z :: l)) in I.
    change (split_top top (d ++ y) (ch "," :: ch " " :: join (lit ", ") (z :: l)))
      with ((d ++ y) :: split_top top (lit " ") (join (lit ", ") (z :: l))) in I.
    destruct I as [<-|I]; [exists y; split; [now left|now left]|].
    destruct (IH ltac:(discriminate) x _ I) as (w & W1 & W2). exists w. split; [now right|]. right. now destruct W2.
Qed.

(** A list of single selectors that are all guarded. *)
Definition guarded_list (class sel : str) : Prop :=
  exists l, sel = join (lit ", ") l /\ l <> [] /\ Forall (guarded class) l /\ Forall single l.

Lemma guarded_list_selects pg class sels f : css_page pg -> plain_ident class = true -> guarded_list class sels -> selects pg sels f ->
  exists e, present pg e /\ has_class pg e class.
Proof.
  intros Hp Hi (l & -> & N & G & S) (sel & I & H).
  assert (Hc : forallb ident_char class = true) by now apply plain_chars.
  assert (Gs : guarded class sel).
  { destruct (list_split l S N sel [] I) as (y & Y & E). rewrite Forall_forall in G.
    destruct E as [-> | ->]; [apply G, Y|apply guarded_space, G, Y]. }
  destruct (guarded_selects pg class sel f Hc Gs H) as (e & E1 & E2). exists e. split; auto. now apply Hp.
Qed.

(** ** Whole styles *)

Lemma block_sel_guarded class sel cond : forallb ident_char class = true ->
  (forall s, sel = Some s -> guarded_list class s) -> Forall (fun s => single (List.concat s) /\ (unmarked (List.concat s) \/ marked (List.concat s))) cond ->
  guarded_list class (block_sel (Some class) sel cond).
Proof.
  intros Hc Hs H. unfold block_sel. destruct cond as [|s cond].
  - destruct sel as [s|]; [auto|]. exists [lit "." ++ class]. split; [reflexivity|]. split; [discriminate|]. split; constructor; [|constructor| |constructor].
    + exists [], []. split; [cbn; now rewrite app_nil_r|]. split; [reflexivity|exact I].
    + apply single_iff. split; [apply class_no_comma; auto using top_ok|]. unfold place_after.
      destruct (class_neutral class Hc). rewrite neutral_fold; auto using top_ok.
  - eexists. split; [reflexivity|]. split; [discriminate|]. split; apply Forall_map; (eapply Forall_impl; [|exact H]);
      intros x [S U]; [|now apply scoped_single]. destruct U as [U|M]; [now apply unmarked_guarded|now apply marked_guarded].
Qed.

Lemma decls_guarded class c : forallb ident_char class = true -> forall rules sel,
  (forall s, sel = Some s -> guarded_list class s) -> (sel = None -> in_blocks c = true) ->
  all_selectors (fun s => single s /\ (unmarked s \/ marked s)) c ->
  Forall (fun i => exists p s, item_path i = p ++ [s] /\ guarded_list class s) (decls_of (Some class) rules sel c).
Proof.
  intros Hc. induction c as [a|cond content IH|cond content IH| |c l IHc IHl] using rbc_ind2 with
    (Q := fun l => forall rules sel, (forall s, sel = Some s -> guarded_list class s) -> (sel = None -> forallb in_blocks l = true) ->
       Forall (all_selectors (fun s => single s /\ (unmarked s \/ marked s))) l ->
       Forall (fun i => exists p s, item_path i = p ++ [s] /\ guarded_list class s) (flat_map (decls_of (Some class) rules sel) l));
    intros rules sel Hs Hb H; cbn [decls_of].
  - constructor; [|constructor]. destruct sel as [s|]; [|now specialize (Hb eq_refl)]. exists rules, s. split; auto.
  - apply all_Forall in H. apply IH; auto.
  - destruct H as [H1 H2]. apply all_Forall in H2. apply IH; auto; [|discriminate].
    intros s [= <-]. now apply block_sel_guarded.
  - constructor.
  - inversion_clear H. cbn [flat_map forallb] in *. apply Forall_app. split.
    + apply IHc; auto. intros E. apply Hb in E. now apply andb_true_iff in E.
    + apply IHl; auto. intros E. apply Hb in E. now apply andb_true_iff in E.
Qed.

Lemma sheet_decls_guarded class s :
  forallb ident_char class = true -> forallb (fun c => in_blocks (rbc_of_scope c)) s = true ->
  Forall (fun c => all_selectors (fun t => single t /\ (unmarked t \/ marked t)) (rbc_of_scope c)) s ->
  Forall (fun i => exists p sel, item_path i = p ++ [sel] /\ guarded_list class sel) (sheet_decls (Some class) s).
Proof.
  intros Hc Hb H. unfold sheet_decls. induction H as [|c s H _ IH]; [constructor|].
  cbn [forallb flat_map] in *. apply andb_true_iff in Hb. destruct Hb as [B1 B2]. apply Forall_app. split; [|auto].
  apply decls_guarded; auto. discriminate.
Qed.

(** If all selectors of a style are like this, each declaration that is read from its CSS stands
    under selectors that select nothing in pages without an element of the class, and all of its
    declarations are read.  (Declarations of frames and of at-rules without a block have no
    selector.) *)
Theorem scoped_style_is_guarded_partial : forall class s,
  plain_ident class = true -> closed_sheet s -> forallb (fun c => in_blocks (rbc_of_scope c)) s = true ->
  Forall (fun c => all_selectors (fun t => single t /\ (unmarked t \/ marked t)) (rbc_of_scope c)) s ->
  exists items, read_css (to_style_str (Some class) s) = Some items
    /\ List.length (decls items) = List.length (sheet_decls (Some class) s)
    /\ Forall (fun i => exists p sels, item_path i = p ++ [trim sels]
         /\ forall pg f, css_page pg -> selects pg sels f -> exists e, present pg e /\ has_class pg e class) (decls items).
Proof.
  intros class s Hi Hcl Hb H. pose proof (plain_chars class Hi) as Hc.
  assert (Bo : boring_class (Some class)).
  { cbn [boring_class]. rewrite forallb_forall in Hc |- *. intros c I. specialize (Hc c I). unfold boring. apply negb_true_iff, mem_false.
    intros M. cbn in M. repeat (destruct M as [<-|M]; [discriminate Hc|]). exact M. }
  destruct (read_to_style_str _ s Bo Hcl) as (items & R & D & _). exists items. split; [exact R|]. rewrite D, map_length. split; [reflexivity|].
  apply Forall_map. eapply Forall_impl; [|exact (sheet_decls_guarded class s Hc Hb H)].
  intros i (p & sel & E & G). exists (map trim p), sel. split; [destruct i; cbn in *; now rewrite E, map_app|].
  intros pg f Cp Hf. eapply guarded_list_selects; eauto.
Qed.
Print Assumptions scoped_style_is_guarded_partial.

(** [p], [&:hover], [.dark &.on > p] and declarations without a block. *)
Definition menu : sheet :=
  [SBlock [] [CAttr (mk_attr (lit "color") [lit "red"])];
   SBlock [[lit "p"]; [lit "&:hover"]] [CAttr (mk_attr (lit "top") [lit "0"])];
   SRule [lit "@media "; lit "print"] [CBlock [[lit ".dark &.on > p"]] [CAttr (mk_attr (lit "top") [lit "1px"])]]].
Example scoped_style_is_guarded_ex :
  plain_ident (lit "stylist-Ab1") = true /\ closed_sheet menu /\ forallb (fun c => in_blocks (rbc_of_scope c)) menu = true
  /\ Forall (fun c => all_selectors (fun t => single t /\ (unmarked t \/ marked t)) (rbc_of_scope c)) menu
  /\ map item_path (sheet_decls (Some (lit "stylist-Ab1")) menu)
     = [[lit ".stylist-Ab1"]; [lit ".stylist-Ab1 p, .stylist-Ab1:hover"]; [lit "@media print"; lit ".dark .stylist-Ab1.on > p"]]
  /\ ~ sub_text (lit "." ++ lit "stylist-Ab1") (lit ".dark &.on > p").
Proof.
  split; [reflexivity|]. split.
  { repeat first
    [ progress cbn [menu rbc_of_scope closed_rbc] | progress unfold closed_sheet, closed_attr, closed
    | exact I | apply Forall_nil | apply Forall_cons | apply conj
    | reflexivity | (let X := fresh in intros X; vm_compute in X; intuition discriminate) ]. }
  split; [reflexivity|]. split; [|split; [reflexivity|]].
  - constructor; [|constructor; [|constructor; [|constructor]]]; cbn [menu rbc_of_scope all_selectors].
    + split; [constructor|auto].
    + split; [|auto]. constructor; [|constructor; [|constructor]]; (split; [split; vm_compute; reflexivity|]); [left|right].
      * cbn. intros (a & m & b & E & [-> | ->]); destruct a as [|x a]; cbn in E; try discriminate; injection E as _ E;
          destruct a; cbn in E; discriminate.
      * exists [], (lit "&"), (lit ":hover"). split; [reflexivity|]. split; [now left|]. split; [reflexivity|]. repeat split; discriminate.
    + split; [|exact I]. split; [|auto]. constructor; [|constructor]. split; [split; vm_compute; reflexivity|]. right.
      exists (lit ".dark "), (lit "&"), (lit ".on > p"). split; [reflexivity|]. split; [now left|]. split; [reflexivity|]. repeat split; discriminate.
  - intros H. apply contains_str_spec in H. vm_compute in H. discriminate.
Qed.

(** How the selectors are read, and a page in which they select: an element with both classes and
    one inside of it. *)
Definition two : page :=
  mk_page bool (fun _ => True) (fun e c => e = false /\ In c [lit "stylist-Ab1"; lit "on"])
    (fun e s => e = false /\ In s [lit ".stylist-Ab1"; lit ".on"; lit ":hover"] \/ e = true /\ s = lit "p")
    (fun _ e f => e = false /\ f = true).
Example selects_ex :
  map tokens (selector_list (lit ".stylist-Ab1 p, .stylist-Ab1.on:hover > a[href="", .b""]::after"))
    = [[Comb []; Simple (lit ".stylist-Ab1"); Comb (lit " "); Simple (lit "p")];
       [Comb (lit " "); Simple (lit ".stylist-Ab1"); Simple (lit ".on"); Simple (lit ":hover"); Comb (lit " > ");
        Simple (lit "a"); Simple (lit "[href="", .b""]"); Simple (lit "::after")]]
  /\ css_page two /\ selects two (lit "a, .stylist-Ab1.on > p") true /\ selects two (lit ".stylist-Ab1:hover, .x") false.
Proof.
  split; [vm_compute; reflexivity|]. split; [|split].
  - intros e c _. cbn. split.
    + intros [[-> [H|[H|[H|[]]]]]|[_ H]]; [injection H as <-|injection H as <-|discriminate|discriminate]; auto.
    + intros [-> [<-|[<-|[]]]]; left; auto.
  - exists (lit " .stylist-Ab1.on > p"). split; [vm_compute; auto|]. exists false. split; [exact I|].
    assert (T : tokens (lit " .stylist-Ab1.on > p") = [Comb (lit " "); Simple (lit ".stylist-Ab1"); Simple (lit ".on"); Comb (lit " > "); Simple (lit "p")]) by (vm_compute; reflexivity).
    rewrite T. split; [repeat constructor|]. cbn [leads]. split; [left; cbn; auto|]. split; [left; cbn; auto|].
    exists true. split; [exact I|]. split; [split; reflexivity|]. split; [right; auto|reflexivity].
  - exists (lit ".stylist-Ab1:hover"). split; [vm_compute; auto|]. exists false. split; [exact I|].
    assert (T : tokens (lit ".stylist-Ab1:hover") = [Comb []; Simple (lit ".stylist-Ab1"); Simple (lit ":hover")]) by (vm_compute; reflexivity).
    rewrite T. split; [constructor|]. cbn [leads]. split; [left; cbn; auto|]. split; [left; cbn; auto|reflexivity].
Qed.
