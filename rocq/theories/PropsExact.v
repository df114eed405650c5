(** * PropsExact: exactly what happens to quoted text in selectors (C07) and exactly where
    selector lists are split (C15). *)

From Coq Require Import String Ascii List NArith Bool Arith Lia.
From Verif Require Import SpecRender Str StrFacts Ast Render RenderFacts RenderRead ScopeFacts
  Nom CssParser SpecSays SpecGrammar ParserTotal ParserTokens ParserSel ParserComplete PropsParser.
Import ListNotations.
Local Open Scope list_scope.

(** ** C07: quoted text *)

Lemma starts_with_cut p q : ~ In q p -> forall s x, starts_with p (s ++ q :: x) = starts_with p s.
Proof.
  induction p as [|a p IH]; intros H s x; [now destruct s|].
  destruct s as [|b s]; cbn [app starts_with].
  - destruct (char_eqb a q) eqn:E; [|reflexivity]. apply char_eqb_eq in E. subst. elim H. now left.
  - rewrite IH; [reflexivity|]. intros X. apply H. now right.
Qed.

Lemma replace_cut p r q : ~ In q p -> p <> [] -> forall a k x, k <= List.length a ->
  replace_aux p r (a ++ q :: x) k = replace_aux p r a k ++ q :: replace_aux p r x 0.
Proof.
  intros H Hp. induction a as [|y a IH]; intros k x L.
  - destruct k; [|cbn in L; lia]. cbn [app replace_aux].
    change (q :: x) with ([] ++ q :: x). rewrite (starts_with_cut p q H). now destruct p.
  - destruct k as [|k]; cbn [app replace_aux].
    + change (y :: a ++ q :: x) with ((y :: a) ++ q :: x). rewrite (starts_with_cut p q H).
      destruct (starts_with p (y :: a)) eqn:E.
      * rewrite IH; [now rewrite <- app_assoc|].
        apply starts_with_spec in E as [t Et]. apply (f_equal (@List.length _)) in Et.
        rewrite app_length in Et. cbn in Et. lia.
      * rewrite IH; [reflexivity|lia].
    + apply IH. cbn in L. lia.
Qed.

(** What the library does to a piece of selector text: in a scoped style [&] and then [:root]
    become the class selector, in a global style [&] becomes [:root]. *)
Definition substituted (class : option str) (s : str) : str :=
  match class with
  | Some c => replace_str (lit ":root") (lit "." ++ c) (replace_char (ch "&") (lit "." ++ c) s)
  | None => replace_char (ch "&") (lit ":root") s
  end.

Lemma substituted_quoted class a body b :
  substituted class (a ++ quoted body ++ b)
  = substituted class a ++ quoted (substituted class body) ++ substituted class b.
Proof.
  unfold quoted. destruct class as [c|]; unfold substituted.
  - rewrite !replace_char_app. change (replace_char (ch "&") (lit "." ++ c) [34%N]) with [34%N].
    unfold replace_str. cbn [app]. rewrite <- app_assoc. cbn [app].
    rewrite !replace_cut; try lia; try discriminate; try (cbn; intuition discriminate).
    now rewrite <- app_assoc.
  - now rewrite !replace_char_app.
Qed.

Lemma replace_char_same r s : hd_error r <> Some (ch "&") -> r <> [] ->
  replace_char (ch "&") r s = s -> ~ In (ch "&") s.
Proof.
  intros H1 H2. induction s as [|x s IH]; intros E; [easy|]. cbn [replace_char flat_map] in E.
  destruct (char_eqb x (ch "&")) eqn:Ex.
  - apply char_eqb_eq in Ex. subst. destruct r as [|r0 r]; [easy|]. injection E as E _. subst. now elim H1.
  - apply char_eqb_neq in Ex. injection E as E. intros [X|X]; [now elim Ex|]. now apply IH.
Qed.

Lemma no_root_nil : ~ sub_text (lit ":root") [].
Proof. intros (a & b & E). symmetry in E. apply app_eq_nil in E as [_ E]. discriminate E. Qed.

Lemma sub_text_cons p x s : sub_text p (x :: s) -> starts_with p (x :: s) = true \/ sub_text p s.
Proof.
  intros (a & b & E). destruct a as [|y a].
  - left. rewrite E. cbn [app]. apply starts_with_app.
  - right. injection E as _ ->. now exists a, b.
Qed.

Lemma replace_str_none r s : ~ sub_text (lit ":root") s -> replace_str (lit ":root") r s = s.
Proof.
  intros H. rewrite <- (app_nil_r s) at 1. rewrite replace_quiet; [now rewrite app_nil_r|].
  apply quiet_plain; [exact H|exact I].
Qed.

Lemma both_same c s :
  replace_str (lit ":root") (lit "." ++ c) (replace_char (ch "&") (lit "." ++ c) s) = s ->
  ~ In (ch "&") s /\ ~ sub_text (lit ":root") s.
Proof.
  unfold replace_str. induction s as [|x s IH]; intros E; [split; [easy|exact no_root_nil]|].
  cbn [replace_char flat_map] in E. fold (replace_char (ch "&") (lit "." ++ c) s) in E.
  destruct (char_eqb x (ch "&")) eqn:Ex.
  - apply char_eqb_eq in Ex. subst x. cbn [lit app] in E. discriminate E.
  - cbn [app replace_aux] in E.
    destruct (starts_with (lit ":root") (x :: replace_char (ch "&") (lit "." ++ c) s)) eqn:Es.
    + apply starts_with_spec in Es as [t Et]. injection Et as -> _. discriminate E.
    + injection E as E. destruct (IH E) as [I1 I2].
      rewrite (replace_char_none _ _ s I1) in Es. apply char_eqb_neq in Ex. split.
      * intros [X|X]; [now elim Ex|now apply I1].
      * intros X. apply sub_text_cons in X as [X|X]; [|now apply I2].
        rewrite X in Es. discriminate Es.
Qed.

(** Text is left alone exactly if it has no [&] and, in a scoped style, no [:root]. *)
Lemma substituted_same_iff class s :
  substituted class s = s <->
  ~ In (ch "&") s /\ (class <> None -> ~ sub_text (lit ":root") s).
Proof.
  destruct class as [c|]; unfold substituted; split.
  - intros E. apply both_same in E as [E1 E2]. now split.
  - intros [H1 H2]. rewrite replace_char_none by exact H1. apply replace_str_none, H2. discriminate.
  - intros E. split; [|congruence]. revert E. apply replace_char_same; discriminate.
  - intros [H _]. now apply replace_char_none.
Qed.

(** Wherever a selector has a quoted string, the written selector has at this place the string
    with the markers in it substituted, and so has the text after it.  The string survives exactly
    if it has no [&] and, in a scoped style, no [:root]. *)
Theorem quoted_text_exact : forall class a body b sel,
  List.concat sel = a ++ quoted body ++ b ->
  (exists front,
     write_selector class sel
     = front ++ substituted class a ++ quoted (substituted class body) ++ substituted class b
     /\ (front = [] \/ exists c, class = Some c /\ (front = lit "." ++ c \/ front = lit "." ++ c ++ lit " ")))
  /\ (substituted class body = body <->
      ~ In (ch "&") body /\ (class <> None -> ~ sub_text (lit ":root") body)).
Proof.
  intros class a body b sel E. split; [|apply substituted_same_iff].
  rewrite <- substituted_quoted, <- E. rewrite write_selector_scoped. unfold scoped.
  destruct class as [c|]; [|exists []; split; [reflexivity|now left]].
  destruct (contains_char _ _) eqn:E1; [exists []; split; [reflexivity|now left]|].
  destruct (contains_str _ _) eqn:E2; [exists []; split; [reflexivity|now left]|].
  cbn [orb].
  assert (S : substituted (Some c) (List.concat sel) = List.concat sel).
  { apply substituted_same_iff. split.
    - intros X. apply contains_char_spec in X. congruence.
    - intros _ X. apply contains_str_spec in X. congruence. }
  rewrite S. destruct (starts_with _ _).
  - exists (lit "." ++ c). split; [now rewrite <- app_assoc|]. right. exists c. split; [reflexivity|now left].
  - exists (lit "." ++ c ++ lit " "). split; [now rewrite <- !app_assoc|].
    right. exists c. split; [reflexivity|now right].
Qed.
Print Assumptions quoted_text_exact.

Example quoted_text_exact_ex :
  let sel := [lit "a[href="; quoted (lit "?x&y:root"); lit "] &"] in
  write_selector (Some (lit "c")) sel = lit "a[href=" ++ quoted (lit "?x.cy.c") ++ lit "] .c"
  /\ write_selector None sel = lit "a[href=" ++ quoted (lit "?x:rooty:root") ++ lit "] :root".
Proof. split; vm_compute; reflexivity. Qed.

(** ** C15: selector lists *)

(** A stretch of selector text between two commas: selector text with white space around it. *)
Definition sel_piece (t : str) : Prop :=
  exists w s v, t = w ++ s ++ v /\ ws w /\ sel_text s /\ tight s /\ ws v.

Lemma join_join sep (ls : list (list str)) :
  Forall (fun l => l <> []) ls -> join sep (map (join sep) ls) = join sep (List.concat ls).
Proof.
  assert (J : forall (a b : list str), a <> [] -> b <> [] -> join sep (a ++ b) = join sep a ++ sep ++ join sep b).
  { induction a as [|x a IH]; intros b Ha Hb; [easy|]. destruct a as [|y a].
    - cbn [app]. destruct b; [easy|reflexivity].
    - change (join sep ((x :: y :: a) ++ b)) with (x ++ sep ++ join sep ((y :: a) ++ b)).
      rewrite IH; [|discriminate|exact Hb].
      change (join sep (x :: y :: a)) with (x ++ sep ++ join sep (y :: a)). now rewrite <- !app_assoc. }
  induction 1 as [|l ls Hl H IH]; [reflexivity|]. destruct ls as [|l2 ls].
  - cbn. now rewrite app_nil_r.
  - change (join sep (map (join sep) (l :: l2 :: ls)))
      with (join sep l ++ sep ++ join sep (map (join sep) (l2 :: ls))).
    rewrite IH. change (List.concat (l :: l2 :: ls)) with (l ++ List.concat (l2 :: ls)).
    rewrite (J l); [reflexivity|exact Hl|].
    inversion_clear H as [|? ? H2 _]. destruct l2; [easy|discriminate].
Qed.

Lemma piece_trim t : sel_piece t -> exists w s v, t = w ++ s ++ v /\ trim t = s /\ ws w /\ sel_text s /\ tight s /\ ws v.
Proof.
  intros (w & s & v & -> & Hw & Hs & Ht & Hv). exists w, s, v. split; [reflexivity|].
  split; [|now repeat split; try apply Ht].
  rewrite trim_ws_l by now apply ws_uni. apply tight_trim_r; [apply Ht|exact Hv].
Qed.

Lemma ws_blank w : ws w -> blank w.
Proof.
  induction 1; now constructor.
Qed.

Lemma pieces_written ps : ps <> [] -> Forall sel_piece ps ->
  writes_sels (join (lit ",") ps) (map (fun p => [trim p]) ps).
Proof.
  intros Hn H. induction H as [|p l Hp Hl IH]; [easy|].
  destruct (piece_trim p Hp) as (w & s & v & -> & Et & Hw & Hs & Ht & Hv).
  apply ws_blank in Hw. cbn [map]. rewrite Et. destruct l as [|p2 l].
  - now apply wsel_one.
  - change (join (lit ",") ((w ++ s ++ v) :: p2 :: l))
      with ((w ++ s ++ v) ++ lit "," ++ join (lit ",") (p2 :: l)).
    rewrite <- !app_assoc. apply wsel_cons; auto. apply IH. discriminate.
Qed.

(** The selector list the author means is given as a list of selectors, each written as pieces
    separated by commas - more than one piece where the selector has commas in parentheses, like
    [:is(a, b)].  The library always splits at every comma, and so finds the selectors meant exactly
    if no selector has a comma outside strings. *)
Theorem selector_list_split_iff : forall (sels : list (list str)) body content,
  sels <> [] -> Forall (fun ps => ps <> [] /\ Forall sel_piece ps) sels -> writes_content body content ->
  let css := join (lit ",") (map (join (lit ",")) sels) ++ lit "{" ++ body ++ lit "}" in
  parse css = Parsed [SBlock (map (fun p => [trim p]) (List.concat sels)) content]
  /\ (parse css = Parsed [SBlock (map (fun ps => [trim (join (lit ",") ps)]) sels) content] <->
      Forall (fun ps => List.length ps = 1) sels).
Proof.
  intros sels body content Hn Hs Hb css.
  assert (P : parse css = Parsed [SBlock (map (fun p => [trim p]) (List.concat sels)) content]).
  { unfold css. rewrite join_join by (eapply Forall_impl; [|exact Hs]; now intros ? [? _]).
    assert (Hc : List.concat sels <> []).
    { destruct sels as [|l sels]; [easy|]. inversion_clear Hs as [|? ? [H1 _] _]. destruct l; [easy|discriminate]. }
    assert (Hp : Forall sel_piece (List.concat sels)).
    { clear -Hs. induction Hs as [|l sels [_ H] Hs IH]; [constructor|]. cbn. apply Forall_app. now split. }
    apply parse_complete. eexists [], _. split; [reflexivity|]. split; [constructor|].
    replace (lit "{" ++ body ++ lit "}") with (lit "{" ++ [] ++ body ++ lit "}" ++ [] ++ []) by reflexivity.
    apply wsc_block; auto; try constructor; [|destruct (List.concat sels); [easy|discriminate]].
    now apply pieces_written. }
  split; [exact P|]. rewrite P. split.
  - intros E. injection E as E. apply (f_equal (@List.length _)) in E. rewrite !map_length in E.
    clear -Hs E. induction Hs as [|l sels [H _] Hs IH]; [constructor|].
    cbn in E. rewrite app_length in E.
    assert (L : List.length sels <= List.length (List.concat sels)).
    { clear -Hs. induction Hs as [|m sels [H _] Hs IH]; [cbn; lia|]. cbn. rewrite app_length.
      destruct m; [easy|]. cbn. lia. }
    destruct l as [|p l]; [easy|]. destruct l as [|p2 l]; cbn in E; [|exfalso; lia].
    constructor; [reflexivity|]. apply IH. lia.
  - intros H. do 3 f_equal. clear -H. induction H as [|l sels H Hs IH]; [reflexivity|].
    destruct l as [|p [|]]; try discriminate H. cbn. now f_equal.
Qed.
Print Assumptions selector_list_split_iff.

Example selector_list_split_iff_ex :
  Forall (fun ps => ps <> [] /\ Forall sel_piece ps) [[lit "p:is(a"; lit " b)"]; [lit " c"]]
  /\ parse (lit "p:is(a, b), c{d:e}")
     = Parsed [SBlock [[lit "p:is(a"]; [lit "b)"]; [lit "c"]] [CAttr (mk_attr (lit "d") [lit "e"])]].
Proof.
  split; [|vm_compute; reflexivity].
  assert (W : ws [32%N]) by (constructor; [cbn; tauto|constructor]).
  repeat constructor; try discriminate.
  - exists [], (lit "p:is(a"), []. split; [reflexivity|]. split; [constructor|].
    split; [plain_sel|]. split; [split; [discriminate|reflexivity]|constructor].
  - exists [32%N], (lit "b)"), []. split; [reflexivity|]. split; [exact W|].
    split; [plain_sel|]. split; [split; [discriminate|reflexivity]|constructor].
  - exists [32%N], (lit "c"), []. split; [reflexivity|]. split; [exact W|].
    split; [plain_sel|]. split; [split; [discriminate|reflexivity]|constructor].
Qed.
