(** * PropsNested: selectors of scoped styles say what they say of [&] (C99). *)

From Coq Require Import String Ascii List NArith Bool Arith Lia.
From Verif Require Import Str StrFacts Ast Render CssParser Manager SpecRender RenderFacts RenderRead ScopeFacts SpecGuard PropsGuard SpecNested.
Import ListNotations.
Local Open Scope list_scope.

Lemma amp_app class a b : amp_text class (a ++ b) = amp_text class a ++ amp_text class b.
Proof. apply flat_map_app. Qed.
Lemma amp_none class s : ~ In (ch "&") s -> amp_text class s = s.
Proof. exact (replace_char_none (ch "&") (lit "." ++ class) s). Qed.

(** ** What is written *)

Lemma root_weave pieces last : Forall (fun pm => plain_piece (fst pm) /\ marker (snd pm)) pieces -> plain_piece last ->
  replace_str (lit ":root") (lit "&") (weave pieces last) = weave (map (fun pm => (fst pm, lit "&")) pieces) last.
Proof.
  change (lit ":root") with root_lit. intros Hp Hl. induction Hp as [|[p m] pieces [P M] _ IH]; cbn [weave map].
  - rewrite <- (app_nil_r last) at 1. rewrite replace_quiet; [now rewrite app_nil_r|]. apply quiet_plain; [apply Hl|exact I].
  - cbn [fst snd] in *. destruct P as [P1 P2]. destruct M as [-> | ->].
    + rewrite replace_quiet; [|now apply quiet_plain]. rewrite replace_quiet; [now rewrite IH|].
      apply quiet_no_colon. cbn. intuition discriminate.
    + change (lit ":root") with root_lit. rewrite replace_quiet; [|now apply quiet_plain]. now rewrite replace_root_head, IH.
Qed.
Lemma amp_weave class pieces last : Forall (fun pm => plain_piece (fst pm)) pieces -> plain_piece last ->
  amp_text class (weave (map (fun pm => (fst pm, lit "&")) pieces) last) = weave (map (subst_of class) pieces) last.
Proof.
  intros Hp Hl. induction Hp as [|[p m] pieces P _ IH]; cbn [weave map fst subst_of].
  - apply amp_none, Hl.
  - rewrite !amp_app, IH, (amp_none class p) by apply P. change (amp_text class (lit "&")) with ((lit "." ++ class) ++ []). now rewrite app_nil_r.
Qed.

Lemma scoped_nested class sel : forallb ident_char class = true -> scoped (Some class) sel = amp_text class (nested sel).
Proof.
  intros Hc. destruct (weave_exists sel) as (pieces & last & -> & Hp & Hl).
  destruct pieces as [|pm pieces].
  - cbn [weave]. unfold scoped, nested.
    destruct (contains_char (ch "&") last) eqn:C1; [apply contains_char_spec in C1; now elim (proj1 Hl)|].
    destruct (contains_str (lit ":root") last) eqn:C2; [apply contains_str_spec in C2; now elim (proj2 Hl)|]. cbn [orb].
    assert (A : amp_text class last = last) by apply amp_none, Hl.
    assert (B : amp_text class (lit "&") = lit "." ++ class) by (cbn; now rewrite app_nil_r).
    destruct (starts_with (lit ":") last).
    + rewrite amp_app, A, B. now rewrite <- app_assoc.
    + change (lit "& ") with (lit "&" ++ lit " "). rewrite !amp_app, A, B. now rewrite <- !app_assoc.
  - rewrite scoped_weave; auto; [|discriminate]. unfold nested. rewrite weave_has_marker; [|discriminate|eapply markers_of; exact Hp].
    rewrite root_weave by auto. rewrite amp_weave; auto. eapply Forall_impl; [|exact Hp]. now intros ? [? _].
Qed.

(** ** Reading it *)

Section Class.
Variable class : str.
Hypothesis plain : forallb ident_char class = true.
Let d := lit "." ++ class.
Let amp := amp_text class.

Definition settled (p : place) : Prop := quote_ok p /\ pl_escape p = false /\ pl_half p = false.
Lemma amp_next p : quote_ok p -> fold_left next_place d p = next_place p (ch "&") /\ settled (next_place p (ch "&")).
Proof.
  intros Q. destruct (class_neutral class plain) as [C1 C2]. unfold d. rewrite neutral_fold; auto. rewrite neutral_next; auto; [|reflexivity].
  split; [reflexivity|]. split; [exact Q|]. auto.
Qed.
Lemma settled_next p c : settled p -> ident_char c = true -> next_place p c = p.
Proof.
  intros (Q & E & H) Hc. rewrite neutral_next; auto using ident_neutral. destruct p. cbn in *. now subst.
Qed.

(** Lists. *)
Lemma split_name c : forallb ident_char c = true -> forall p x b, settled p -> split_top p x (c ++ b) = split_top p (x ++ c) b.
Proof.
  induction c as [|k c IH]; intros H p x b S; [now rewrite app_nil_r|]. cbn [forallb List.app split_top] in *. apply andb_true_iff in H. destruct H as [H1 H2].
  destruct (char_eqb k (ch ",")) eqn:E; [apply char_eqb_eq in E; subst; discriminate|]. rewrite andb_false_r, settled_next, IH by auto.
  now rewrite <- app_assoc.
Qed.
Lemma split_amp s : forall p x, quote_ok p -> split_top p (amp x) (amp s) = map amp (split_top p x s).
Proof.
  induction s as [|c s IH]; intros p x Q; [reflexivity|]. change (c :: s) with ([c] ++ s) at 1. unfold amp at 2. rewrite amp_app. fold amp.
  cbn [split_top]. destruct (char_eqb c (ch "&")) eqn:E.
  - apply char_eqb_eq in E. subst c. change (char_eqb (ch "&") (ch ",")) with false. rewrite andb_false_r.
    change (amp [ch "&"]) with (d ++ []). rewrite app_nil_r. unfold d. cbn [List.app]. change (lit "." ++ class) with (ch "." :: class).
    cbn [List.app split_top]. change (char_eqb (ch ".") (ch ",")) with false. rewrite andb_false_r.
    assert (N : next_place p (ch ".") = next_place p (ch "&")) by (rewrite !neutral_next; auto; reflexivity).
    rewrite N, split_name by (auto; now apply amp_next). rewrite <- IH by auto using quote_ok_next. f_equal.
    unfold amp. rewrite amp_app. change (amp_text class [ch "&"]) with ((lit "." ++ class) ++ []). now rewrite app_nil_r, <- app_assoc.
  - assert (A : amp [c] = [c]) by (unfold amp, amp_text; cbn [flat_map]; now rewrite E). rewrite A. cbn [List.app split_top].
    destruct (is_top p && char_eqb c (ch ",")).
    + cbn [map]. f_equal. now rewrite <- (IH (next_place p c) []) by auto using quote_ok_next.
    + rewrite <- IH by auto using quote_ok_next. f_equal. unfold amp in *. now rewrite amp_app, A.
Qed.

(** Tokens. *)
Definition amp_token (t : token) : token := match t with Simple s => Simple (amp s) | Comb c => Comb c end.

Lemma tokens_class c : forallb ident_char c = true -> forall p t b, settled p ->
  tokens_from p (Simple t) (c ++ b) = tokens_from p (Simple (t ++ c)) b.
Proof.
  induction c as [|x c IH]; intros H p t b S; [now rewrite app_nil_r|]. cbn [forallb] in H. apply andb_true_iff in H. destruct H as [H1 H2].
  cbn [List.app tokens_from]. rewrite settled_next, ident_no_comb by auto. unfold name_char. rewrite H1. cbn [orb].
  rewrite IH by auto. rewrite <- app_assoc. now destruct (is_top p).
Qed.
Lemma amp_colon t : str_eqb (amp t) (lit ":") = str_eqb t (lit ":") /\ starts_with (lit ":") (amp t) = starts_with (lit ":") t.
Proof.
  destruct t as [|c t]; [split; reflexivity|]. change (c :: t) with ([c] ++ t) at 1 3. unfold amp. rewrite amp_app. fold amp.
  destruct (char_eqb c (ch "&")) eqn:E.
  - apply char_eqb_eq in E. subst c. split; reflexivity.
  - assert (A : amp [c] = [c]) by (unfold amp, amp_text; cbn [flat_map]; now rewrite E). rewrite A. cbn [List.app]. split; [|reflexivity].
    destruct (char_eqb c (ch ":")) eqn:E2.
    + apply char_eqb_eq in E2. subst c. destruct t as [|k t]; [reflexivity|]. change (k :: t) with ([k] ++ t) at 1. unfold amp. rewrite amp_app. fold amp.
      destruct (char_eqb k (ch "&")) eqn:E3.
      * apply char_eqb_eq in E3. subst k. reflexivity.
      * assert (B : amp [k] = [k]) by (unfold amp, amp_text; cbn [flat_map]; now rewrite E3). now rewrite B.
    + assert (X : forall l, str_eqb (c :: l) (lit ":") = false).
      { intros l. apply Bool.not_true_is_false. intros X. apply str_eqb_eq in X. injection X as -> _. discriminate. }
      now rewrite !X.
Qed.

Lemma tokens_amp s : forall p cur, quote_ok p -> tokens_from p (amp_token cur) (amp s) = map amp_token (tokens_from p cur s).
Proof.
  induction s as [|c s IH]; intros p cur Q; [reflexivity|]. change (c :: s) with ([c] ++ s) at 1. unfold amp at 1. rewrite amp_app. fold amp.
  assert (Sn : forall t, amp t ++ amp [c] = amp (t ++ [c])) by (intros t; unfold amp; now rewrite amp_app).
  destruct (char_eqb c (ch "&")) eqn:E.
  - apply char_eqb_eq in E. subst c. cbn [tokens_from].
    change (mem (ch "&") (css_space ++ lit ">+~")) with false. change (name_char (ch "&")) with false.
    change (char_eqb (ch "&") (ch ":")) with false. change (char_eqb (ch "&") (ch "(")) with false.
    change (amp [ch "&"]) with (d ++ []) in *. rewrite app_nil_r in *.
    assert (D : d ++ amp s = ch "." :: class ++ amp s) by reflexivity. rewrite D. cbn [tokens_from].
    change (mem (ch ".") (css_space ++ lit ">+~")) with false. change (name_char (ch ".")) with false.
    change (char_eqb (ch ".") (ch ":")) with false. change (char_eqb (ch ".") (ch "(")) with false.
    assert (N : next_place p (ch ".") = next_place p (ch "&")) by (rewrite !neutral_next; auto; reflexivity).
    assert (St : settled (next_place p (ch "&"))) by now apply amp_next.
    rewrite N. destruct cur as [t|w]; cbn [amp_token].
    + rewrite !andb_false_r. cbn [orb]. destruct (is_top p).
      * cbn [map amp_token]. f_equal. rewrite tokens_class by auto.
        rewrite <- (IH _ (Simple [ch "&"])) by auto using quote_ok_next. f_equal. cbn [amp_token]. f_equal.
        change (amp [ch "&"]) with (d ++ []). now rewrite app_nil_r.
      * rewrite tokens_class by auto. rewrite <- (IH _ (Simple (t ++ [ch "&"]))) by auto using quote_ok_next. f_equal. cbn [amp_token]. f_equal.
        rewrite <- Sn. unfold d. now rewrite <- app_assoc.
    + assert (G : Comb w :: tokens_from (next_place p (ch "&")) (Simple [ch "."]) (class ++ amp s)
                  = map amp_token (Comb w :: tokens_from (next_place p (ch "&")) (Simple [ch "&"]) s)).
      { cbn [map amp_token]. f_equal. rewrite tokens_class by auto.
        rewrite <- (IH _ (Simple [ch "&"])) by auto using quote_ok_next. f_equal. cbn [amp_token]. f_equal.
        change (amp [ch "&"]) with (d ++ []). now rewrite app_nil_r. }
      destruct (is_top p); exact G.
  - assert (A : amp [c] = [c]) by (unfold amp, amp_text; cbn [flat_map]; now rewrite E). rewrite A in *. cbn [List.app tokens_from].
    assert (Q' : quote_ok (next_place p c)) by now apply quote_ok_next.
    assert (I1 : tokens_from (next_place p c) (Simple [c]) (amp s) = map amp_token (tokens_from (next_place p c) (Simple [c]) s)).
    { rewrite <- IH by exact Q'. f_equal. cbn [amp_token]. now rewrite A. }
    assert (I3 : forall w, tokens_from (next_place p c) (Comb w) (amp s) = map amp_token (tokens_from (next_place p c) (Comb w) s)).
    { intros w. now rewrite <- IH by exact Q'. }
    destruct cur as [t|w]; cbn [amp_token].
    + destruct (amp_colon t) as [-> ->]. rewrite Sn.
      assert (I2 : tokens_from (next_place p c) (Simple (amp (t ++ [c]))) (amp s) = map amp_token (tokens_from (next_place p c) (Simple (t ++ [c])) s)).
      { now rewrite <- IH by exact Q'. }
      destruct (is_top p); [destruct (mem c (css_space ++ lit ">+~")); [|destruct (_ || _ || _)]|]; cbn [map amp_token].
      * now rewrite I3.
      * exact I2.
      * now rewrite I1.
      * exact I2.
    + destruct (is_top p); [destruct (mem c (css_space ++ lit ">+~"))|]; cbn [map amp_token].
      * apply I3.
      * now rewrite I1.
      * now rewrite I1.
Qed.
End Class.

Lemma leads_amp class pg l : css_page pg -> plain_ident class = true -> forall e f,
  leads pg (map (amp_token class) l) e f <-> leads (amp_page class pg) l e f.
Proof.
  intros Hp Hi. induction l as [|t l IH]; intros e f; [reflexivity|]. destruct t as [s|c].
  - change (leads pg (map (amp_token class) (Simple s :: l)) e f) with (matches pg e (amp_text class s) /\ leads pg (map (amp_token class) l) e f).
    change (leads (amp_page class pg) (Simple s :: l) e f)
      with ((if str_eqb s (lit "&") then has_class pg e class else matches pg e (amp_text class s)) /\ leads (amp_page class pg) l e f).
    rewrite IH. destruct (str_eqb s (lit "&")) eqn:E; [|reflexivity]. apply str_eqb_eq in E. subst s.
    change (amp_text class (lit "&")) with ((lit "." ++ class) ++ []). rewrite app_nil_r. now rewrite (Hp e class Hi).
  - destruct l as [|t' l']; [reflexivity|].
    change (leads pg (map (amp_token class) (Comb c :: t' :: l')) e f)
      with (exists e', present pg e' /\ reaches pg c e e' /\ leads pg (map (amp_token class) (t' :: l')) e' f).
    change (leads (amp_page class pg) (Comb c :: t' :: l') e f)
      with (exists e' : element pg, present pg e' /\ reaches pg c e e' /\ leads (amp_page class pg) (t' :: l') e' f).
    split; intros (e' & H1 & H2 & H3); exists e'; (split; [exact H1|split; [exact H2|now apply IH]]).
Qed.

Lemma selects_one_amp class pg sel f : css_page pg -> plain_ident class = true ->
  selects_one pg (amp_text class sel) f <-> selects_one (amp_page class pg) sel f.
Proof.
  intros Hp Hi. pose proof (plain_chars class Hi) as Hc. unfold selects_one.
  assert (T : tokens (amp_text class sel) = map (amp_token class) (tokens sel)).
  { unfold tokens. rewrite <- (tokens_amp class Hc sel top (Comb [])); [reflexivity|easy]. }
  rewrite T. split; intros (e & Pe & H); exists e; (split; [exact Pe|]); destruct (tokens sel) as [|[s|c] l].
  - exact H.
  - now apply leads_amp.
  - destruct H as [H1 H2]. split; [exact H1|now apply leads_amp].
  - exact H.
  - apply (leads_amp class pg (Simple s :: l)) in H; auto.
  - destruct H as [H1 H2]. split; [exact H1|apply (leads_amp class pg l) in H2; auto].
Qed.
Lemma selects_amp class pg sels f : css_page pg -> plain_ident class = true ->
  selects pg (amp_text class sels) f <-> selects (amp_page class pg) sels f.
Proof.
  intros Hp Hi. pose proof (plain_chars class Hi) as Hc. unfold selects.
  assert (T : selector_list (amp_text class sels) = map (amp_text class) (selector_list sels)).
  { unfold selector_list. rewrite <- (split_amp class Hc sels top []); [reflexivity|easy]. }
  rewrite T. split.
  - intros (sel & I & H). apply in_map_iff in I. destruct I as (x & <- & I). exists x. split; [exact I|]. now apply selects_one_amp.
  - intros (sel & I & H). exists (amp_text class sel). split; [now apply in_map|]. now apply selects_one_amp.
Qed.

(** What is written for a selector selects in a page what the selector says of [&], if [&] are the
    elements with the class. *)
Theorem scoped_selector_says : forall class frags pg f,
  plain_ident class = true -> css_page pg ->
  selects pg (write_selector (Some class) frags) f <-> selects (amp_page class pg) (nested (List.concat frags)) f.
Proof.
  intros class frags pg f Hi Hp. rewrite write_selector_scoped, scoped_nested by now apply plain_chars. now apply selects_amp.
Qed.
Print Assumptions scoped_selector_says.

(** ** Whole styles *)

Lemma amp_join class l : amp_text class (join (lit ", ") l) = join (lit ", ") (map (amp_text class) l).
Proof.
  induction l as [|x l IH]; [reflexivity|]. destruct l as [|y l]; [reflexivity|].
  change (join (lit ", ") (x :: y :: l)) with (x ++ lit ", " ++ join (lit ", ") (y :: l)). rewrite !amp_app, IH. reflexivity.
Qed.

(** A declaration of the CSS and the declaration that is written. *)
Definition scoped_decl (class : str) (i : item) (n : list str * str * str * str) : Prop :=
  let '(rules, sels, k, v) := n in i = IDecl (rules ++ [amp_text class sels]) k v.

Lemma decls_nested class c : forallb ident_char class = true -> forall rules sel nsel,
  (sel = None -> in_blocks c = true /\ nsel = lit "&") -> (forall s, sel = Some s -> s = amp_text class nsel) ->
  Forall2 (scoped_decl class) (decls_of (Some class) rules sel c) (nested_of rules nsel c).
Proof.
  intros Hc. induction c as [a|cond content IH|cond content IH| |c l IHc IHl] using rbc_ind2 with
    (Q := fun l => forall rules sel nsel, (sel = None -> forallb in_blocks l = true /\ nsel = lit "&") ->
       (forall s, sel = Some s -> s = amp_text class nsel) ->
       Forall2 (scoped_decl class) (flat_map (decls_of (Some class) rules sel) l) (flat_map (nested_of rules nsel) l));
    intros rules sel nsel Hb Hs; cbn [decls_of nested_of].
  - constructor; [|constructor]. destruct sel as [s|]; [|now destruct (Hb eq_refl)]. cbn. now rewrite (Hs s eq_refl).
  - now apply IH.
  - apply IH; [discriminate|]. intros s [= <-]. unfold block_sel. destruct cond as [|x cond].
    + destruct sel as [s|]; [auto|]. destruct (Hb eq_refl) as [_ ->]. cbn. now rewrite app_nil_r.
    + rewrite amp_join, map_map. f_equal. apply map_ext. intros z. now apply scoped_nested.
  - constructor.
  - cbn [flat_map forallb] in *. apply Forall2_app.
    + apply IHc; auto. intros E. destruct (Hb E) as [B ->]. now apply andb_true_iff in B.
    + apply IHl; auto. intros E. destruct (Hb E) as [B ->]. now apply andb_true_iff in B.
Qed.

(** The declarations that are read from the CSS of a style are those that are written, in order, in
    the same at-rules, and each applies to the elements that its selectors select if [&] are the
    elements with the class. *)
Theorem scoped_style_says : forall class s,
  plain_ident class = true -> closed_sheet s -> forallb (fun c => in_blocks (rbc_of_scope c)) s = true ->
  exists items, read_css (to_style_str (Some class) s) = Some items
    /\ Forall2 (fun i n => let '(rules, nsels, k, v) := n in
         exists sels, i = IDecl (map trim rules ++ [trim sels]) (trim k) (trim v)
           /\ forall pg f, css_page pg -> selects pg sels f <-> selects (amp_page class pg) nsels f)
         (decls items) (sheet_nested s).
Proof.
  intros class s Hi Hcl Hb. pose proof (plain_chars class Hi) as Hc.
  assert (Bo : boring_class (Some class)).
  { cbn [boring_class]. rewrite forallb_forall in Hc |- *. intros c I. specialize (Hc c I). unfold boring. apply negb_true_iff, mem_false.
    intros M. cbn in M. repeat (destruct M as [<-|M]; [discriminate Hc|]). exact M. }
  destruct (read_to_style_str _ s Bo Hcl) as (items & R & D & _). exists items. split; [exact R|]. rewrite D. clear R D items Bo Hcl.
  assert (F : Forall2 (scoped_decl class) (sheet_decls (Some class) s) (sheet_nested s)).
  { unfold sheet_decls, sheet_nested. induction s as [|c s IH]; [constructor|]. cbn [forallb flat_map] in *.
    apply andb_true_iff in Hb. destruct Hb as [B1 B2]. apply Forall2_app; [|auto]. apply decls_nested; auto. discriminate. }
  induction F as [|i [[[rules nsels] k] v] l l' H _ IH]; cbn [map]; constructor; [|exact IH].
  cbn in H. subst i. exists (amp_text class nsels). split; [cbn; now rewrite map_app|]. intros pg f Hp. now apply selects_amp.
Qed.
Print Assumptions scoped_style_says.

Example scoped_style_says_ex :
  exists s, parse (lit "color: red; p, :hover { top: 0; } @media print { .dark :root.on > p, :not(&) { top: 1px; } }") = Parsed s
  /\ closed_sheet s /\ forallb (fun c => in_blocks (rbc_of_scope c)) s = true
  /\ sheet_nested s = [([], lit "&", lit "color", lit "red"); ([], lit "& p, &:hover", lit "top", lit "0");
                       ([lit "@media print"], lit ".dark &.on > p, :not(&)", lit "top", lit "1px")].
Proof.
  eexists. split; [vm_compute; reflexivity|]. split.
  { repeat first
    [ progress cbn [rbc_of_scope closed_rbc] | progress unfold closed_sheet, closed_attr, closed
    | exact I | apply Forall_nil | apply Forall_cons | apply conj
    | reflexivity | (let X := fresh in intros X; vm_compute in X; intuition discriminate) ]. }
  split; vm_compute; reflexivity.
Qed.

(** In a page with an element of the class and one of another class inside of it, [.x], [&] and [:not(&)] of
    a style select the second, the first and the second. *)
Definition pair : page :=
  mk_page bool (fun _ => True) (fun e c => c = if e then lit "x" else lit "stylist-Ab1")
    (fun e s => s = if e then lit ".x" else lit ".stylist-Ab1") (fun c e f => e = false /\ f = true).
Definition pair_not : page :=
  mk_page bool (fun _ => True) (has_class pair) (fun e s => matches pair e s \/ e = true /\ s = lit ":not(.stylist-Ab1)") (reaches pair).
Example scoped_selector_says_ex :
  css_page pair_not /\ selects (amp_page (lit "stylist-Ab1") pair_not) (nested (lit ".x")) true
  /\ selects (amp_page (lit "stylist-Ab1") pair_not) (nested (lit "&")) false
  /\ ~ selects (amp_page (lit "stylist-Ab1") pair_not) (nested (lit "&")) true
  /\ selects (amp_page (lit "stylist-Ab1") pair_not) (nested (lit ":not(&)")) true.
Proof.
  split; [|split; [|split; [|split]]].
  - intros e c _. cbn. split; [|intros ->; left; now destruct e]. intros [H|[_ H]]; [|discriminate]. destruct e; injection H as ->; reflexivity.
  - exists (lit "& .x"). split; [vm_compute; auto|]. exists false. split; [exact I|].
    assert (T : tokens (lit "& .x") = [Comb []; Simple (lit "&"); Comb (lit " "); Simple (lit ".x")]) by (vm_compute; reflexivity).
    rewrite T. split; [constructor|]. split; [reflexivity|]. exists true. split; [exact I|]. split; [cbn; auto|]. split; [left; reflexivity|reflexivity].
  - exists (lit "&"). split; [vm_compute; auto|]. exists false. split; [exact I|].
    assert (T : tokens (lit "&") = [Comb []; Simple (lit "&")]) by (vm_compute; reflexivity).
    rewrite T. split; [constructor|]. split; reflexivity.
  - intros (x & I & e & _ & H). assert (X : x = lit "&") by (vm_compute in I; destruct I as [<-|[]]; reflexivity). subst x.
    assert (T : tokens (lit "&") = [Comb []; Simple (lit "&")]) by (vm_compute; reflexivity). rewrite T in H.
    destruct H as (_ & H & E). cbn in E. subst e. vm_compute in H. discriminate.
  - exists (lit ":not(&)"). split; [vm_compute; auto|]. exists true. split; [exact I|].
    assert (T : tokens (lit ":not(&)") = [Comb []; Simple (lit ":not(&)")]) by (vm_compute; reflexivity).
    rewrite T. split; [constructor|]. split; [right; split; reflexivity|reflexivity].
Qed.
