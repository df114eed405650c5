(** * PropsList: a list of selectors selects what its selectors select (C100). *)

From Coq Require Import String Ascii List NArith Bool Arith Lia.
From Verif Require Import Str StrFacts Ast Render CssParser Manager SpecRender RenderFacts RenderRead ScopeFacts SpecGuard PropsGuard SpecNested PropsNested.
Import ListNotations.
Local Open Scope list_scope.

(** ** Selectors of a global style *)

Lemma root_neutral : Forall neutral (lit ":root").
Proof. repeat constructor. Qed.
Lemma global_place s : forall p, quote_ok p ->
  fold_left next_place (replace_char (ch "&") (lit ":root") s) p = fold_left next_place s p
  /\ no_comma p (replace_char (ch "&") (lit ":root") s) = no_comma p s.
Proof.
  induction s as [|c s IH]; intros p Q; [split; reflexivity|].
  assert (E : exists h, replace_char (ch "&") (lit ":root") (c :: s) = h ++ replace_char (ch "&") (lit ":root") s
              /\ fold_left next_place h p = next_place p c /\ no_comma p h = no_comma p [c]).
  { destruct (char_eqb c (ch "&")) eqn:E.
    - exists (lit ":root"). apply char_eqb_eq in E. subst c. split; [reflexivity|]. split.
      + rewrite neutral_fold by (auto using root_neutral; discriminate). rewrite neutral_next; auto. reflexivity.
      + rewrite plain_no_comma; [|exact root_neutral|cbn; intuition discriminate|exact Q]. cbn [no_comma].
        change (char_eqb (ch "&") (ch ",")) with false. now rewrite andb_false_r.
    - exists [c]. split; [|split; reflexivity]. unfold replace_char. cbn [flat_map]. now rewrite E. }
  destruct E as (h & -> & F & N). rewrite fold_left_app, no_comma_app, F, N. cbn [fold_left no_comma].
  destruct (IH (next_place p c)) as [I1 I2]; [now apply quote_ok_next|]. rewrite I1, I2. split; [reflexivity|]. now rewrite andb_true_r.
Qed.
Lemma written_single class sel : (forall c, class = Some c -> plain_ident c = true) -> single sel -> single (scoped class sel).
Proof.
  intros Hi S. destruct class as [c|]; [apply scoped_single; auto using plain_chars|].
  rewrite single_iff in *. unfold place_after in *. cbn [scoped]. destruct (global_place sel top top_ok) as [-> ->]. exact S.
Qed.

(** ** White space before a selector *)

Lemma tokens_comb s : exists w l, forall t, tokens_from top (Comb t) s = Comb (t ++ w) :: l.
Proof.
  enough (H : forall p, exists w l, forall t, tokens_from p (Comb t) s = Comb (t ++ w) :: l) by apply H.
  induction s as [|c s IH]; intros p.
  - exists [], []. intros t. cbn [tokens_from]. now rewrite app_nil_r.
  - cbn [tokens_from]. destruct (IH (next_place p c)) as (w & l & H).
    destruct (is_top p); [destruct (mem c (css_space ++ lit ">+~"))|].
    + exists (c :: w), l. intros t. rewrite H. now rewrite <- app_assoc.
    + eexists [], _. intros t. rewrite app_nil_r. reflexivity.
    + eexists [], _. intros t. rewrite app_nil_r. reflexivity.
Qed.
Lemma selects_space pg sel f : selects_one pg (lit " " ++ sel) f <-> selects_one pg sel f.
Proof.
  unfold selects_one, tokens. destruct (tokens_comb sel) as (w & l & H).
  change (tokens_from top (Comb []) (lit " " ++ sel)) with (tokens_from top (Comb (lit " ")) sel). rewrite !H.
  change (lit " " ++ w) with (ch " " :: w). cbn [List.app].
  split; intros (e & P & C & L); exists e; (split; [exact P|]); (split; [|exact L]).
  - now inversion C.
  - constructor; [now left|exact C].
Qed.

(** ** Lists *)

Lemma list_all l : Forall single l -> forall y d, In y l ->
  exists x, In x (split_top top d (join (lit ", ") l)) /\ (x = d ++ y \/ x = lit " " ++ y).
Proof.
  induction 1 as [|z l Hz Hl IH]; [easy|]. intros y d I. apply single_iff in Hz. destruct Hz as [Y1 Y2]. unfold place_after in Y2.
  destruct l as [|k l].
  - destruct I as [<-|[]]. cbn [join]. exists (d ++ z). split; [|now left]. rewrite <- (app_nil_r z) at 2. rewrite split_no_comma by auto. now left.
  - change (join (lit ", ") (z :: k :: l)) with (z ++ lit ", " ++ join (lit ", ") (k :: l)).
    rewrite split_no_comma, Y2 by auto.
    change (split_top top (d ++ z) (lit ", " ++ join (lit ", ") (k :: l)))
      with ((d ++ z) :: split_top top (lit " ") (join (lit ", ") (k :: l))).
    destruct I as [<-|I]; [exists (d ++ z); split; [now left|now left]|].
    destruct (IH y (lit " ") I) as (x & X1 & X2). exists x. split; [now right|]. right. now destruct X2.
Qed.
Lemma selects_list pg l f : Forall single l -> l <> [] ->
  selects pg (join (lit ", ") l) f <-> exists y, In y l /\ selects pg y f.
Proof.
  intros S N. assert (One : forall y, In y l -> selects pg y f <-> selects_one pg y f).
  { intros y I. rewrite Forall_forall in S. destruct (S y I) as [E _]. unfold selects. rewrite E. split.
    - intros (s & [<-|[]] & H). exact H.
    - intros H. exists y. split; [now left|exact H]. }
  split.
  - intros (x & I & H). destruct (list_split l S N x [] I) as (y & Y & E). exists y. split; [exact Y|]. apply One; [exact Y|].
    destruct E as [-> | ->]; [exact H|now apply selects_space].
  - intros (y & Y & H). apply One in H; [|exact Y]. destruct (list_all l S y [] Y) as (x & X1 & X2). exists x. split; [exact X1|].
    destruct X2 as [-> | ->]; [exact H|now apply selects_space].
Qed.

(** What is written for the selectors of a block, in a scoped or a global style, selects what is
    selected by what is written for one of them, if each is one selector. *)
Theorem list_selects_each_partial : forall class cond text pg f,
  (forall c, class = Some c -> plain_ident c = true) -> Forall (fun s => single (List.concat s)) cond ->
  cond_str class cond = Some text ->
  selects pg text f <-> exists s, In s cond /\ selects pg (write_selector class s) f.
Proof.
  intros class cond text pg f Hi S E.
  assert (N : cond <> []) by now destruct cond.
  assert (E2 : text = join (lit ", ") (map (write_selector class) cond)) by (destruct cond; [discriminate|]; now injection E as <-).
  subst text. clear E.
  rewrite selects_list.
  - split.
    + intros (y & I & H). apply in_map_iff in I. destruct I as (s & <- & I). eauto.
    + intros (s & I & H). exists (write_selector class s). split; [now apply in_map|exact H].
  - apply Forall_map. eapply Forall_impl; [|exact S]. intros s Hs. rewrite write_selector_scoped. now apply written_single.
  - intros X. apply N. now apply map_eq_nil in X.
Qed.
Print Assumptions list_selects_each_partial.

(** Not for all blocks that can be written: the parser takes [:is(p, .on)] for a list of two, so that
    the class is put into the parentheses.  An element of the class that has the class [on] is then
    not selected, although [&:is(p, .on)] selects it, and what is selected is not what one of the two
    selects. *)
Definition is_page : page :=
  mk_page bool (fun _ => True) (fun e c => c = if e then lit "stylist-Ab1" else lit "on")
    (fun e s => s = (if e then lit ".stylist-Ab1" else lit ".on") \/ e = true /\ s = lit ":is(p, .on)") (fun _ _ _ => False).
Definition is_page2 : page :=
  mk_page bool (fun _ => True) (has_class is_page)
    (fun e s => matches is_page e s \/ e = true /\ s = lit ":is(p, .stylist-Ab1 .on)") (reaches is_page).
Definition is_cond : list selector := [[lit ":is(p"]; [lit ".on)"]].
Theorem list_selects_each_refuted :
  parse (lit ":is(p, .on) { top: 0; }") = Parsed [SBlock is_cond [CAttr (mk_attr (lit "top") [lit "0"])]]
  /\ (exists text, cond_str (Some (lit "stylist-Ab1")) is_cond = Some text
      /\ (exists pg f, css_page pg /\ selects (amp_page (lit "stylist-Ab1") pg) (nested (lit ":is(p, .on)")) f /\ ~ selects pg text f)
      /\ (exists pg f, css_page pg /\ selects pg text f
           /\ ~ exists s, In s is_cond /\ selects pg (write_selector (Some (lit "stylist-Ab1")) s) f)).
Proof.
  split; [vm_compute; reflexivity|]. exists (lit ".stylist-Ab1:is(p, .stylist-Ab1 .on)"). split; [vm_compute; reflexivity|].
  assert (T : tokens (lit ".stylist-Ab1:is(p, .stylist-Ab1 .on)") = [Comb []; Simple (lit ".stylist-Ab1"); Simple (lit ":is(p, .stylist-Ab1 .on)")])
    by (vm_compute; reflexivity).
  assert (L : selector_list (lit ".stylist-Ab1:is(p, .stylist-Ab1 .on)") = [lit ".stylist-Ab1:is(p, .stylist-Ab1 .on)"]) by (vm_compute; reflexivity).
  split.
  - exists is_page, true. split; [|split].
    + intros e c _. cbn. split; [|intros ->; left; now destruct e]. intros [H|[_ H]]; [|discriminate]. destruct e; injection H as ->; reflexivity.
    + exists (lit "&:is(p, .on)"). split; [vm_compute; auto|]. exists true. split; [exact I|].
      assert (T2 : tokens (lit "&:is(p, .on)") = [Comb []; Simple (lit "&"); Simple (lit ":is(p, .on)")]) by (vm_compute; reflexivity).
      rewrite T2. split; [constructor|]. split; [reflexivity|]. split; [right; split; reflexivity|reflexivity].
    + intros (x & X & e & _ & H). rewrite L in X. destruct X as [<-|[]]. rewrite T in H. destruct H as (_ & _ & H & E).
      destruct H as [H|[_ H]]; [|vm_compute in H; discriminate]. destruct e; vm_compute in H; discriminate.
  - exists is_page2, true. split; [|split].
    + intros e c _. cbn. split; [|intros ->; left; left; now destruct e]. intros [[H|[_ H]]|[_ H]]; [|discriminate H|discriminate H]. destruct e; injection H as ->; reflexivity.
    + exists (lit ".stylist-Ab1:is(p, .stylist-Ab1 .on)"). split; [rewrite L; now left|]. exists true. split; [exact I|].
      rewrite T. split; [constructor|]. split; [left; left; reflexivity|]. split; [right; split; reflexivity|reflexivity].
    + assert (N : forall sel, selects_one is_page2 sel true ->
        forall t, In (Simple t) (tokens sel) -> exists e, matches is_page2 e t).
      { intros sel (e & Pe & H) t I.
        assert (G : forall l e f, present is_page2 e -> leads is_page2 l e f -> In (Simple t) l -> exists e', matches is_page2 e' t).
        { intros l e0 f0 P0 L0 I0. destruct (leads_matches is_page2 t l I0 e0 f0 P0 L0) as (e' & _ & M). eauto. }
        destruct (tokens sel) as [|[x|x] l]; [easy| |].
        - eapply G; eauto.
        - destruct I as [I|I]; [discriminate|]. destruct H as [_ H]. eapply G; eauto. }
      assert (No : forall t, str_eqb t (lit ":is(p") || str_eqb t (lit ")") = true -> forall e, ~ matches is_page2 e t).
      { intros t Ht e. apply orb_true_iff in Ht. destruct Ht as [Ht|Ht]; apply str_eqb_eq in Ht; subst t;
          (intros [[M|[_ M]]|[_ M]]; [destruct e| |]; vm_compute in M; discriminate). }
      intros (s & I & sel & X & H). destruct I as [<-|[<-|[]]].
      * assert (E : sel = lit ".stylist-Ab1:is(p") by (vm_compute in X; destruct X as [<-|[]]; reflexivity). subst sel.
        assert (I : existsb (fun k => match k with Simple t => str_eqb t (lit ":is(p") | Comb _ => false end) (tokens (lit ".stylist-Ab1:is(p")) = true) by (vm_compute; reflexivity).
        apply existsb_exists in I. destruct I as ([t|t] & I & J); [|discriminate J].
        destruct (N _ H t I) as (e & M). apply (No t) in M; [exact M|]. rewrite J. reflexivity.
      * assert (E : sel = lit ".stylist-Ab1 .on)") by (vm_compute in X; destruct X as [<-|[]]; reflexivity). subst sel.
        assert (I : existsb (fun k => match k with Simple t => str_eqb t (lit ")") | Comb _ => false end) (tokens (lit ".stylist-Ab1 .on)")) = true) by (vm_compute; reflexivity).
        apply existsb_exists in I. destruct I as ([t|t] & I & J); [|discriminate J].
        destruct (N _ H t I) as (e & M). apply (No t) in M; [exact M|]. rewrite J. apply orb_true_r.
Qed.
Print Assumptions list_selects_each_refuted.

(** Blocks as they are written mostly. *)
Example list_selects_each_ex :
  exists sels content, parse (lit "p:not(.a) > b, &:hover, [title=""x""] i { top: 0; }") = Parsed [SBlock sels content]
  /\ List.length sels = 3 /\ Forall (fun s => single (List.concat s)) sels
  /\ cond_str (Some (lit "stylist-Ab1")) sels = Some (lit ".stylist-Ab1 p:not(.a) > b, .stylist-Ab1:hover, .stylist-Ab1 [title=""x""] i")
  /\ plain_ident (lit "stylist-Ab1") = true.
Proof.
  eexists _, _. split; [vm_compute; reflexivity|]. split; [reflexivity|]. split; [|split; vm_compute; reflexivity].
  repeat constructor; vm_compute; reflexivity.
Qed.
