(** * PropsSelector: which selectors are read as they are written (C95). *)

From Coq Require Import String Ascii List NArith Bool Arith Lia.
From Verif Require Import Str StrFacts Ast CssParser SpecRender SpecSays SpecGrammar ParserSound ParserTotal ParserTokens ParserComplete PropsParser.
From Verif Require PropsValue.
Import ListNotations.
Local Open Scope list_scope.

(** A block with one selector and nothing in it, and the style that has only this block. *)
Definition block_css (s : str) : str := s ++ lit "{}".
Definition only_block (s : str) : sheet := [SBlock [[s]] []].

(** Selectors of CSS that are rejected, or taken for other selectors: strings in single quotes with a brace or a comma,
    an escaped comma, a dollar sign (the suffix match of attributes), a list in parentheses. *)
Theorem css_selectors_are_read_refuted :
  Forall (fun s => tight s /\ parse (block_css s) <> Parsed (only_block s))
    [lit "a[b='{']"; lit "a[b=',']"; lit ".a\,b"; lit "a[href$='.pdf']"; lit ":is(a,b)"]
  /\ parse (block_css (lit "a[b='{']")) = Rejected
  /\ parse (block_css (lit "a[href$='.pdf']")) = Rejected
  /\ parse (block_css (lit ".a\,b")) = Parsed [SBlock [[lit ".a\"]; [lit "b"]] []].
Proof.
  assert (T : forall s, match s with [] => false | _ => true end = true -> trim s = s -> tight s).
  { intros s H1 H2. split; auto. now destruct s. }
  split; [|repeat split; vm_compute; reflexivity].
  repeat apply Forall_cons; try apply Forall_nil; (split; [apply T; vm_compute; reflexivity|vm_compute; discriminate]).
Qed.
Print Assumptions css_selectors_are_read_refuted.

(** ** Exactly which are read *)

(** Every slash is followed by something else than a star, a dollar sign or a double quote. *)
Definition slash_ok (s : str) : Prop :=
  forall a b, s = a ++ ch "/" :: b -> exists c r, b = c :: r /\ ~ In c (lit "*$" ++ [34%N]).

(** What the pieces of a selector are made of, char by char. *)
Inductive bits : str -> Prop :=
| bit_nil : bits []
| bit_char c v : ~ In c (lit "$,{" ++ [34%N]) -> bits v -> bits (c :: v)
| bit_atom s v : atom s -> bits v -> bits (s ++ v).

Lemma bits_app a b : bits a -> bits b -> bits (a ++ b).
Proof.
  intros A B. induction A; cbn [app]; auto.
  - now constructor.
  - rewrite <- app_assoc. now constructor.
Qed.

Lemma slash_ok_app_r a b : slash_ok (a ++ b) -> slash_ok b.
Proof. intros H x y ->. apply (H (a ++ x)). now rewrite <- app_assoc. Qed.
Lemma slash_ok_tl c s : slash_ok (c :: s) -> slash_ok s.
Proof. apply (slash_ok_app_r [c]). Qed.

Lemma no_comment s : slash_ok s -> ~ sub_text (lit "/*") s.
Proof. intros H (a & b & ->). destruct (H a (ch "*" :: b)) as (c & r & E & N); [reflexivity|]. injection E as <- _. apply N. cbn. tauto. Qed.

Lemma ws_bits w : ws w -> bits w.
Proof. induction 1 as [|c w I]; constructor; auto. cbn in I |- *. destruct I as [<-|[<-|[<-|[<-|[]]]]]; intuition discriminate. Qed.

Lemma around_bits (P : str -> Prop) u : (forall s, P s -> atom s) -> ~ sub_text (lit "/*") u -> blank_around P u -> bits u.
Proof.
  intros A N (w & s & w' & -> & B & B' & H).
  apply bits_app; [|apply bit_atom; auto]; apply ws_bits, PropsValue.blank_no_comment; auto; intros X; apply N.
  - now apply PropsValue.sub_text_app_l.
  - now apply PropsValue.sub_text_app_r, PropsValue.sub_text_app_r.
Qed.

Lemma pieces_bits u : ~ sub_text (lit "/*") u -> pieces selector_piece u -> bits u.
Proof.
  intros N (l & _ & F & ->). induction F as [|t l P F IH]; [constructor|]. cbn [List.concat] in *.
  assert (Nt : ~ sub_text (lit "/*") t) by (intros X; apply N; now apply PropsValue.sub_text_app_l).
  apply bits_app; [|apply IH; intros X; apply N; now apply PropsValue.sub_text_app_r].
  destruct P as [(c & r & -> & Hc & Hr)|[P|P]].
  - constructor; [intros X; apply Hc; cbn in X |- *; tauto|]. clear - Hr. induction Hr; constructor; auto.
  - apply (around_bits _ _ (fun s X => or_introl X) Nt P).
  - apply (around_bits _ _ (fun s X => or_intror X) Nt P).
Qed.

Lemma bits_text s : bits s -> slash_ok s -> Forall (fun c => ~ In c (lit ";@}")) s -> sel_text s.
Proof.
  remember (List.length s) as n eqn:En. revert s En. induction n as [n IH] using (well_founded_induction lt_wf).
  intros s -> B S F. destruct B as [|c v Hc B|a v A B]; [constructor| |].
  - inversion_clear F as [|? ? Fc Fv]. destruct (N.eq_dec c (ch "/")) as [->|Ns].
    + destruct (S [] v eq_refl) as (d & r & -> & Hd). inversion Fv as [|? ? Fd Fr]; subst.
      assert (Br : bits r).
      { inversion B as [|? ? ? ?|a w A ? E]; subst; auto. exfalso. apply atom_head in A. destruct A as (x & y & -> & Hx).
        injection E as -> _. apply Hd. destruct Hx as [->| ->]; cbn; tauto. }
      assert (Hd' : ~ In d (lit "$,{" ++ [34%N])).
      { inversion B as [|? ? Hx ?|a w A ? E]; subst; auto. exfalso. apply atom_head in A. destruct A as (x & y & -> & Hx).
        injection E as -> _. apply Hd. destruct Hx as [->| ->]; cbn; tauto. }
      apply st_slash.
      * clear - Hd Hd' Fd. cbn in *. tauto.
      * eapply IH; [|reflexivity|exact Br|now apply slash_ok_tl, slash_ok_tl in S|exact Fr]. cbn. lia.
    + apply st_plain; [clear - Hc Ns Fc; cbn in *; intuition congruence|].
      eapply IH; [|reflexivity|exact B|now apply slash_ok_tl in S|exact Fv]. cbn. lia.
  - apply st_atom; auto. apply Forall_app in F as [_ F].
    eapply IH; [|reflexivity|exact B|now apply slash_ok_app_r in S|exact F].
    apply atom_head in A. destruct A as (x & y & -> & _). rewrite app_length. cbn. lia.
Qed.

Lemma says_one_block t s : says_scope t [SBlock [[s]] []] ->
  exists u x y, t = x ++ u ++ y /\ 2 <= List.length y /\ trim u = s /\ pieces selector_piece u.
Proof.
  remember [SBlock [[s]] []] as l eqn:E. intros H. destruct H; try discriminate.
  injection E as -> -> ->. destruct H0 as (_ & (w1 & u1 & w2 & -> & _ & _ & St)).
  inversion St as [|t1 a t2 l (u & comma & -> & (v & (w3 & v' & w4 & -> & _ & _ & (-> & P)) & Es) & _) St' E1 E2]; subst.
  inversion St'; subst. injection Es as ->.
  exists v, (w ++ w1 ++ w3), (w4 ++ comma ++ w2 ++ lit "{" ++ body ++ lit "}" ++ w' ++ t'). split; [now rewrite !app_nil_r, <- !app_assoc|].
  split; [|auto]. rewrite !app_length. cbn [lit List.length]. cbn. lia.
Qed.

(** A selector without [;], [@], closing braces and comments is read exactly if [$], commas and braces are in it only
    inside of strings in double quotes, and all double quotes are closed. *)
Theorem selector_is_read_iff : forall s,
  tight s -> slash_ok s -> Forall (fun c => ~ In c (lit ";@}")) s ->
  (parse (block_css s) = Parsed (only_block s) <-> sel_text s).
Proof.
  intros s T S F. split.
  - intros P. apply parsed_text_says_sheet in P. unfold says_sheet, only_block in P.
    destruct (says_one_block _ _ P) as (u & x & y & E & Ly & Tu & Pu). clear P.
    pose proof (PropsValue.trim_len u) as L. rewrite Tu in L.
    assert (Le := f_equal (@List.length _) E). unfold block_css in Le, E. rewrite !app_length in Le. cbn [lit List.length] in Le. cbn in Le.
    assert (x = []) by (destruct x; [reflexivity|cbn [List.length] in Le; lia]). subst x. cbn [app] in E.
    assert (u = s).
    { apply (f_equal (firstn (List.length s))) in E. rewrite firstn_app, firstn_all, Nat.sub_diag in E.
      rewrite firstn_app in E. assert (Lu : List.length u = List.length s) by (cbn [List.length] in Le; lia).
      rewrite <- Lu, firstn_all, Nat.sub_diag in E. cbn [firstn] in E. now rewrite !app_nil_r in E. }
    subst u. apply bits_text; auto. apply pieces_bits; auto. now apply no_comment.
  - intros H. apply parse_complete. exists [], (block_css s). split; [reflexivity|]. split; [constructor|].
    assert (E : block_css s = s ++ lit "{" ++ [] ++ [] ++ lit "}" ++ [] ++ []) by reflexivity. rewrite E.
    assert (W : writes_sels ([] ++ s ++ []) [[s]]) by (apply wsel_one; auto; constructor).
    cbn [app] in W. rewrite app_nil_r in W. apply wsc_block; auto; try constructor; discriminate.
Qed.
Print Assumptions selector_is_read_iff.

(** In particular every selector without [$ , { } ; @] and double quotes, in which no comment starts. *)
Theorem plain_selector_is_read : forall s,
  tight s -> Forall (fun c => ~ In c (lit "$,{};@" ++ [34%N])) s -> ~ sub_text (lit "/*") s -> (forall u, s <> u ++ lit "/") ->
  parse (block_css s) = Parsed (only_block s).
Proof.
  intros s T F N L.
  assert (S : slash_ok s).
  { intros a b ->. destruct b as [|c r]; [now elim (L a)|]. exists c, r. split; auto.
    apply Forall_app in F as [_ F]. inversion_clear F as [|? ? _ F']. inversion_clear F' as [|? ? Fc _].
    intros [<-|[<-|[<-|[]]]]; [|apply Fc; cbn; tauto|apply Fc; cbn; tauto]. apply N. exists a, r. reflexivity. }
  apply selector_is_read_iff; auto.
  - eapply Forall_impl; [|exact F]. intros c H X. apply H. cbn in X |- *. tauto.
  - apply bits_text; auto.
    + clear - F. induction F; constructor; auto. intros X. apply H. cbn in X |- *. tauto.
    + eapply Forall_impl; [|exact F]. intros c H X. apply H. cbn in X |- *. tauto.
Qed.
Print Assumptions plain_selector_is_read.

(** ** Cases *)
Example selectors_are_read :
  Forall (fun s => parse (block_css s) = Parsed (only_block s))
    [lit ".w-1\/2:hover > a"; lit "a[href='https://x/y']"; lit "a[b=" ++ [34%N] ++ lit "{,$" ++ [34%N] ++ lit "]"; lit "&::before"]
  /\ tight (lit ".w-1\/2:hover > a") /\ slash_ok (lit ".w-1\/2:hover > a") /\ sel_text (lit ".w-1\/2:hover > a").
Proof.
  assert (T : tight (lit ".w-1\/2:hover > a")) by (split; [discriminate|vm_compute; reflexivity]).
  assert (S : slash_ok (lit ".w-1\/2:hover > a")).
  { intros a b E. do 6 (destruct a as [|? a]; [first [discriminate | injection E as <-; eexists _, _; split; [reflexivity|cbn; intuition discriminate]]|injection E as _ E]).
    exfalso. match type of E with _ = ?r => assert (I : In 47%N r) by (apply in_or_app; right; now left) end. rewrite <- E in I.
    cbn in I. intuition discriminate. }
  split; [repeat constructor; vm_compute; reflexivity|]. split; [exact T|]. split; [exact S|].
  assert (F : Forall (fun c => ~ In c (lit ";@}")) (lit ".w-1\/2:hover > a")) by (repeat constructor; cbn; intuition discriminate).
  apply (selector_is_read_iff _ T S F). vm_compute. reflexivity.
Qed.
