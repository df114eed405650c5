(** * PropsExact3: exactly when hydrated texts, hydrated names, plain literals and attached
    managers are as expected (C29, C51, C37, C57). *)

From Coq Require Import String Ascii List NArith Bool Arith Lia.
From Verif Require Import Str StrFacts Ast CssParser SpecMacro MacroFacts LitMacro PropsMacro SpecGlobalText GlobalText
  Ids IdFacts Manager SpecManager SpecHydrate Hydrate StaticData ManagerFacts ManagerInv ManagerSteps ManagerCore ManagerProps
  Hooks SpecHooks HookFacts PropsHooks PropsManager PropsHydrate.
From Verif Require Import Render.
Import ListNotations.
Local Open Scope list_scope.
Local Opaque parse to_style_str.

(** ** C29: the text of a hydrated style

    A style of the server, created again on a client that loaded the server's data: its text is
    the server's exactly if it is scoped or nothing of it stands in a block (only in at-rules,
    such as keyframes). *)
Theorem hydrated_text_iff : forall es ps ls ws hs ms m d ec pc lc wc hc mi,
  reaches es ps ls ws -> forallb (fun o => negb (is_unregister o)) ls = true ->
  handle_of (w_mhandles ws) hs = Some ms -> nth_error (w_mgrs ws) ms = Some m ->
  m_data m <> None -> snd (step es ws (ORead hs)) = RData d ->
  reaches ec pc lc wc -> handle_of (w_mhandles wc) hc = Some mi ->
  (forall k cid, ~ registered wc mi k cid) ->
  exists w1, step ec wc (OLoad hc d) = (w1, RDone)
    /\ forall l2 w2 h2 i c,
       w2 = fst (run ec w1 l2) -> forallb (fun o => negb (is_unregister o)) l2 = true ->
       handle_of (w_mhandles w2) h2 = Some mi ->
       nth_error (w_contents ws) i = Some c -> c_mgr c = ms -> c_hydrated c = false ->
       forallb ident_char (c_id c) = true ->
       exists w3 a, step ec w2 (OCreate h2 (c_key c)) = (w3, RHandle a)
         /\ (get_style_str w3 a = Some (c_text c)
             <-> k_global (c_key c) = false \/ ~ shown_block (k_ast (c_key c))).
Proof.
  intros es ps ls ws hs ms m d ec pc lc wc hc mi Rs Us Hhs Hm Hs Hr Rc Hh Nr.
  destruct (hydration_reproduces_names es ps ls ws hs ms m d ec pc lc wc hc mi Rs Us Hhs Hm Hs Hr Rc Hh Nr)
    as (w1 & L & _ & K).
  exists w1. split; [exact L|]. intros l2 w2 h2 i c E Ok Hh2 Hi Hcm Hch P.
  destruct (K l2 w2 h2 i c E Ok Hh2 Hi Hcm Hch) as (w3 & a & S & _ & _ & T).
  exists w3, a. split; [exact S|]. rewrite T. apply reaches_core in Rs.
  destruct (o_content _ _ _ _ Rs _ _ Hi) as [_ X]. rewrite X. unfold text_of, style_text. rewrite Hch.
  destruct (k_global (c_key c)).
  - pose proof (same_text_iff (c_id c) P (k_ast (c_key c))) as Q. split.
    + intros H. right. apply Q. now injection H.
    + intros [H|H]; [discriminate|]. f_equal. now apply Q.
  - split; [now left|reflexivity].
Qed.
Print Assumptions hydrated_text_iff.

(** A global keyframes rule hydrates to the same text; a rule for the body does not. *)
Example hydrated_text_ex :
  (exists sh, parse (lit "@keyframes a { from { top: 0; } }") = Parsed sh
     /\ ~ shown_block sh)
  /\ (exists sh, parse (lit "@media print { body { top: 0; } }") = Parsed sh /\ shown_block sh)
  /\ (exists sh, parse (lit "top: 0;") = Parsed sh /\ shown_block sh)
  /\ forallb ident_char (lit "stylist-global-style-2") = true.
Proof.
  split; [|split; [|split; [|reflexivity]]].
  - eexists. split; [vm_compute; reflexivity|]. intros (x & I & H).
    destruct I as [<-|[]]; cbn in H; inversion H as [|? ? ? Ix Hx]; subst.
    destruct Ix as [<-|[]]. inversion Hx as [|? ? ? Iy Hy]; subst.
    destruct Iy as [<-|[]]. inversion Hy.
  - eexists. split; [vm_compute; reflexivity|]. eexists. split; [now left|]. cbn.
    eapply shown_in_rule; [now left|]. eapply shown_here; [now left|]. constructor.
  - eexists. split; [vm_compute; reflexivity|]. eexists. split; [now left|]. cbn.
    eapply shown_here; [now left|]. constructor.
Qed.

(** ** C51: which names collide

    Server and client count from zero.  Every style of the server has a number; a style that is
    new on the client gets its name exactly if the client's counter is at that number and both are
    of the same kind and prefix. *)
Definition stem (k : key) : str := k_prefix k ++ (if k_global k then lit "-global" else []).

Theorem hydrated_names_collide_iff : forall es ps ls ws i c,
  reaches es ps ls ws -> e_draw es = counter_entropy -> (N.of_nat (w_draws ws) < 2 ^ 64)%N ->
  nth_error (w_contents ws) i = Some c -> c_hydrated c = false ->
  exists n, n < w_draws ws
    /\ forall ec pc lc wc h mi k w' a,
       reaches ec pc lc wc -> e_draw ec = counter_entropy -> (N.of_nat (w_draws wc) < 2 ^ 64)%N ->
       handle_of (w_mhandles wc) h = Some mi -> (forall cid, ~ registered wc mi k cid) ->
       step ec wc (OCreate h k) = (w', RHandle a) ->
       (get_id w' a = Some (c_id c) <-> w_draws wc = n /\ stem k = stem (c_key c)).
Proof.
  intros es ps ls ws i c R De Dl Hc Hh. apply reaches_core in R.
  pose proof (o_origin _ _ _ _ R _ _ Hc) as O. cbv beta in O. rewrite Hh in O.
  destruct O as (n & Hn & M). exists n. split; [exact Hn|].
  intros ec pc lc wc h mi k w' a Rc Dc Dlc Hm Nr S.
  assert (Hid : forall k s, new_id (k_global k) (k_prefix k) s = stem k ++ lit "-" ++ s).
  { intros k0 s. unfold new_id, new_global, new_scoped, stem. destruct (k_global k0); rewrite <- ?app_assoc; reflexivity. }
  assert (I : get_id w' a = Some (stem k ++ lit "-" ++ counter_entropy (w_draws wc))).
  { cbn [step] in S. rewrite Hm in S. unfold get_or_register in S.
    destruct (nth_error (w_mgrs wc) mi) as [m|] eqn:Em; [|discriminate].
    destruct (reg_get (m_reg m) k) as [cid|] eqn:G.
    { exfalso. apply (Nr cid). exists m. split; [exact Em|]. now apply reg_get_in. }
    rewrite Hid, Dc in S. cbv zeta in S. destruct (e_debug ec && _); [discriminate|].
    assert (K : forall text w, w_contents w = w_contents wc -> w_handles w = w_handles wc ->
              get_id (admit_content mi k (stem k ++ lit "-" ++ counter_entropy (w_draws wc)) text w)
                (List.length (w_handles wc)) = Some (stem k ++ lit "-" ++ counter_entropy (w_draws wc))).
    { intros text w E1 E2. unfold get_id, handle_content, handle_of, admit_content. cbn [w_handles w_contents].
      rewrite E1, E2. rewrite (nth_error_app2 (w_handles wc)), Nat.sub_diag by lia. cbn [nth_error].
      rewrite nth_error_app2, Nat.sub_diag by lia. reflexivity. }
    destruct (m_data m) as [l|].
    - injection S as <- <-. apply K; reflexivity.
    - destruct (mount _ _ _ _ _) as [d|]; [|discriminate]. injection S as <- <-. apply K; reflexivity. }
  rewrite I, M, De, Hid. split.
  - intros H. assert (H' : stem k ++ lit "-" ++ counter_entropy (w_draws wc)
                           = stem (c_key c) ++ lit "-" ++ counter_entropy n) by (injection H; auto).
    destruct (Nat.eq_dec (w_draws wc) n) as [En|Ne].
    + split; [exact En|]. rewrite En in H'. now apply app_inv_tail in H'.
    + exfalso. set (N := Nat.max (w_draws wc) n + 1).
      assert (L : (N.of_nat N <= 2 ^ 64)%N) by (unfold N; lia).
      exact (counter_draws_apart N L (w_draws wc) n ltac:(unfold N; lia) ltac:(unfold N; lia) Ne _ _ H').
  - intros [-> ->]. reflexivity.
Qed.
Print Assumptions hydrated_names_collide_iff.

(** The first new style on the client gets the name of the server's first one. *)
Example hydrated_names_collide_ex :
  nth_error (w_contents server_world) 0 <> None /\ e_draw server_env = counter_entropy
  /\ (let r := step demo_env client_world (OCreate 0 (demo_key "green")) in
      w_draws client_world = 0 /\ get_id (fst r) 0 = Some (lit "stylist-style-0")
      /\ option_map c_id (nth_error (w_contents server_world) 0) = Some (lit "stylist-style-0")).
Proof. split; [vm_compute; discriminate|]. split; [reflexivity|]. now vm_compute. Qed.

(** ** C37: which literals without arguments compile *)

(** Characters other than [$] and opening braces, and [$${]. *)
Inductive plain_text : str -> Prop :=
| plain_nil : plain_text []
| plain_char x t : x <> ch "$" -> x <> ch "{" -> plain_text t -> plain_text (x :: t)
| plain_escape t : plain_text t -> plain_text (lit "$${" ++ t).

Lemma plain_app a b : plain_text a -> plain_text b -> plain_text (a ++ b).
Proof.
  intros H Hb. induction H; cbn [List.app]; [exact Hb|now constructor|].
  rewrite <- app_assoc. now apply plain_escape.
Qed.
Lemma plain_pieces s :
  plain_text s <-> exists ps, Forall piece_ok ps /\ s = write ps /\ forall w n w', ~ In (Hole w n w') ps.
Proof.
  split.
  - induction 1 as [|x t H1 H2 _ (ps & P1 & -> & P3)|t _ (ps & P1 & -> & P3)].
    + exists []. repeat split; auto.
    + exists (Text [x] :: ps). split; [constructor; [split; [discriminate|now repeat constructor]|exact P1]|].
      split; [reflexivity|]. intros w n w' [K|K]; [discriminate|exact (P3 _ _ _ K)].
    + exists (DollarBrace :: ps). split; [constructor; [exact Logic.I|exact P1]|].
      split; [reflexivity|]. intros w n w' [K|K]; [discriminate|exact (P3 _ _ _ K)].
  - intros (ps & P & -> & N). induction P as [|p ps H _ IH]; [constructor|].
    unfold write. cbn [flat_map]. apply plain_app.
    + destruct p as [s| |w n w'].
      * clear IH N. cbn. destruct H as [_ H]. induction H as [|x s [H1 H2] _ IHs]; constructor; auto.
      * apply (plain_escape []). constructor.
      * exfalso. apply (N w n w'). now left.
    + apply IH. intros w n w' K. apply (N w n w'). now right.
Qed.

(** A literal without arguments compiles exactly if it parses at run time and every text in the
    parsed sheet is of that kind. *)
Theorem plain_literal_accepted_iff : forall lit_value first css,
  lit_value first = Some css ->
  ((exists g, lit_macro lit_value [first] = Expands g)
   <-> exists sh, parse css = Parsed sh /\ Forall plain_text (sheet_strings sh)).
Proof.
  intros lv first css Hl. rewrite literal_macro_accepts_iff. split.
  - intros (f & r & css' & sh & args & [= <- <-] & Hl' & Hp & Ha & _ & Hn & Hs).
    rewrite Hl in Hl'. injection Hl' as <-. exists sh. split; [exact Hp|].
    assert (args = []) as -> by (inversion Ha; reflexivity).
    apply Forall_forall. intros s I. destruct (Hs s I) as (ps & P & ->). apply plain_pieces.
    exists ps. split; [exact P|]. split; [reflexivity|]. intros w n w' K.
    apply (proj2 (Hn n)). exists (write ps). split; [exact I|]. now exists ps, w, w'.
  - intros (sh & Hp & F). rewrite Forall_forall in F.
    exists first, [], css, sh, []. repeat split; auto.
    + constructor.
    + constructor.
    + intros [].
    + intros (s & I & Hn). apply F, plain_pieces in I as (ps & P & -> & N).
      apply (hole_iff ps n P) in Hn as (w & w' & K). elim (N _ _ _ K).
    + intros s I. apply F, plain_pieces in I as (ps & P & -> & _). now exists ps.
Qed.
Print Assumptions plain_literal_accepted_iff.

Example plain_literal_ex :
  plain_text (lit "a $${b}") /\ ~ plain_text (lit "$") /\ ~ plain_text (lit "a{")
  /\ exists sh, parse (lit "content: ""$${"";") = Parsed sh /\ Forall plain_text (sheet_strings sh).
Proof.
  assert (E : forall t, plain_text t -> plain_text ([36; 36; 123]%N ++ t)) by (intros t; apply plain_escape).
  split; [|split; [|split]].
  - do 2 (apply plain_char; [discriminate|discriminate|]). apply (plain_escape (lit "b}")).
    repeat (apply plain_char; [discriminate|discriminate|]). constructor.
  - intros H. inversion H as [|? ? N _ _|]; subst. now elim N.
  - intros H. inversion H as [|? ? _ _ K|]; subst. inversion K as [|? ? _ N _|]; subst. now elim N.
  - eexists. split; [vm_compute; reflexivity|]. constructor; [|constructor].
    apply plain_char; [discriminate|discriminate|]. apply E. apply plain_char; [discriminate|discriminate|constructor].
Qed.

(** ** C57: when the attached manager is the one used

    Exactly if it is that of the context. *)
Theorem global_in_source_manager_iff : forall y e page l a ctx src a' mi ci,
  arun y e (app_start page) l = Some a -> astep y e a (AMount ctx src) = Some a' ->
  source_manager_is a a' src mi -> context_is a a' ctx ci ->
  (carried a' (List.length (a_globals a)) = Some (mi, s_sheet src) <-> mi = ci).
Proof.
  intros y e page l a ctx src a' mi ci R S _ C.
  pose proof (global_carries _ _ _ _ _ _ _ (List.length (a_globals a)) R S) as K.
  cbn in K. rewrite Nat.eqb_refl in K. destruct K as (mi' & C' & K).
  assert (mi' = ci) as ->.
  { destruct ctx as [d|]; cbn in C, C'; [congruence|]. destruct C as (d & X1 & X2). destruct C' as (d' & Y1 & Y2). congruence. }
  rewrite K. split; congruence.
Qed.
Print Assumptions global_in_source_manager_iff.
