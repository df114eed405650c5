(** * PropsAtRule: how at-rules have to be written (C94). *)

From Coq Require Import String Ascii List NArith Bool Arith Lia.
From Verif Require Import Str StrFacts Ast CssParser SpecSays SpecGrammar ParserSound ParserTotal ParserComplete PropsParser.
Import ListNotations.
Local Open Scope list_scope.

Definition at_names : list str := [lit "@media"; lit "@supports"; lit "@container"; lit "@keyframes"].

(** CSS allows any white space, or none before a parenthesis, between the name and the condition, and names in
    upper case.  The library rejects these. *)
Theorem at_rules_are_read_refuted :
  Forall (fun css => parse css = Rejected)
    [lit "@media(min-width:1px){color:red;}"; lit "@media" ++ [10%N] ++ lit "print{color:red;}";
     lit "@MEDIA print{color:red;}"; lit "@keyframes" ++ [9%N] ++ lit "x{from{top:0;}}"]
  /\ parse (lit "@media (min-width:1px){color:red;}")
     = Parsed [SRule [lit "@media "; lit "(min-width:1px)"] [CBlock [] [CAttr (mk_attr (lit "color") [lit "red"])]]].
Proof. split; [repeat constructor; vm_compute; reflexivity|vm_compute; reflexivity]. Qed.
Print Assumptions at_rules_are_read_refuted.

Lemma blank_at w x : blank w -> hd_error (w ++ x) = Some (ch "@") -> w = [].
Proof.
  intros B E. destruct B as [|d w I B|body w N B]; [reflexivity| |]; exfalso.
  - injection E as ->. cbn in I. intuition discriminate.
  - discriminate E.
Qed.

Lemma string_head t x : blank_around string_text t -> hd_error (t ++ x) = Some (ch "@") -> False.
Proof.
  intros (w & s & w' & -> & B & _ & (b & -> & _)) E. rewrite <- app_assoc in E.
  rewrite (blank_at _ _ B E) in E. discriminate.
Qed.
Lemma interp_head t x : blank_around interp_text t -> hd_error (t ++ x) = Some (ch "@") -> False.
Proof.
  intros (w & s & w' & -> & B & _ & (u & n & u' & -> & _)) E. rewrite <- app_assoc in E.
  rewrite (blank_at _ _ B E) in E. discriminate.
Qed.

Lemma decl_head t a x : padded decl_text t a -> hd_error (t ++ x) = Some (ch "@") -> False.
Proof.
  intros (w & u & w' & -> & B & _ & (kt & k & vt & v & -> & (w1 & ku & w2 & -> & B1 & _ & (-> & (c & r & -> & Hc & _))) & _)) E.
  rewrite <- !app_assoc in E. rewrite (blank_at _ _ B E) in E. cbn [app] in E.
  rewrite (blank_at _ _ B1 E) in E. injection E as ->.
  unfold name_start in Hc. cbn in Hc. intuition (discriminate || lia).
Qed.
Lemma decls_head f t l x : says_decls f t l -> hd_error (t ++ x) = Some (ch "@") -> False.
Proof. intros H E. destruct H; [|rewrite <- !app_assoc in E ..]; eapply decl_head; eauto. Qed.

Lemma selector_head t s x : selector_text t s -> hd_error (t ++ x) = Some (ch "@") -> False.
Proof.
  intros (u & (w & u' & w' & -> & B & _ & (-> & (l & Nl & F & ->))) & _) E.
  rewrite <- !app_assoc in E. rewrite (blank_at _ _ B E) in E. cbn [app] in E.
  destruct l as [|p l]; [easy|]. inversion_clear F. cbn [List.concat] in E. rewrite <- app_assoc in E.
  destruct H as [(c & r & -> & Hc & _)|[H|H]].
  - injection E as ->. apply Hc. cbn. tauto.
  - eapply string_head; eauto.
  - eapply interp_head; eauto.
Qed.
Lemma sels_head t l x : selector_list t l -> hd_error (t ++ x) = Some (ch "@") -> False.
Proof.
  intros (Nl & (w & u & w' & -> & B & _ & S)) E. rewrite <- !app_assoc in E. rewrite (blank_at _ _ B E) in E. cbn [app] in E.
  destruct S as [|t a t' l (u & comma & -> & Hs & _) _]; [easy|]. rewrite <- !app_assoc in E. eapply selector_head; eauto.
Qed.

(** Whatever follows: a text that starts with [@] is read only if it starts with one of the four names and a space.
    All other at-rules, or ways to write these, are errors; nothing is dropped or taken for something else. *)
Theorem at_rule_starts : forall rest s,
  parse (ch "@" :: rest) = Parsed s -> exists n r, In n at_names /\ ch "@" :: rest = n ++ lit " " ++ r.
Proof.
  intros rest s P. apply parsed_text_says_sheet in P. unfold says_sheet in P.
  assert (A : forall names t c x, at_text names t c -> hd_error (t ++ x) = Some (ch "@") -> exists n r, In n names /\ t ++ x = n ++ lit " " ++ r).
  { intros names t c x (w & n & cc & w' & -> & B & _ & I & _) E. rewrite <- !app_assoc in *. pose proof (blank_at _ _ B E) as Ew. subst w.
    cbn [app]. eauto. }
  remember (ch "@" :: rest) as t0 eqn:Et. assert (E : hd_error t0 = Some (ch "@")) by now subst. clear Et.
  destruct P as [w B|t l t' c D S|w t sels body content w' t' c B L _ _ _|w t cond body content w' t' c B L _ _ _|w t cond body frames w' t' c B L _ _ _].
  - exfalso. rewrite <- (app_nil_r w) in E. rewrite (blank_at _ _ B E) in E. discriminate.
  - exfalso. eapply decls_head; eauto.
  - exfalso. rewrite (blank_at _ _ B E) in E. eapply sels_head; eauto.
  - pose proof (blank_at _ _ B E) as Ew. subst w. cbn [app] in *. destruct (A _ _ _ _ L E) as (n & r & I & ->). exists n, r. split; auto.
    cbn in I |- *. tauto.
  - pose proof (blank_at _ _ B E) as Ew. subst w. cbn [app] in *. destruct (A _ _ _ _ L E) as (n & r & I & ->). exists n, r. split; auto.
    cbn in I |- *. tauto.
Qed.
Print Assumptions at_rule_starts.

(** Between name and condition there has to be a space, after which any white space is fine; otherwise the text is
    rejected. *)
Theorem at_rule_separator_iff : forall n sep cond body content,
  In n group_names -> ws sep -> cond_text cond -> tight cond -> writes_scope false body content ->
  let css := n ++ sep ++ cond ++ lit "{" ++ body ++ lit "}" in
  (parse css = Parsed [SRule [n ++ lit " "; cond] (map rbc_of_scope content)] <-> hd_error sep = Some (ch " "))
  /\ (hd_error sep <> Some (ch " ") -> parse css = Rejected).
Proof.
  intros n sep cond body content I W C T S css.
  assert (Space : forall s, parse css = Parsed s -> hd_error sep = Some (ch " ")).
  { intros s P. assert (E : exists r, css = ch "@" :: r).
    { unfold css. destruct I as [<-|[<-|[<-|[]]]]; eexists; reflexivity. }
    destruct E as [r E]. rewrite E in P. destruct (at_rule_starts r s P) as (n' & r' & I' & E'). rewrite <- E in E'. clear E P.
    unfold css in E'. assert (H : hd_error (sep ++ cond) = Some (ch " ")).
    { destruct T as [T _]. destruct cond as [|d cond]; [easy|].
      destruct I as [<-|[<-|[<-|[]]]], I' as [<-|[<-|[<-|[<-|[]]]]]; try discriminate; apply (f_equal (skipn 6)) in E';
      (destruct sep as [|x sep]; injection E' as -> _; reflexivity). }
    destruct sep as [|x sep]; [|exact H]. exfalso. cbn [app] in H. destruct T as [_ T]. destruct cond as [|d cond]; [discriminate|].
    injection H as ->. apply ParserTokens.trim_id_head in T. discriminate. }
  split; [split|].
  - apply Space.
  - intros H. destruct sep as [|x sep]; [discriminate|]. injection H as ->. apply parse_complete. exists [], css. split; [reflexivity|]. split; [constructor|].
    inversion_clear W.
    assert (Ec : css = (n ++ lit " " ++ sep ++ cond) ++ lit "{" ++ [] ++ body ++ lit "}" ++ [] ++ [])
      by (unfold css; rewrite !app_nil_r, <- !app_assoc; reflexivity).
    rewrite Ec.
    apply wsc_rule; try constructor; auto. exists [], n, sep, cond, []. rewrite !app_nil_r. cbn [app].
    assert (B : blank []) by constructor. repeat (split; [solve [auto | constructor]|]). reflexivity.
  - intros H. destruct (parse css) as [s| |] eqn:P; [elim H; now apply (Space s)|reflexivity|exfalso; exact (parse_total css P)].
Qed.
Print Assumptions at_rule_separator_iff.

(** Any condition without a dollar sign is read as it is written, exactly if it has no opening brace: not even inside of
    a string. *)
Theorem at_rule_condition_iff : forall n c,
  In n group_names -> tight c -> ~ In (ch "$") c ->
  (parse (n ++ lit " " ++ c ++ lit "{}") = Parsed [SRule [n ++ lit " "; c] []] <-> ~ In (ch "{") c).
Proof.
  intros n c I T D. split.
  - intros P. apply parsed_text_says_sheet in P. unfold says_sheet in P.
    assert (Q : exists x m u y, n ++ lit " " ++ c ++ lit "{}" = x ++ m ++ lit " " ++ u ++ y /\ 2 <= List.length y
              /\ m = n /\ trim u = c /\ pieces condition_piece u).
    { remember [SRule [n ++ lit " "; c] []] as l eqn:El. remember (n ++ lit " " ++ c ++ lit "{}") as t0 eqn:Et. clear Et.
      destruct P as [| | |w t cond body content w' t' r B (w1 & m & u & w2 & -> & _ & _ & Im & Pu & ->) _ _ _
                      |w t cond body frames w' t' r B (w1 & m & u & w2 & -> & _ & _ & Im & Pu & ->) _ _ _]; try discriminate;
        injection El as Em Eu _ _; apply app_inv_tail in Em; subst m;
        (exists (w ++ w1), n, u, (w2 ++ lit "{" ++ body ++ lit "}" ++ w' ++ t'); rewrite <- !app_assoc;
         repeat (split; [reflexivity || (rewrite !app_length; cbn; lia) || auto|]); auto). }
    destruct Q as (x & m & u & y & E & Ly & -> & Tu & Pu).
    assert (L1 : List.length c <= List.length u).
    { rewrite <- Tu. unfold trim. destruct (trim_start_split u) as (w & E1 & _). destruct (trim_end_split (trim_start u)) as (w' & E2 & _).
      apply (f_equal (@List.length _)) in E1, E2. rewrite app_length in E1, E2. lia. }
    assert (L := f_equal (@List.length _) E). rewrite !app_length in L. change (List.length (lit " ")) with 1 in L. change (List.length (lit "{}")) with 2 in L.
    assert (x = []) by (destruct x; [reflexivity|cbn [List.length] in L; lia]). subst x. cbn [app] in E.
    apply app_inv_head in E. cbn [lit app list_ascii_of_string map] in E. injection E as E.
    assert (u = c).
    { apply (f_equal (firstn (List.length c))) in E. rewrite firstn_app, firstn_all, Nat.sub_diag in E.
      rewrite firstn_app in E. assert (Lu : List.length u = List.length c) by (cbn [List.length] in L; lia).
      rewrite <- Lu, firstn_all, Nat.sub_diag in E. cbn [firstn] in E. now rewrite !app_nil_r in E. }
    subst u. destruct Pu as (l & _ & F & ->). clear - F D. induction F as [|t l P F IH]; [intros []|].
    cbn [List.concat] in *. rewrite in_app_iff in *. intros [X|X]; [|apply IH; tauto].
    destruct P as [[_ P]|(w & s & w' & -> & _ & _ & (u & m & u' & -> & _))].
    + rewrite Forall_forall in P. apply (P _ X). cbn. tauto.
    + apply D. left. rewrite !in_app_iff. right. left. left. cbn. tauto.
  - intros N. apply parse_complete. exists [], (n ++ lit " " ++ c ++ lit "{}"). split; [reflexivity|]. split; [constructor|].
    assert (E : n ++ lit " " ++ c ++ lit "{}" = (n ++ lit " " ++ c) ++ lit "{" ++ [] ++ [] ++ lit "}" ++ [] ++ [])
      by (rewrite <- !app_assoc; reflexivity). rewrite E.
    change (@nil rbc) with (map rbc_of_scope []). apply wsc_rule; try constructor.
    exists [], n, [], c, []. rewrite !app_nil_r. cbn [app].
    assert (B : blank []) by constructor. repeat (split; [solve [auto | constructor]|]).
    split; [|auto]. left. apply Forall_forall. intros x X [<-|[<-|[]]]; auto.
Qed.
Print Assumptions at_rule_condition_iff.

(** ** Cases *)
Example at_rules :
  parse (lit "@media  print{color:red;}")
  = Parsed [SRule [lit "@media "; lit "print"] [CBlock [] [CAttr (mk_attr (lit "color") [lit "red"])]]]
  /\ Forall (fun css => parse css = Rejected)
       [lit "@font-face{src:x;}"; lit "@import x;"; lit "@layer a{color:red;}"; lit "@charset x;"]
  /\ ws (lit " ") /\ cond_text (lit "print") /\ tight (lit "print").
Proof.
  split; [vm_compute; reflexivity|]. split; [repeat constructor; vm_compute; reflexivity|].
  split; [repeat constructor|]. split; [left; repeat constructor; cbn; intuition discriminate|]. split; [discriminate|vm_compute; reflexivity].
Qed.

Example at_conditions :
  parse (lit "@supports (content: 'a;}')" ++ lit "{}") = Parsed [SRule [lit "@supports "; lit "(content: 'a;}')"] []]
  /\ parse (lit "@supports (content: '{')" ++ lit "{}") = Rejected
  /\ tight (lit "(content: 'a;}')") /\ ~ In (ch "{") (lit "(content: 'a;}')") /\ ~ In (ch "$") (lit "(content: 'a;}')").
Proof.
  split; [vm_compute; reflexivity|]. split; [vm_compute; reflexivity|].
  split; [split; [discriminate|vm_compute; reflexivity]|]. split; cbn; intuition discriminate.
Qed.
