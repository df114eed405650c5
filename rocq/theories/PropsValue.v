(** * PropsValue: which values of declarations are read as CSS reads them (C93). *)

From Coq Require Import String Ascii List NArith Bool Arith Lia.
From Verif Require Import Str StrFacts Ast CssParser SpecRender SpecSays SpecGrammar ParserSound ParserTokens ParserComplete PropsParser SpecValue.
Import ListNotations.
Local Open Scope list_scope.

Definition only (k v : str) : sheet := [SBlock [] [CAttr (mk_attr k [v])]].

(** CSS values that the library rejects or takes for something else: a semicolon in single quotes, the media type
    of a [data:] URL, a dollar sign, and braces. *)
Theorem css_values_are_read_refuted :
  Forall (fun kv => css_value true (snd kv) /\ tight (snd kv) /\ name (fst kv)
                    /\ parse (decl_css (fst kv) (snd kv)) <> Parsed (only (fst kv) (snd kv)))
    [(lit "content", lit "'a;b'"); (lit "content", lit "'a; b: c'"); (lit "background", lit "url(data:image/png;base64,AA)");
     (lit "content", lit "'$'"); (lit "--x", lit "{a}")].
Proof.
  assert (N : forall k, match k with [] => false | _ => forallb (fun c => is_ascii_alpha c || char_eqb c (ch "-")) k end = true -> name k).
  { intros k H. destruct k as [|c r]; [discriminate|]. rewrite forallb_forall in H.
    assert (S : forall x, In x (c :: r) -> name_start x).
    { intros x I. apply H, orb_prop in I as [I|I]; [right; right; now left|left; now apply char_eqb_eq]. }
    exists c, r. split; auto. split; [apply S; now left|]. apply Forall_forall. intros x I. left. apply S. now right. }
  assert (T : forall v, match v with [] => false | _ => true end = true -> trim v = v -> tight v).
  { intros v H1 H2. split; auto. now destruct v. }
  assert (Q : forall b, quoted_body squote b -> css_value true ([squote] ++ b ++ [squote] ++ [])).
  { intros b H. apply cv_string; [now right|auto|constructor]. }
  repeat apply Forall_cons; try apply Forall_nil; cbn [fst snd]; (split; [|split; [|split; [|vm_compute; discriminate]]]);
    try (apply T; vm_compute; reflexivity);
    try (apply N; vm_compute; reflexivity).
  - apply (Q (lit "a;b")). repeat constructor; discriminate.
  - apply (Q (lit "a; b: c")). repeat constructor; discriminate.
  - apply (cv_url true (lit "data:image/png;base64,AA") []); [|constructor].
    repeat constructor; cbn; intuition discriminate.
  - apply (Q (lit "$")). repeat constructor; discriminate.
  - apply (cv_block true (ch "{") (lit "a") (ch "}") []); [right; right; split; reflexivity| |constructor].
    repeat constructor; try (cbn; intuition discriminate).
Qed.
Print Assumptions css_values_are_read_refuted.

(** ** Exactly which values are read *)

Lemma blank_no_comment w : ~ sub_text (lit "/*") w -> blank w -> ws w.
Proof.
  intros H B. induction B as [|c w I B IH|body w N B IH]; [constructor| |].
  - constructor; auto. apply IH. intros (a & b & ->). apply H. now exists (c :: a), b.
  - elim H. exists [], (body ++ lit "*/" ++ w). reflexivity.
Qed.
Lemma sub_text_app_l p a b : sub_text p a -> sub_text p (a ++ b).
Proof. intros (x & y & ->). exists x, (y ++ b). now rewrite !app_assoc. Qed.
Lemma sub_text_app_r p a b : sub_text p b -> sub_text p (a ++ b).
Proof. intros (x & y & ->). exists (a ++ x), y. now rewrite !app_assoc. Qed.

Lemma plain_value t : Forall (fun c => ~ In c (lit "${;}/" ++ [34%N])) t -> value_text t.
Proof. induction 1; constructor; auto. Qed.

Lemma around_value (P : str -> Prop) u : (forall s, P s -> atom s) -> ~ sub_text (lit "/*") u -> blank_around P u -> value_text u.
Proof.
  intros A N (w & s & w' & -> & B & B' & H).
  assert (W : ws w) by (apply blank_no_comment; auto; intros X; apply N; now apply sub_text_app_l).
  assert (W' : ws w') by (apply blank_no_comment; auto; intros X; apply N; now apply sub_text_app_r, sub_text_app_r).
  apply value_text_app; [now apply ws_value|]. apply vt_atom; auto. now apply ws_value.
Qed.

Lemma pieces_value u : ~ sub_text (lit "/*") u -> pieces value_piece u -> value_text u.
Proof.
  intros N (l & _ & F & ->). induction F as [|t l P F IH]; [constructor|]. cbn [List.concat] in *.
  apply value_text_app; [|apply IH; intros X; apply N; now apply sub_text_app_r].
  assert (Nt : ~ sub_text (lit "/*") t) by (intros X; apply N; now apply sub_text_app_l).
  destruct P as [[_ P]|[P|[P|(c & -> & H)]]].
  - now apply plain_value.
  - apply (around_value _ _ (fun s X => or_introl X) Nt P).
  - apply (around_value _ _ (fun s X => or_intror X) Nt P).
  - apply vt_slash; [exact H|constructor].
Qed.

Lemma blank_head c w x : blank w -> name_char c \/ c = ch ":" -> hd_error (w ++ x) = Some c -> w = [].
Proof.
  intros B H E. destruct B as [|d w I B|body w N B]; [reflexivity| |]; exfalso.
  - injection E as ->. unfold name_char, name_start in H. cbn in I.
    destruct I as [<-|[<-|[<-|[<-|[]]]]]; cbn in H; intuition (discriminate || lia).
  - injection E as <-. unfold name_char, name_start in H. cbn in H. intuition (discriminate || lia).
Qed.

Lemma colon_no_name : ~ name_char (ch ":").
Proof. unfold name_char, name_start. cbn. intuition (discriminate || lia). Qed.
Lemma slash_no_name : ~ name_char (ch "/").
Proof. unfold name_char, name_start. cbn. intuition (discriminate || lia). Qed.

(** Two names at the beginning of one text, each followed by something else. *)
Lemma same_name k : forall k' x y, Forall name_char k -> Forall name_char k' -> k ++ x = k' ++ y ->
  match x with c :: _ => ~ name_char c | [] => False end -> match y with c :: _ => ~ name_char c | [] => False end -> k = k' /\ x = y.
Proof.
  induction k as [|c k IH]; intros [|d k'] x y F F' E X Y; cbn in E.
  - auto.
  - subst x. inversion_clear F'. now elim X.
  - subst y. inversion_clear F. now elim Y.
  - injection E as <- E. inversion_clear F. inversion_clear F'. destruct (IH k' x y) as [-> ->]; auto.
Qed.

Lemma name_chars k : name k -> Forall name_char k.
Proof. intros (c & r & -> & H & F). constructor; auto. now left. Qed.

Lemma trim_len s : List.length (trim s) <= List.length s.
Proof.
  unfold trim. destruct (trim_start_split s) as (w & E & _). destruct (trim_end_split (trim_start s)) as (w' & E' & _).
  apply (f_equal (@List.length _)) in E, E'. rewrite app_length in E, E'. lia.
Qed.

Lemma says_one t a : says_decls true t [a] -> exists t1 w, t = t1 ++ lit ";" ++ w /\ padded decl_text t1 a /\ blank w.
Proof.
  remember [a] as l eqn:E. intros H. destruct H as [t1 b F|t1 b w Pd B|t1 b t2 l Pd Sd]; [discriminate| |].
  - injection E as ->. eauto.
  - injection E as -> ->. inversion Sd.
Qed.
Lemma says_only text a : says_scope text [SBlock [] [CAttr a]] ->
  exists t1 w t', text = (t1 ++ lit ";" ++ w) ++ t' /\ padded decl_text t1 a /\ blank w.
Proof.
  remember [SBlock [] [CAttr a]] as s eqn:E. intros H. destruct H; try discriminate.
  - injection E as E _. destruct l as [|b [|]]; try discriminate. injection E as ->.
    destruct (says_one _ _ H) as (t1 & w & -> & Pd & B). eauto 6.
  - injection E as -> _ _. destruct H0 as [H0 _]. now elim H0.
Qed.

(** A value without [/*] is read, after any name, exactly if [$ ; { }] are in it only inside of strings in
    double quotes or in interpolations, and all double quotes are closed. *)
Theorem value_is_read_iff : forall k v,
  name k -> trim k = k -> tight v -> ~ sub_text (lit "/*") v ->
  (parse (decl_css k v) = Parsed (only k v) <-> value_text v).
Proof.
  intros k v Nk Tk Tv Nc. split.
  - intros P. apply parsed_text_says_sheet in P. unfold says_sheet, only in P.
    destruct (says_only _ _ P) as (t1 & w & t' & Et & Pd & Bw). clear P.
    destruct Pd as (W & u0 & W' & -> & B0 & B0' & (kt & k' & vt & v' & -> & Kp & Vp & Ea)).
    destruct Kp as (w1 & ku & w2 & -> & B1 & B2 & (-> & Nk')). destruct Vp as (w3 & vu & w4 & -> & B3 & B4 & (-> & Pv)).
    injection Ea as Ek Ev. unfold decl_css in Et. rewrite <- !app_assoc in Et.
    (* the name *)
    assert (E0 : W = []).
    { destruct Nk as (c & r & -> & Hc & _). apply (blank_head c W (w1 ++ k' ++ w2 ++ lit ":" ++ w3 ++ v' ++ w4 ++ W' ++ lit ";" ++ w ++ t') B0 (or_introl (or_introl Hc))).
      rewrite <- Et. reflexivity. }
    subst W. cbn [app] in Et.
    assert (E1 : w1 = []).
    { destruct Nk as (c & r & -> & Hc & _). apply (blank_head c w1 (k' ++ w2 ++ lit ":" ++ w3 ++ v' ++ w4 ++ W' ++ lit ";" ++ w ++ t') B1 (or_introl (or_introl Hc))).
      rewrite <- Et. reflexivity. }
    subst w1. cbn [app] in Et.
    assert (Hk : k' = k /\ w2 ++ lit ":" ++ w3 ++ v' ++ w4 ++ W' ++ lit ";" ++ w ++ t' = lit ":" ++ v ++ lit ";").
    { apply same_name; auto using name_chars.
      - destruct w2 as [|c w2]; [exact colon_no_name|]. cbn [app]. intros X.
        assert (Y : c :: w2 = []) by (apply (blank_head c _ [] B2); auto). discriminate.
      - exact colon_no_name. }
    destruct Hk as [-> Hk].
    assert (E2 : w2 = []).
    { apply (blank_head (ch ":") w2 (lit ":" ++ w3 ++ v' ++ w4 ++ W' ++ lit ";" ++ w ++ t') B2 (or_intror eq_refl)). now rewrite Hk. }
    subst w2. cbn [app lit] in Hk. injection Hk as Hk.
    pose proof (trim_len v') as Lv. rewrite <- Ev in Lv.
    assert (Ll : List.length (w3 ++ v' ++ w4 ++ W' ++ lit ";" ++ w ++ t') = List.length (v ++ lit ";")) by now rewrite <- Hk.
    rewrite !app_length in Ll. cbn [lit List.length] in Ll.
    assert (w3 = []) by (destruct w3; [reflexivity|cbn [List.length] in Ll; lia]). subst w3. cbn [app] in Hk.
    assert (v' = v).
    { apply (f_equal (firstn (List.length v))) in Hk. rewrite firstn_app, firstn_all2 in Hk by (cbn [List.length] in Ll; lia).
      rewrite (firstn_app _ v), firstn_all in Hk.
      assert (X : List.length v - List.length v' = 0) by lia. rewrite X, Nat.sub_diag in Hk. cbn [firstn] in Hk. now rewrite !app_nil_r in Hk. }
    subst v'. now apply pieces_value.
  - intros V. apply parse_complete. exists [], (decl_css k v). split; [reflexivity|]. split; [constructor|].
    rewrite <- (app_nil_r (decl_css k v)). unfold only. change [CAttr (mk_attr k [v])] with (map CAttr [mk_attr k [v]]).
    apply wsc_dangling; [|constructor]. unfold decl_css.
    replace (k ++ lit ":" ++ v ++ lit ";") with ((k ++ lit ":" ++ v) ++ lit ";" ++ []) by (now rewrite app_nil_r, <- !app_assoc).
    apply wd_one; [|constructor]. exists [], k, [], [], v, []. cbn [app]. rewrite app_nil_r.
    assert (B : blank []) by constructor. repeat (split; [solve [auto | intros; constructor]|]). reflexivity.
Qed.
Print Assumptions value_is_read_iff.

(** In particular every value without any of [$ ; { } / ] and double quotes is: strings in single quotes without these. *)
Theorem plain_value_is_read : forall k v,
  name k -> trim k = k -> tight v -> Forall (fun c => ~ In c (lit "${;}/" ++ [34%N])) v ->
  parse (decl_css k v) = Parsed (only k v).
Proof.
  intros k v Nk Tk Tv F. apply value_is_read_iff; auto; [|now apply plain_value].
  intros (a & b & ->). apply Forall_app in F as [_ F]. inversion_clear F. apply H. cbn. tauto.
Qed.
Print Assumptions plain_value_is_read.

(** The same inside of a block, where the last semicolon may be left out. *)
Definition block_decl_css (s k v : str) : str := s ++ lit "{" ++ k ++ lit ":" ++ v ++ lit "}".

Lemma same_parts (a b x y : str) : a ++ x = b ++ y -> List.length a = List.length b -> a = b /\ x = y.
Proof.
  revert b. induction a as [|c a IH]; intros [|d b] E L; cbn in E, L; try discriminate; [auto|].
  injection E as -> E. injection L as L. destruct (IH b E L) as [-> ->]. auto.
Qed.

Lemma says_one_decl t s a : says_scope t [SBlock [[s]] [CAttr a]] ->
  exists x u y p d q z, t = x ++ u ++ y ++ lit "{" ++ p ++ d ++ q ++ lit "}" ++ z /\ trim u = s /\ decl_text d a.
Proof.
  remember [SBlock [[s]] [CAttr a]] as l eqn:E. intros H. destruct H; try discriminate.
  injection E as -> -> ->. destruct H0 as (_ & (w1 & u1 & w2 & -> & _ & _ & St)).
  inversion St as [|t1 b t2 l (u & comma & -> & (v & (w3 & v' & w4 & -> & _ & _ & (-> & _)) & Es) & _) St' E1 E2]; subst.
  inversion St'; subst. injection Es as ->.
  assert (D : exists p d q, body = p ++ d ++ q /\ decl_text d a).
  { remember [CAttr a] as c eqn:Ec. destruct H1 as [|t l t2 c D C|]; try discriminate.
    assert (D' : forall f t l, says_decls f t l -> forall b r, l = b :: r -> exists p d q, t = p ++ d ++ q /\ decl_text d b).
    { clear. intros f t l D. destruct D; intros b r E; injection E as -> _.
      - destruct H0 as (w & d & w' & -> & _ & _ & Dd). eauto.
      - destruct H as (w0 & d & w' & -> & _ & _ & Dd). exists w0, d, (w' ++ lit ";" ++ w). rewrite <- !app_assoc. auto.
      - destruct H as (w0 & d & w' & -> & _ & _ & Dd). exists w0, d, (w' ++ lit ";" ++ t'). rewrite <- !app_assoc. auto. }
    destruct l as [|b r]; [inversion D|]. injection Ec as -> _. destruct (D' _ _ _ D _ _ eq_refl) as (p & d & q & -> & Dd).
    exists p, d, (q ++ t2). rewrite <- !app_assoc. auto. }
  destruct D as (p & d & q & -> & D).
  exists (w ++ w1 ++ w3), v, (w4 ++ comma ++ w2), p, d, q, (w' ++ t'). split; [|auto].
  now rewrite !app_nil_r, <- !app_assoc.
Qed.

Theorem block_value_is_read_iff : forall s k v,
  sel_text s -> tight s -> name k -> trim k = k -> tight v -> ~ sub_text (lit "/*") v ->
  (parse (block_decl_css s k v) = Parsed [SBlock [[s]] [CAttr (mk_attr k [v])]] <-> value_text v).
Proof.
  intros s k v Hs Ts Nk Tk Tv Nc. split.
  - intros P. apply parsed_text_says_sheet in P. unfold says_sheet in P.
    destruct (says_one_decl _ _ _ P) as (x & u & y & p & d & q & z & E & Tu & (kt & k' & vt & v' & -> & Kp & Vp & Ea)). clear P.
    destruct Kp as (w1 & ku & w2 & -> & _ & _ & (-> & _)). destruct Vp as (w3 & vu & w4 & -> & _ & _ & (-> & Pv)).
    injection Ea as Ek Ev.
    pose proof (trim_len u) as L1. pose proof (trim_len k') as L2. pose proof (trim_len v') as L3. rewrite Tu in L1. rewrite <- Ek in L2. rewrite <- Ev in L3.
    assert (L := f_equal (@List.length _) E). unfold block_decl_css in L, E. rewrite !app_length in L.
    change (List.length (lit "{")) with 1 in L. change (List.length (lit ":")) with 1 in L. change (List.length (lit "}")) with 1 in L.
    assert (Z : forall w : str, List.length w = 0 -> w = []) by (now destruct w).
    rewrite (Z x), (Z y), (Z p), (Z w1), (Z w2), (Z w3) in E by lia. cbn [app] in E. rewrite <- !app_assoc in E. cbn [app] in E.
    destruct (same_parts _ _ _ _ E) as [_ E1]; [lia|]. destruct (same_parts _ _ _ _ E1) as [_ E2]; [reflexivity|].
    destruct (same_parts _ _ _ _ E2) as [_ E3]; [lia|]. destruct (same_parts _ _ _ _ E3) as [_ E4]; [reflexivity|].
    destruct (same_parts _ _ _ _ E4) as [E5 _]; [lia|]. subst v'. now apply pieces_value.
  - intros V. apply parse_complete. exists [], (block_decl_css s k v). split; [reflexivity|]. split; [constructor|].
    assert (B : blank []) by constructor.
    assert (W : writes_sels ([] ++ s ++ []) [[s]]) by (apply wsel_one; auto; constructor).
    cbn [app] in W. rewrite app_nil_r in W.
    assert (E : block_decl_css s k v = s ++ lit "{" ++ [] ++ (k ++ lit ":" ++ v) ++ lit "}" ++ [] ++ [])
      by (unfold block_decl_css; now rewrite !app_nil_r, <- !app_assoc). rewrite E.
    apply wsc_block; auto; try constructor; try discriminate.
    exists [], k, [], [], v, []. cbn [app]. rewrite app_nil_r.
    repeat (split; [solve [auto | intros; constructor]|]). reflexivity.
Qed.
Print Assumptions block_value_is_read_iff.

(** ** Cases *)
Example values_are_read :
  parse (decl_css (lit "content") (lit "'a, b' url(x.png)")) = Parsed (only (lit "content") (lit "'a, b' url(x.png)"))
  /\ parse (decl_css (lit "background") (lit "url(" ++ [34%N] ++ lit "data:image/png;base64,A/A" ++ [34%N] ++ lit ")"))
     = Parsed (only (lit "background") (lit "url(" ++ [34%N] ++ lit "data:image/png;base64,A/A" ++ [34%N] ++ lit ")"))
  /\ value_text (lit "'a, b' url(x.png)") /\ tight (lit "'a, b' url(x.png)") /\ ~ sub_text (lit "/*") (lit "'a, b' url(x.png)").
Proof.
  split; [vm_compute; reflexivity|]. split; [vm_compute; reflexivity|].
  split; [apply plain_value; repeat constructor; cbn; intuition discriminate|].
  split; [split; [discriminate|vm_compute; reflexivity]|].
  intros X. apply contains_str_spec in X. vm_compute in X. discriminate.
Qed.

(** What becomes of the others: an error, or another style. *)
Example values_are_not_read :
  parse (decl_css (lit "content") (lit "'a;b'")) = Rejected
  /\ parse (decl_css (lit "background") (lit "url(data:image/png;base64,AA)")) = Rejected
  /\ parse (decl_css (lit "content") (lit "'a; b: c'"))
     = Parsed [SBlock [] [CAttr (mk_attr (lit "content") [lit "'a"]); CAttr (mk_attr (lit "b") [lit "c'"])]].
Proof. repeat split; vm_compute; reflexivity. Qed.

Example block_values :
  parse (block_decl_css (lit "a:hover") (lit "content") (lit "'a, b' url(x.png)"))
  = Parsed [SBlock [[lit "a:hover"]] [CAttr (mk_attr (lit "content") [lit "'a, b' url(x.png)"])]]
  /\ parse (block_decl_css (lit "a") (lit "content") (lit "'}'")) = Rejected
  /\ parse (block_decl_css (lit "a") (lit "content") (lit "'a;b'")) = Rejected
  /\ sel_text (lit "a:hover") /\ tight (lit "a:hover").
Proof.
  split; [vm_compute; reflexivity|]. split; [vm_compute; reflexivity|]. split; [vm_compute; reflexivity|].
  split; [|split; [discriminate|vm_compute; reflexivity]]. repeat first [exact st_nil | apply st_plain; [cbn; intuition discriminate|]].
Qed.
