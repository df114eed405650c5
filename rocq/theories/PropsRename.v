(** * PropsRename: a style's text depends on its class only where the class is written (C82), and the
    items of a sheet do not depend on each other (C83). *)

From Coq Require Import String Ascii List NArith Bool Arith Lia.
From Verif Require Import Str StrFacts Ast CssParser Ids Manager Render SpecManager ManagerFacts ManagerInv ManagerCore ManagerProps
  SpecRename RenameFacts ComposeFacts PropsManager.
Import ListNotations.
Local Open Scope list_scope.
Local Opaque parse.

(** The text of a sheet under another class is its text with every [.class] replaced, if the sheet
    itself mentions neither. *)
Theorem class_renamed : forall c c' s,
  forallb ident_char c = true -> forallb ident_char c' = true -> unmentioned c s -> unmentioned c' s ->
  to_style_str (Some c') s = replace_str (lit "." ++ c) (lit "." ++ c') (to_style_str (Some c) s).
Proof. intros c c' s P P' U U'. now apply renamed. Qed.
Print Assumptions class_renamed.

(** Any two scoped styles with the same CSS, in whatever managers: the one is the other, renamed. *)
Theorem same_css_renamed : forall e page l w h h' x x',
  reaches e page l w -> handle_content w h = Some x -> handle_content w h' = Some x' ->
  k_global (c_key x) = false -> k_global (c_key x') = false -> k_ast (c_key x') = k_ast (c_key x) ->
  forallb ident_char (c_id x) = true -> forallb ident_char (c_id x') = true ->
  unmentioned (c_id x) (k_ast (c_key x)) -> unmentioned (c_id x') (k_ast (c_key x)) ->
  get_id w h = Some (c_id x) /\ get_id w h' = Some (c_id x')
  /\ get_style_str w h' = option_map (replace_str (lit "." ++ c_id x) (lit "." ++ c_id x')) (get_style_str w h).
Proof.
  intros e page l w h h' x x' R H H' G G' A P P' U U'. apply reaches_core in R.
  assert (T : forall h x, handle_content w h = Some x -> k_global (c_key x) = false ->
              c_text x = to_style_str (Some (c_id x)) (k_ast (c_key x))).
  { intros i y Hi Gi. unfold handle_content in Hi. destruct (handle_of (w_handles w) i) as [cid|]; [|discriminate].
    destruct (o_content _ _ _ _ R _ _ Hi) as [_ K]. rewrite K. unfold text_of, style_text. rewrite Gi. now destruct (c_hydrated y). }
  unfold get_id, get_style_str. rewrite H, H'. cbn [option_map]. split; [reflexivity|]. split; [reflexivity|].
  rewrite (T _ _ H G), (T _ _ H' G'), A. f_equal. now apply class_renamed.
Qed.
Print Assumptions same_css_renamed.

Local Definition sample : sheet :=
  [SBlock [] [CAttr (mk_attr (lit "color") [lit "red"])];
   SBlock [[lit "&:hover"]; [lit ".x &"]; [lit ":root > b"]; [lit "i"]]
     [CAttr (mk_attr (lit "top") [lit "0."]); CRule [lit "@media print"] [CAttr (mk_attr (lit "top") [lit "1px"])]]].
Lemma mentions_dec class s :
  existsb (contains_str (lit "." ++ class)) (sheet_texts s) = false -> unmentioned class s.
Proof.
  intros H t I (a & b & ->). rewrite <- not_true_iff_false in H. apply H. apply existsb_exists. eexists. split; [exact I|].
  apply contains_str_spec. eauto.
Qed.
Example class_renamed_ex :
  unmentioned (lit "s-1") sample /\ unmentioned (lit "t-22") sample
  /\ to_style_str (Some (lit "t-22")) sample <> to_style_str (Some (lit "s-1")) sample.
Proof. split; [now apply mentions_dec|]. split; [now apply mentions_dec|]. vm_compute. discriminate. Qed.

(** A sheet that mentions the class can be laid out in another way: two of its blocks may have the same
    selector. *)
Example class_mentioned_ex :
  let s := [SBlock [[lit ".a"]] [CAttr (mk_attr (lit "top") [lit "0"]); CBlock [[lit ".a .a"]] [CAttr (mk_attr (lit "top") [lit "1"])]]] in
  to_style_str (Some (lit "b")) s <> replace_str (lit ".a") (lit ".b") (to_style_str (Some (lit "a")) s).
Proof. vm_compute. discriminate. Qed.
Example same_css_renamed_ex : exists w x x',
  reaches demo_env demo_page
    [OBuild (lit "a") (Some 1) true false; OBuild (lit "b") (Some 1) true false;
     OCreate 0 (mk_key false (lit "a") sample); OCreate 1 (mk_key false (lit "b") sample)] w
  /\ handle_content w 0 = Some x /\ handle_content w 1 = Some x'
  /\ c_id x = lit "a-style-0" /\ c_id x' = lit "b-style-1"
  /\ forallb ident_char (c_id x) = true /\ forallb ident_char (c_id x') = true
  /\ unmentioned (c_id x) sample /\ unmentioned (c_id x') sample.
Proof.
  do 3 eexists. split; [eexists; vm_compute; reflexivity|]. do 6 (split; [vm_compute; reflexivity|]).
  split; apply mentions_dec; vm_compute; reflexivity.
Qed.

(** ** C83 *)

(** The text of a sheet is that of its items, one after the other. *)
Theorem sheets_compose : forall class a b,
  to_style_str class (a ++ b) = to_style_str class a ++ to_style_str class b.
Proof.
  intros class a b. rewrite (to_style_str_items class (a ++ b)), (to_style_str_items class a), (to_style_str_items class b).
  apply flat_map_app.
Qed.
Print Assumptions sheets_compose.

(** So what is put before, behind or between leaves the text of the others as it was, and it can be found there. *)
Theorem items_independent : forall class a x b, exists u v,
  to_style_str class (a ++ x :: b) = u ++ to_style_str class [x] ++ v
  /\ u = to_style_str class a /\ v = to_style_str class b.
Proof.
  intros class a x b. do 2 eexists. split; [|split; reflexivity].
  now rewrite sheets_compose, (sheets_compose class [x] b : to_style_str class (x :: b) = _).
Qed.
Print Assumptions items_independent.
Example sheets_compose_ex :
  to_style_str (Some (lit "s")) (firstn 1 sample) <> [] /\ to_style_str (Some (lit "s")) (skipn 1 sample) <> [].
Proof. vm_compute. split; discriminate. Qed.
