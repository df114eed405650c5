(** * PropsClass: the class handed out is one class, and the CSS of the style selects it (C92).

    Selectors and [class] attributes are read as CSS and HTML say ([SpecClass.v]). *)

From Coq Require Import String Ascii List NArith Bool Arith Lia.
From Verif Require Import Str StrFacts Ast Render SpecRender CssParser Ids Manager ManagerFacts ManagerInv ManagerCore
  Hydrate Hooks HookFacts Create SpecCreate CreateFacts PropsManager PropsRender PropsCreate SpecClass ClassFacts.
Import ListNotations.
Local Open Scope list_scope.
Local Opaque parse to_style_str.

(** What [get_entropy] returns, with and without the feature [random]. *)
Definition generated (s : str) : Prop := rand_entropy s \/ exists n, s = counter_entropy n.

Definition scoped_call (c : call) : bool :=
  match c with GNew _ | GNewWith _ _ => false | _ => true end.

(** The class of a scoped style is the prefix asked for, a dash, and a generated suffix.  It is selected by
    the style's CSS exactly if the prefix is fit, and then it is one class in every [class] attribute. *)
Theorem class_is_selected_iff : forall y e page l p loc c p1 x,
  prun y e (prog_start page) l = Some p -> ploaded l = [] -> user_call (p_app p) c = true ->
  (forall n, generated (e_draw e n)) ->
  perform e loc c p = (p1, Created x) -> scoped_call c = true ->
  exists s mi m suffix id,
    css_sheet (call_css c) = Some s
    /\ call_manager_is p p1 c mi /\ nth_error (w_mgrs (a_world (p_app p1))) mi = Some m
    /\ get_id (a_world (p_app p1)) x = Some id
    /\ get_style_str (a_world (p_app p1)) x = Some (to_style_str (Some id) s)
    /\ id = k_prefix (wanted c m s) ++ lit "-" ++ suffix /\ generated suffix
    /\ (scalar (k_prefix (wanted c m s)) -> (selected id <-> fit_prefix (k_prefix (wanted c m s)) suffix))
    /\ (fit_prefix (k_prefix (wanted c m s)) suffix -> one_class id).
Proof.
  intros y e page l p loc c p1 x H Ld U Gen P Sc.
  destruct (created_as_asked y e page l p loc c p1 x H U P) as (s & mi & m & cid & d & C1 & C2 & C3 & _ & C5 & C6 & C7 & C8 & C9 & _ & C11).
  apply pgood_reached in H. rewrite Ld in H. pose proof H as (K & G & D).
  pose proof (created_default _ _ _ _ _ _ P) as N.
  destruct (perform_spec e page _ loc c p p1 _ K G U N P) as (_ & _ & G1 & _).
  pose proof (o_origin _ _ _ _ (good_core _ _ _ _ _ _ G1) _ _ C7) as Or. destruct (c_hydrated d) eqn:Hy; [contradiction|].
  destruct (C11 eq_refl) as (Tx & n & Ln & Id).
  assert (Kg : k_global (wanted c m s) = false) by (destruct c; (reflexivity || discriminate)).
  rewrite Kg in *. cbn [new_id] in Id.
  assert (Hx : handle_of (w_handles (a_world (p_app p1))) x = Some cid).
  { rewrite C5, C6. unfold handle_of. now rewrite nth_app_new. }
  exists s, mi, m, (e_draw e n), (c_id d). split; auto. split; auto. split; auto.
  split; [unfold get_id, handle_content; now rewrite Hx, C7|].
  split; [unfold get_style_str, handle_content; rewrite Hx, C7; cbn; now rewrite Tx|].
  split; [exact Id|]. split; [apply Gen|]. split.
  - intros S. rewrite Id. now apply scoped_selected_iff; [apply Gen|].
  - intros [F _]. rewrite Id. apply one_named.
    + unfold new_scoped. now destruct (k_prefix (wanted c m s)).
    + unfold new_scoped, named. destruct (suffix_named _ (Gen n)) as (Nm & _). rewrite !Forall_app. repeat split; auto. repeat constructor.
Qed.
Print Assumptions class_is_selected_iff.

(** The prefix of the default manager is fit. *)
Theorem default_class_is_selected : forall suffix, generated suffix ->
  selected (lit "stylist-" ++ suffix) /\ one_class (lit "stylist-" ++ suffix).
Proof.
  intros suffix G. assert (F : fit_prefix (lit "stylist") suffix) by (split; [repeat constructor|reflexivity]).
  split.
  - apply (scoped_selected_iff (lit "stylist")); auto. repeat constructor.
  - apply one_named; [discriminate|]. apply Forall_app. split; [repeat constructor|]. now apply suffix_named.
Qed.
Print Assumptions default_class_is_selected.

(** Other prefixes give classes that their own CSS does not select: a digit first, a dot or a blank in it. *)
Theorem class_is_selected_refuted :
  Forall (fun prefix => forall suffix, generated suffix -> ~ selected (prefix ++ lit "-" ++ suffix))
    [lit "1app"; lit "my.app"; lit "my app"; lit "app:x"].
Proof.
  repeat apply Forall_cons; try apply Forall_nil; intros suffix G H;
    (apply scoped_selected_iff in H; [|exact G|repeat constructor]); destruct H as [F X].
  - discriminate.
  - apply Forall_forall with (x := ch ".") in F; [discriminate|]. cbn. tauto.
  - apply Forall_forall with (x := ch " ") in F; [discriminate|]. cbn. tauto.
  - apply Forall_forall with (x := ch ":") in F; [discriminate|]. cbn. tauto.
Qed.
Print Assumptions class_is_selected_refuted.

(** In the text of the style: a selector without [&] and [:root] starts with the class selector, and
    the selector follows. *)
Theorem selector_starts_with_class : forall c sel,
  scalar c -> selected c -> plain_piece (List.concat sel) ->
  class_selector (write_selector (Some c) sel)
  = Some (c, preprocess ((if starts_with (lit ":") (List.concat sel) then [] else lit " ") ++ List.concat sel)).
Proof.
  intros c sel S H Pl. rewrite scoped_selector_plain by exact Pl. apply (class_read c ((if starts_with (lit ":") (List.concat sel) then [] else lit " ") ++ List.concat sel) S H).
  destruct (starts_with (lit ":") (List.concat sel)) eqn:E.
  - cbn [Datatypes.app]. destruct (List.concat sel) as [|d r]; [discriminate|].
    assert (D : d = 58%N).
    { change (N.eqb 58 d && true = true) in E. rewrite andb_true_r in E. now apply N.eqb_eq in E. }
    subst d. cbn. now split.
  - cbn. now split.
Qed.
Print Assumptions selector_starts_with_class.

(** Where [&] or [:root] stands before a text, the class selector is read exactly if that text
    does not go on with the name. *)
Theorem class_before_text_iff : forall c after,
  scalar c -> selected c ->
  class_selector (lit "." ++ c ++ after) = Some (c, preprocess after) <-> ends_name (preprocess after).
Proof. intros c after S H. apply (class_read c after S H). Qed.
Print Assumptions class_before_text_iff.

(** ** Cases *)

Example fit_prefixes :
  fit_prefix (lit "my-app_2") (lit "Ab12cd34") /\ fit_prefix [] (lit "style-7") /\ fit_prefix (lit "-") (lit "1b12cd34")
  /\ ~ fit_prefix [] (lit "1b12cd34") /\ generated (lit "1b12cd34") /\ generated (lit "style-7").
Proof.
  split; [split; [repeat constructor|reflexivity]|]. split; [split; [constructor|]; eexists _, _; split; reflexivity|].
  split; [split; [repeat constructor|exact I]|].
  split; [intros [_ (c & r & E & L)]; injection E as <- _; discriminate|].
  split; [left; split; reflexivity|right; exists 7; reflexivity].
Qed.

Example reads :
  class_selector (lit ".stylist-Ab1:hover b") = Some (lit "stylist-Ab1", lit ":hover b")
  /\ class_selector (lit ".my.app-Ab1") = Some (lit "my", lit ".app-Ab1")
  /\ class_selector (lit ".1app-Ab1") = None
  /\ class_selector (lit ".\31 app-Ab1") = Some (lit "1app-Ab1", [])
  /\ classes (lit " my  app-Ab1 btn") = [lit "my"; lit "app-Ab1"; lit "btn"].
Proof. repeat split. Qed.

(** [&] and [&foo] *)
Example marker_reads :
  class_selector (write_selector (Some (lit "stylist-Ab1")) [lit "&.on"]) = Some (lit "stylist-Ab1", lit ".on")
  /\ class_selector (write_selector (Some (lit "stylist-Ab1")) [lit "&foo"]) = Some (lit "stylist-Ab1foo", [])
  /\ ends_name (lit ".on") /\ ~ ends_name (lit "foo").
Proof. repeat split; try reflexivity. intros [H _]. discriminate. Qed.

(** In the shop of [PropsCreate.v], two more calls: one with a fit prefix and one without. *)
Example shop_classes :
  let asked prefix := SCreate prefix (CText (lit "color:green;")) in
  let made prefix := perform demo_env None (asked prefix) shop_prog in
  (forall n, generated (e_draw demo_env n))
  /\ user_call (p_app shop_prog) (asked (lit "menu")) = true /\ scoped_call (asked (lit "menu")) = true
  /\ snd (made (lit "menu")) = Created 2 /\ get_id (a_world (p_app (fst (made (lit "menu"))))) 2 = Some (lit "menu-style-2")
  /\ snd (made (lit "2nd")) = Created 2 /\ get_id (a_world (p_app (fst (made (lit "2nd"))))) 2 = Some (lit "2nd-style-2")
  /\ selected (lit "menu-style-2") /\ ~ selected (lit "2nd-style-2").
Proof.
  cbv zeta. split; [intros n; right; exists n; reflexivity|].
  repeat (split; [vm_compute; reflexivity|]). vm_compute. discriminate.
Qed.
