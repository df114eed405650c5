(** * PropsAnimation: whose frames an animation has (C96). *)

From Coq Require Import String Ascii List NArith Bool Arith Lia.
From Verif Require Import Str StrFacts Ast Render CssParser SheetCache Ids IdFacts Manager SpecManager
  ManagerFacts ManagerInv ManagerSteps ManagerCore ManagerProps Hydrate Hooks SpecHooks HookFacts HookOnly
  HookTame HookKeep PropsManager PropsHooks PropsCache SpecProgress PropsProgress Create SpecCreate CreateFacts PropsCreate
  SpecGrammar SpecReparse ParserComplete ReparseWritten PropsReparse PropsParser PropsRender
  SpecRender SpecPage SpecAnimation RenderFrames PropsPage.
Import ListNotations.
Local Open Scope list_scope.

(** ** One rule, with all of its frames *)

(** Whatever else is in a sheet, a [@keyframes] rule is written as one rule with all of its frames: a
    reader of the rendered text that knows that the last rule of a name counts, and only that one,
    finds the frames of the last rule of this name in the sheet. *)
Theorem animation_is_rendered_whole : forall class s,
  boring_class class -> closed_sheet s -> keyframes_outside s ->
  exists items,
    read_css (to_style_str class s) = Some items
    /\ decls items = map trim_item (sheet_decls class s)
    /\ forall n, frames n items = sheet_frames class n s.
Proof. exact read_frames. Qed.
Print Assumptions animation_is_rendered_whole.

Definition moving : sheet :=
  match parse (lit "color: red; @keyframes move { from { top: 0; } 50% { top: 9px; } to { top: 1px; left: 0; } } a { @media print { top: 0; } } @keyframes fade { from { opacity: 0; } } @keyframes move { to { top: 2px; } 60% { top: 7px; } }") with
  | Parsed s => s | _ => [] end.
Example animation_is_rendered_whole_ex :
  boring_class (Some (lit "x")) /\ closed_sheet moving /\ keyframes_outside moving
  /\ List.length moving = 5
  /\ sheet_frames (Some (lit "x")) (lit "move") moving
     = Some [IDecl [lit "@keyframes move"; lit "to"] (lit "top") (lit "2px");
             IDecl [lit "@keyframes move"; lit "60%"] (lit "top") (lit "7px")]
  /\ sheet_frames (Some (lit "x")) (lit "fade") moving
     = Some [IDecl [lit "@keyframes fade"; lit "from"] (lit "opacity") (lit "0")]
  /\ sheet_frames (Some (lit "x")) (lit "print") moving = None.
Proof.
  split; [reflexivity|]. split.
  { let m := eval vm_compute in moving in change moving with m. solve_closed. }
  split.
  { let m := eval vm_compute in moving in change moving with m. repeat constructor; vm_compute; discriminate. }
  vm_compute. auto 10.
Qed.

(** ** The counterexample *)

(** Two components, each with its own [fade].  The element of the first one fades in, until the
    style of the second one is created. *)
Definition fade_in : call := SNew (CText (lit "animation: fade 1s; @keyframes fade { from { opacity: 0; } }")).
Definition fade_out : call := SNew (CText (lit "animation: fade 2s; @keyframes fade { to { opacity: 0; } }")).
Definition fade_prog1 := fst (perform demo_env None fade_in shop_prog).
Definition fade_prog2 := fst (perform demo_env None fade_out fade_prog1).
Definition page_animation (n : str) (p : prog) := animation n (style_texts (w_dom (a_world (p_app p)))).

Theorem animation_is_own_refuted :
  exists l p1 p2 x x' id id',
    prun shop_yew demo_env (prog_start demo_page) l = Some p2
    /\ perform demo_env None fade_in shop_prog = (p1, Created x) /\ perform demo_env None fade_out p1 = (p2, Created x')
    /\ get_id (a_world (p_app p2)) x = Some id /\ get_id (a_world (p_app p2)) x' = Some id' /\ id <> id'
    /\ page_says (a_world (p_app p2)) id
         [IDecl [lit "." ++ id] (lit "animation") (lit "fade 1s");
          IDecl [lit "@keyframes fade"; lit "from"] (lit "opacity") (lit "0")]
    /\ page_animation (lit "fade") p1 = Some [IDecl [lit "@keyframes fade"; lit "from"] (lit "opacity") (lit "0")]
    /\ page_animation (lit "fade") p2 = Some [IDecl [lit "@keyframes fade"; lit "to"] (lit "opacity") (lit "0")].
Proof.
  exists (shop ++ [PCall None fade_in; PCall None fade_out]), fade_prog1, fade_prog2, 2, 3, (lit "stylist-style-2"), (lit "stylist-style-3").
  assert (R : prun shop_yew demo_env (prog_start demo_page) (shop ++ [PCall None fade_in; PCall None fade_out]) = Some fade_prog2) by (vm_compute; reflexivity).
  assert (P1 : perform demo_env None fade_in shop_prog = (fade_prog1, Created 2)) by (vm_compute; reflexivity).
  assert (P2 : perform demo_env None fade_out fade_prog1 = (fade_prog2, Created 3)) by (vm_compute; reflexivity).
  split; [exact R|]. split; [exact P1|]. split; [exact P2|].
  split; [vm_compute; reflexivity|]. split; [vm_compute; reflexivity|]. split; [vm_compute; discriminate|].
  split; [|split; vm_compute; reflexivity].
  eexists _, _. split; [vm_compute; reflexivity|]. split; vm_compute; reflexivity.
Qed.
Print Assumptions animation_is_own_refuted.

(** ** What is left of it *)

Lemma animation_app n a b : animation n (a ++ b) = match animation n b with Some f => Some f | None => animation n a end.
Proof.
  induction a as [|t a IH]; cbn [List.app animation].
  - now destruct (animation n b).
  - rewrite IH. now destruct (animation n b).
Qed.

Lemma texts_in_style id t l : In t (texts_in id l) ->
  In t (flat_map (fun x => match x with EStyle _ t => [t] | EOther => [] end) l).
Proof.
  unfold texts_in. rewrite !in_flat_map. intros ([i u|] & I1 & I2); [|easy]. destruct (str_eqb i id); [|easy].
  destruct I2 as [<-|[]]. exists (EStyle i u). split; [auto|now left].
Qed.
Lemma texts_of_style id t d : In t (texts_of id d) -> In t (style_texts d).
Proof.
  unfold texts_of, style_texts. rewrite !in_flat_map. intros (c & I1 & I2). exists c. split; auto.
  destruct (n_in_document c); [|easy]. eapply texts_in_style; eauto.
Qed.

(** A style made by [Style::new], [Style::create] or a macro, at any later time: the
    page has its element, the element says what is written about each animation, and the page says
    the same if and only if no later style element says something else about an animation of this
    name. *)
Theorem animation_is_own_partial : forall y e page l p loc c p1 r s l' p2,
  prun y e (prog_start page) l = Some p -> ploaded l = [] -> user_call (p_app p) c = true ->
  call_handle c = None -> css_sheet (call_css c) = Some s ->
  closed_sheet s -> keyframes_outside s -> (e_debug e = true -> good_sheet s) ->
  (forall id, scope_of c id = Some id) -> plain_call c -> in_browser e page ->
  perform e loc c p = (p1, r) ->
  prun y e p1 l' = Some p2 -> existsb punregisters l' = false ->
  names_fresh e page (w_draws (a_world (p_app p1))) -> names_fresh e page (w_draws (a_world (p_app p2))) ->
  (forall i, In i (ploaded l') -> not_drawn (e_draw e) (w_draws (a_world (p_app p2))) i) ->
  exists x id text before after,
    r = Created x /\ get_id (a_world (p_app p1)) x = Some id
    /\ texts_of id (w_dom (a_world (p_app p2))) = [text]
    /\ style_texts (w_dom (a_world (p_app p2))) = before ++ text :: after
    /\ forall n f, sheet_frames (Some id) n s = Some f ->
         text_frames n text = Some f
         /\ (animation n (style_texts (w_dom (a_world (p_app p2)))) = Some f
             <-> forall f', animation n after = Some f' -> f' = f).
Proof.
  intros y e page l p loc c p1 r s l' p2 H Ld U Hc Cs Cl Ko Db Sc Pc B P H2 NU F1 F2 Nl.
  destruct (made_text y e page l p loc c p1 r s s) as (x & id & -> & Gi & Bo & _ & Tx); auto.
  rewrite (Sc id) in *.
  destruct (class_stays_valid y e page l p loc c p1 x id l' p2) as (text & G1 & T1); auto.
  destruct (class_stays_valid y e page l p loc c p1 x id [] p1) as (text' & G2 & T2); auto.
  { intros i []. }
  rewrite G1 in G2. injection G2 as <-. rewrite Tx in T2. injection T2 as <-.
  destruct (in_split (to_style_str (Some id) s) (style_texts (w_dom (a_world (p_app p2))))) as (a & b & E).
  { apply texts_of_style with (id := id). rewrite T1. now left. }
  exists x, id, (to_style_str (Some id) s), a, b. split; auto. split; auto. split; auto. split; auto.
  intros n f Hf. destruct (read_frames (Some id) s Bo Cl Ko) as (items & I1 & _ & I3).
  assert (Tf : text_frames n (to_style_str (Some id) s) = Some f) by (unfold text_frames; rewrite I1, I3; auto).
  split; [exact Tf|]. rewrite E, animation_app. cbn [animation]. rewrite Tf.
  destruct (animation n b) as [g|].
  - split; [intros [= ->] f' [= <-]; reflexivity|]. intros X. f_equal. now apply X.
  - split; [discriminate|reflexivity].
Qed.
Print Assumptions animation_is_own_partial.

(** The first style of the counterexample, when a style with an animation of another name is made
    after it, and when the second style of the counterexample is made. *)
Definition slide : call := SNew (CText (lit "animation: slide 2s; @keyframes slide { to { top: 0; } }")).
Definition fade_sheet : sheet :=
  match css_sheet (call_css fade_in) with Some s => s | None => [] end.
Definition fade_frames : list item := [IDecl [lit "@keyframes fade"; lit "from"] (lit "opacity") (lit "0")].
Lemma fade_own l' p2 :
  prun shop_yew demo_env fade_prog1 l' = Some p2 -> existsb punregisters l' = false -> ploaded l' = [] ->
  w_draws (a_world (p_app p2)) <= 100 ->
  exists text before after,
    style_texts (w_dom (a_world (p_app p2))) = before ++ text :: after
    /\ text_frames (lit "fade") text = Some fade_frames
    /\ (page_animation (lit "fade") p2 = Some fade_frames <-> forall f', animation (lit "fade") after = Some f' -> f' = fade_frames).
Proof.
  intros R2 NU L2 D2. destruct shop_runs as (R & L & _).
  assert (P1 : perform demo_env None fade_in shop_prog = (fade_prog1, Created 2)) by (vm_compute; reflexivity).
  assert (D1 : w_draws (a_world (p_app fade_prog1)) <= 100) by (vm_compute; repeat constructor).
  assert (Cs : css_sheet (call_css fade_in) = Some fade_sheet) by (vm_compute; reflexivity).
  destruct (animation_is_own_partial shop_yew demo_env demo_page shop shop_prog None fade_in fade_prog1 (Created 2) fade_sheet l' p2)
    as (x & id & text & a & b & _ & _ & _ & E & X); auto using browser_ex, names_fresh_ex.
  - let m := eval vm_compute in fade_sheet in change fade_sheet with m. solve_closed.
  - let m := eval vm_compute in fade_sheet in change fade_sheet with m. repeat constructor; vm_compute; discriminate.
  - discriminate.
  - exact I.
  - rewrite L2. intros i [].
  - exists text, a, b. split; auto. apply X. vm_compute. reflexivity.
Qed.
Example animation_is_own_ex :
  (exists text before after,
     style_texts (w_dom (a_world (p_app (fst (perform demo_env None slide fade_prog1))))) = before ++ text :: after
     /\ text_frames (lit "fade") text = Some fade_frames)
  /\ page_animation (lit "fade") (fst (perform demo_env None slide fade_prog1)) = Some fade_frames
  /\ page_animation (lit "fade") fade_prog2 <> Some fade_frames.
Proof.
  assert (A : page_animation (lit "fade") (fst (perform demo_env None slide fade_prog1)) = Some fade_frames) by (vm_compute; reflexivity).
  assert (B : page_animation (lit "fade") fade_prog2 <> Some fade_frames) by (vm_compute; discriminate).
  split; [|split; [exact A|exact B]]. clear A B.
  assert (U : user_call (p_app fade_prog1) slide = true) by (vm_compute; reflexivity).
  assert (D : (w_draws (a_world (p_app (fst (perform demo_env None slide fade_prog1)))) <=? 100) = true) by (vm_compute; reflexivity).
  assert (R : prun shop_yew demo_env fade_prog1 [PCall None slide] = Some (fst (perform demo_env None slide fade_prog1))) by (vm_compute; reflexivity).
  destruct (perform demo_env None slide fade_prog1) as [q r]. cbn [fst] in *. apply Nat.leb_le in D.
  destruct (fade_own [PCall None slide] q R eq_refl eq_refl D) as (t & a & b & E & F & _).
  exists t, a, b. split; [exact E|exact F].
Qed.
