(** * PropsConfinePage: what a page says for a style stays inside of its element (C98). *)

From Coq Require Import String Ascii List NArith Bool Arith Lia.
From Verif Require Import Str StrFacts Ast Render CssParser SheetCache Ids IdFacts Manager SpecManager
  ManagerFacts ManagerInv ManagerSteps ManagerCore ManagerProps Hydrate Hooks SpecHooks HookFacts HookOnly
  HookTame HookKeep PropsManager PropsHooks PropsCache SpecProgress PropsProgress Create SpecCreate CreateFacts PropsCreate
  SpecGrammar SpecReparse ParserComplete ReparseWritten PropsReparse PropsParser PropsRender
  SpecRender SpecPage PropsPage SpecGuard SpecConfine PropsGuard PropsConfine.
Import ListNotations.
Local Open Scope list_scope.

(** A style that is made in a browser, from a text, a sheet or a macro, and anything that is done
    afterwards but unregistering styles: the page has its element, with all of its declarations, and
    they apply to elements with its class and to what is inside of them only, whatever page it is.
    The page is a document here and a tree of elements with classes there; nothing is asked of how
    they are related. *)
Theorem created_style_stays_inside_partial : forall y e page l p loc c p1 r s l' p2,
  prun y e (prog_start page) l = Some p -> ploaded l = [] -> user_call (p_app p) c = true ->
  call_handle c = None -> css_sheet (call_css c) = Some s ->
  closed_sheet s -> (e_debug e = true -> good_sheet s) ->
  forallb (fun c => in_blocks (rbc_of_scope c)) s = true ->
  Forall (fun c => all_selectors (fun t => single t /\ (unmarked_inside t \/ marked_inside t)) (rbc_of_scope c)) s ->
  (forall id, scope_of c id = Some id) -> plain_call c -> in_browser e page ->
  perform e loc c p = (p1, r) ->
  prun y e p1 l' = Some p2 -> existsb punregisters l' = false ->
  names_fresh e page (w_draws (a_world (p_app p1))) -> names_fresh e page (w_draws (a_world (p_app p2))) ->
  (forall i, In i (ploaded l') -> not_drawn (e_draw e) (w_draws (a_world (p_app p2))) i) ->
  exists x id text items,
    r = Created x /\ get_id (a_world (p_app p1)) x = Some id
    /\ texts_of id (w_dom (a_world (p_app p2))) = [text] /\ read_css text = Some items
    /\ List.length (decls items) = List.length (sheet_decls (Some id) s)
    /\ Forall (fun i => exists q sels, item_path i = q ++ [trim sels] /\ selects_inside id sels) (decls items).
Proof.
  intros y e page l p loc c p1 r s l' p2 H Ld U Hc Cs Cl Db Hb Hs Sc Pc B P H2 NU F1 F2 Nl.
  destruct (made_text y e page l p loc c p1 r s s) as (x & id & -> & Gi & Bo & Pi & Tx); auto.
  rewrite (Sc id) in *.
  destruct (class_stays_valid y e page l p loc c p1 x id l' p2) as (text & G1 & T1); auto.
  destruct (class_stays_valid y e page l p loc c p1 x id [] p1) as (text' & G2 & T2); auto.
  { intros i []. }
  rewrite G1 in G2. injection G2 as <-. rewrite Tx in T2. injection T2 as <-.
  destruct (scoped_style_stays_inside_partial id s Pi Cl Hb Hs) as (items & I1 & I2 & I3).
  exists x, id, (to_style_str (Some id) s), items. auto 8.
Qed.
Print Assumptions created_style_stays_inside_partial.

(** A style is made, and then another one. *)
Definition list_css : call := SNew (CText (lit "color: red; p ~ a, &:hover { top: 0; } @media print { .dark + .wide > &.on p + p { left: 1px; } }")).
Definition more_css : call := SNew (CText (lit "p { top: 9px; }")).
Definition list_sheet : sheet := match css_sheet (call_css list_css) with Some s => s | None => [] end.
Definition list_prog := fst (perform demo_env None list_css shop_prog).
Example created_style_stays_inside_ex :
  exists id text items,
    texts_of id (w_dom (a_world (p_app (fst (perform demo_env None more_css list_prog))))) = [text] /\ read_css text = Some items
    /\ List.length (decls items) = 3
    /\ Forall (fun i => exists q sels, item_path i = q ++ [trim sels] /\ selects_inside id sels) (decls items).
Proof.
  destruct shop_runs as (R & L & _).
  assert (P1 : perform demo_env None list_css shop_prog = (list_prog, Created 2)) by (vm_compute; reflexivity).
  assert (D1 : (w_draws (a_world (p_app list_prog)) <=? 100) = true) by (vm_compute; reflexivity).
  assert (Cs : css_sheet (call_css list_css) = Some list_sheet) by (vm_compute; reflexivity).
  assert (U0 : user_call (p_app shop_prog) list_css = true) by (vm_compute; reflexivity).
  assert (U : user_call (p_app list_prog) more_css = true) by (vm_compute; reflexivity).
  assert (D : (w_draws (a_world (p_app (fst (perform demo_env None more_css list_prog)))) <=? 100) = true) by (vm_compute; reflexivity).
  assert (R2 : prun shop_yew demo_env list_prog [PCall None more_css] = Some (fst (perform demo_env None more_css list_prog))) by (vm_compute; reflexivity).
  destruct (perform demo_env None more_css list_prog) as [q r]. cbn [fst] in *. apply Nat.leb_le in D, D1.
  assert (G : forall s, mem (ch "+") (first_comb top s) = false -> mem (ch "~") (first_comb top s) = false -> goes_inside s).
  { intros s H1 H2. split; now apply mem_false. }
  assert (Un : forall s, contains_char (ch "&") s = false -> contains_str (lit ":root") s = false -> unmarked s).
  { intros s H1 H2 (a & m & b & -> & [-> | ->]).
    - assert (X : contains_char (ch "&") (a ++ lit "&" ++ b) = true); [|congruence].
      apply contains_char_spec. apply in_or_app. right. now left.
    - assert (X : contains_str (lit ":root") (a ++ lit ":root" ++ b) = true); [|congruence]. apply contains_str_spec. now exists a, b. }
  destruct (created_style_stays_inside_partial shop_yew demo_env demo_page shop shop_prog None list_css list_prog (Created 2) list_sheet
    [PCall None more_css] q) as (x & id & text & items & _ & _ & T & I1 & I2 & I3); auto using browser_ex, names_fresh_ex.
  - let m := eval vm_compute in list_sheet in change list_sheet with m. solve_closed.
  - discriminate.
  - assert (E : list_sheet = [SBlock [] [CAttr (mk_attr (lit "color") [lit "red"])];
      SBlock [[lit "p ~ a"]; [lit "&:hover"]] [CAttr (mk_attr (lit "top") [lit "0"])];
      SRule [lit "@media "; lit "print"] [CBlock [[lit ".dark + .wide > &.on p + p"]] [CAttr (mk_attr (lit "left") [lit "1px"])]]])
      by (vm_compute; reflexivity).
    rewrite E. constructor; [|constructor; [|constructor; [|constructor]]]; cbn [rbc_of_scope all_selectors].
    + split; [constructor|auto].
    + split; [|auto]. constructor; [|constructor; [|constructor]]; (split; [split; vm_compute; reflexivity|]); [left|right].
      * split; [apply Un; vm_compute; reflexivity|apply G; vm_compute; reflexivity].
      * exists [], (lit "&"), (lit ":hover"). split; [reflexivity|]. split; [now left|]. split; [reflexivity|].
        split; [repeat split; discriminate|]. apply G; vm_compute; reflexivity.
    + split; [|exact I]. split; [|auto]. constructor; [|constructor]. split; [split; vm_compute; reflexivity|]. right.
      exists (lit ".dark + .wide > "), (lit "&"), (lit ".on p + p"). split; [reflexivity|]. split; [now left|]. split; [vm_compute; reflexivity|].
      split; [repeat split; discriminate|]. apply G; vm_compute; reflexivity.
  - exact I.
  - intros i [].
  - exists id, text, items. split; [exact T|]. split; [exact I1|]. split; [|exact I3]. rewrite I2. vm_compute. reflexivity.
Qed.
