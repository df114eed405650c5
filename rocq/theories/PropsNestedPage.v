(** * PropsNestedPage: what a page says for a style is what its selectors say of [&] (C99). *)

From Coq Require Import String Ascii List NArith Bool Arith Lia.
From Verif Require Import Str StrFacts Ast Render CssParser SheetCache Ids IdFacts Manager SpecManager
  ManagerFacts ManagerInv ManagerSteps ManagerCore ManagerProps Hydrate Hooks SpecHooks HookFacts HookOnly
  HookTame HookKeep PropsManager PropsHooks PropsCache SpecProgress PropsProgress Create SpecCreate CreateFacts PropsCreate
  SpecGrammar SpecReparse ParserComplete ReparseWritten PropsReparse PropsParser PropsRender
  SpecRender SpecPage PropsPage SpecGuard SpecConfine PropsGuard PropsConfine PropsConfinePage SpecNested PropsNested.
Import ListNotations.
Local Open Scope list_scope.

(** A style that is made in a browser, from a text, a sheet or a macro, and anything that is done
    afterwards but unregistering styles: the page has its element, with the declarations that were
    written, in order and in the same at-rules, and each applies to the elements that its selectors
    select if [&] are the elements with the class of the style.  As for C98, nothing is asked of how
    the document and the elements with classes are related. *)
Theorem created_style_says : forall y e page l p loc c p1 r s l' p2,
  prun y e (prog_start page) l = Some p -> ploaded l = [] -> user_call (p_app p) c = true ->
  call_handle c = None -> css_sheet (call_css c) = Some s ->
  closed_sheet s -> (e_debug e = true -> good_sheet s) ->
  forallb (fun c => in_blocks (rbc_of_scope c)) s = true ->
  (forall id, scope_of c id = Some id) -> plain_call c -> in_browser e page ->
  perform e loc c p = (p1, r) ->
  prun y e p1 l' = Some p2 -> existsb punregisters l' = false ->
  names_fresh e page (w_draws (a_world (p_app p1))) -> names_fresh e page (w_draws (a_world (p_app p2))) ->
  (forall i, In i (ploaded l') -> not_drawn (e_draw e) (w_draws (a_world (p_app p2))) i) ->
  exists x id text items,
    r = Created x /\ get_id (a_world (p_app p1)) x = Some id
    /\ texts_of id (w_dom (a_world (p_app p2))) = [text] /\ read_css text = Some items
    /\ Forall2 (fun i n => let '(rules, nsels, k, v) := n in
         exists sels, i = IDecl (map trim rules ++ [trim sels]) (trim k) (trim v)
           /\ forall pg f, css_page pg -> selects pg sels f <-> selects (amp_page id pg) nsels f)
         (decls items) (sheet_nested s).
Proof.
  intros y e page l p loc c p1 r s l' p2 H Ld U Hc Cs Cl Db Hb Sc Pc B P H2 NU F1 F2 Nl.
  destruct (made_text y e page l p loc c p1 r s s) as (x & id & -> & Gi & Bo & Pi & Tx); auto.
  rewrite (Sc id) in *.
  destruct (class_stays_valid y e page l p loc c p1 x id l' p2) as (text & G1 & T1); auto.
  destruct (class_stays_valid y e page l p loc c p1 x id [] p1) as (text' & G2 & T2); auto.
  { intros i []. }
  rewrite G1 in G2. injection G2 as <-. rewrite Tx in T2. injection T2 as <-.
  destruct (scoped_style_says id s Pi Cl Hb) as (items & I1 & I2).
  exists x, id, (to_style_str (Some id) s), items. auto 8.
Qed.
Print Assumptions created_style_says.

(** A style is made, and then another one. *)
Example created_style_says_ex :
  exists id text items,
    texts_of id (w_dom (a_world (p_app (fst (perform demo_env None more_css list_prog))))) = [text] /\ read_css text = Some items
    /\ sheet_nested list_sheet = [([], lit "&", lit "color", lit "red"); ([], lit "& p ~ a, &:hover", lit "top", lit "0");
                                  ([lit "@media print"], lit ".dark + .wide > &.on p + p", lit "left", lit "1px")]
    /\ Forall2 (fun i n => let '(rules, nsels, k, v) := n in
         exists sels, i = IDecl (map trim rules ++ [trim sels]) (trim k) (trim v)
           /\ forall pg f, css_page pg -> selects pg sels f <-> selects (amp_page id pg) nsels f)
         (decls items) (sheet_nested list_sheet).
Proof.
  destruct shop_runs as (R & L & _).
  assert (P1 : perform demo_env None list_css shop_prog = (list_prog, Created 2)) by (vm_compute; reflexivity).
  assert (D1 : (w_draws (a_world (p_app list_prog)) <=? 100) = true) by (vm_compute; reflexivity).
  assert (Cs : css_sheet (call_css list_css) = Some list_sheet) by (vm_compute; reflexivity).
  assert (U0 : user_call (p_app shop_prog) list_css = true) by (vm_compute; reflexivity).
  assert (U : user_call (p_app list_prog) more_css = true) by (vm_compute; reflexivity).
  assert (D : (w_draws (a_world (p_app (fst (perform demo_env None more_css list_prog)))) <=? 100) = true) by (vm_compute; reflexivity).
  assert (R2 : prun shop_yew demo_env list_prog [PCall None more_css] = Some (fst (perform demo_env None more_css list_prog))) by (vm_compute; reflexivity).
  destruct (perform demo_env None more_css list_prog) as [q r]. cbn [fst] in *. apply Nat.leb_le in D, D1.
  destruct (created_style_says shop_yew demo_env demo_page shop shop_prog None list_css list_prog (Created 2) list_sheet
    [PCall None more_css] q) as (x & id & text & items & _ & _ & T & I1 & I2); auto using browser_ex, names_fresh_ex.
  - let m := eval vm_compute in list_sheet in change list_sheet with m. solve_closed.
  - discriminate.
  - exact I.
  - intros i [].
  - exists id, text, items. split; [exact T|]. split; [exact I1|]. split; [vm_compute; reflexivity|exact I2].
Qed.
