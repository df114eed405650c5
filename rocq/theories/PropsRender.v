(** * PropsRender: the properties of rendering (C01 - C08). *)

From Coq Require Import String Ascii List NArith Bool Arith Lia.
From Verif Require Import Str StrFacts Ast Render SpecRender RenderFacts RenderRead RenderLoop ScopeFacts.
Import ListNotations.
Local Open Scope list_scope.

(** A sheet exercising dangling declarations, nested at-rules, re-opening of a block,
    keyframes and selector lists. *)
Definition decl1 (k v : string) : rbc := CAttr (mk_attr (lit k) [lit v]).
Definition demo_sheet : sheet :=
  [ SBlock [] [decl1 "color" "red";
               CRule [lit "@media "; lit "print"] [decl1 "color" "black"; CRule [lit "@supports (a)"] [decl1 "a" "b"]];
               decl1 "margin" "0"];
    SBlock [[lit "&:hover"]; [lit "a"; lit "[b=""};""]"]] [decl1 "content" """a;{b"""];
    SRule [lit "@media x"] [CBlock [] [decl1 "c" "d"]; CBlock [[lit ":root"]] [decl1 "e" "f"]];
    SRule [lit "@keyframes k"] [CRule [lit "from"] [decl1 "width" "1px"]; CRule [lit "to"] [decl1 "width" "2px"]];
    SRule [lit "@keyframes empty"] [] ].
Ltac solve_closed :=
  unfold closed_sheet, brace_free_sheet;
  repeat first
    [ progress cbn [rbc_of_scope closed_rbc brace_free_rbc] | progress unfold closed_attr, closed, brace_free
    | exact I | apply Forall_nil | apply Forall_cons | apply conj
    | reflexivity | (let X := fresh in intros X; vm_compute in X; intuition discriminate) ].

Definition demo_class : str := lit "stylist-Ab1".

(** ** C01 *)
Theorem rendered_css_reads_back : forall class s,
  boring_class class -> closed_sheet s ->
  exists items,
    read_css (to_style_str class s) = Some items
    /\ decls items = map trim_item (sheet_decls class s).
Proof.
  intros class s H1 H2. destruct (read_to_style_str class s H1 H2) as (items & A & B & _). now exists items.
Qed.
Print Assumptions rendered_css_reads_back.

Example rendered_css_reads_back_ex :
  boring_class (Some demo_class) /\ closed_sheet demo_sheet
  /\ List.length (sheet_decls (Some demo_class) demo_sheet) = 9.
Proof.
  split; [reflexivity|]. split; [|reflexivity].
  solve_closed.
Qed.

(** ** C02 *)
Theorem rendered_css_balanced : forall class s,
  brace_free_class class -> brace_free_sheet s -> balanced (to_style_str class s).
Proof. exact balanced_to_style_str. Qed.
Print Assumptions rendered_css_balanced.

(** The literal loop closing the parents terminates, for every context. *)
Theorem close_loop_terminates : forall self ps,
  exists ps' w, close_loop (S (List.length ps)) self ps = Some (ps', w).
Proof.
  intros self ps. rewrite close_until_is_loop by auto with arith.
  destruct (close_until_common_parent self ps) as [ps' w]. now exists ps', w.
Qed.
Print Assumptions close_loop_terminates.

Example rendered_css_balanced_ex :
  brace_free_class (Some demo_class)
  /\ brace_free_sheet [SRule [lit "@media x"] [CBlock [[lit "a"]] [decl1 "c" "d"]]].
Proof.
  split; [now apply brace_free_lit|].
  solve_closed.
Qed.

(** ** C03 *)
Theorem rendered_css_layout : forall class s,
  exists lines items,
    to_style_str class s = layout 0 lines
    /\ run [] lines = Some ([], items)
    /\ decls items = sheet_decls class s.
Proof.
  intros class s. destruct (to_style_str_layout class s) as (ls & items & A & B & C & _). now exists ls, items.
Qed.
Print Assumptions rendered_css_layout.

(** ** C04 *)
Theorem silent_sheet_renders_empty : forall class s,
  silent_sheet s = true -> to_style_str class s = [].
Proof. exact silent_to_style_str. Qed.
Print Assumptions silent_sheet_renders_empty.

Example silent_sheet_ex :
  silent_sheet [SBlock [[lit "a"]] [CRule [lit "@media x"] []]; SRule [lit "@supports y"] [CBlock [] []]] = true.
Proof. reflexivity. Qed.

Theorem declarations_render_nonempty : forall class s,
  sheet_decls class s <> [] -> to_style_str class s <> [].
Proof. exact not_silent_nonempty. Qed.
Print Assumptions declarations_render_nonempty.

(** Every keyframes rule outside blocks (at any at-rule depth, empty or not) is entered. *)
Theorem keyframes_always_printed : forall class s,
  exists lines items,
    to_style_str class s = layout 0 lines
    /\ run [] lines = Some ([], items)
    /\ forall p, In p (sheet_keyframes s) -> In (IOpen p) items.
Proof.
  intros class s. destruct (to_style_str_layout class s) as (ls & items & A & B & _ & C). now exists ls, items.
Qed.
Print Assumptions keyframes_always_printed.

Theorem keyframes_always_printed_read : forall class s,
  boring_class class -> closed_sheet s ->
  exists items,
    read_css (to_style_str class s) = Some items
    /\ forall p, In p (sheet_keyframes s) -> In (IOpen (map trim p)) items.
Proof.
  intros class s H1 H2. destruct (read_to_style_str class s H1 H2) as (items & A & _ & B). now exists items.
Qed.
Print Assumptions keyframes_always_printed_read.

Example keyframes_always_printed_ex :
  sheet_keyframes demo_sheet
  = [[lit "@keyframes k"]; [lit "@keyframes empty"]].
Proof. reflexivity. Qed.

(** ** C05 *)
Theorem scoped_selector_markers : forall c pieces last sel,
  ~ In (ch ":") c -> pieces <> [] ->
  Forall (fun pm => plain_piece (fst pm) /\ marker (snd pm)) pieces -> plain_piece last ->
  List.concat sel = weave pieces last ->
  write_selector (Some c) sel = weave (map (fun pm => (fst pm, lit "." ++ c)) pieces) last.
Proof. exact scoped_markers. Qed.
Print Assumptions scoped_selector_markers.

Theorem scoped_selector_plain : forall c sel,
  plain_piece (List.concat sel) ->
  write_selector (Some c) sel =
  lit "." ++ c ++ (if starts_with (lit ":") (List.concat sel) then [] else lit " ") ++ List.concat sel.
Proof. exact scoped_plain. Qed.
Print Assumptions scoped_selector_plain.

(** The two cases cover every selector. *)
Theorem selectors_decompose : forall s,
  exists pieces last, s = weave pieces last
    /\ Forall (fun pm => plain_piece (fst pm) /\ marker (snd pm)) pieces /\ plain_piece last.
Proof. exact weave_exists. Qed.
Print Assumptions selectors_decompose.

Theorem scoped_selector_mentions_class : forall c sel,
  ~ In (ch ":") c -> sub_text (lit "." ++ c) (write_selector (Some c) sel).
Proof. exact scoped_mentions_class. Qed.
Print Assumptions scoped_selector_mentions_class.

(** No declaration of a scoped sheet escapes its class. *)
Theorem declarations_stay_scoped : forall c s,
  ~ In (ch ":") c -> forallb (fun d => in_blocks (rbc_of_scope d)) s = true ->
  Forall (fun i => exists p sel, item_path i = p ++ [sel] /\ sub_text (lit "." ++ c) sel)
         (sheet_decls (Some c) s).
Proof.
  intros c s Hc Hs. unfold sheet_decls. induction s as [|d s IH]; [constructor|].
  cbn in Hs. apply andb_true_iff in Hs as [H1 H2]. cbn [flat_map]. apply Forall_app. split; [|auto].
  apply decls_mention; auto. constructor.
Qed.
Print Assumptions declarations_stay_scoped.

Example scoped_selector_ex :
  write_selector (Some demo_class) [lit "a &"; lit ".x:root"] = lit "a .stylist-Ab1.x.stylist-Ab1"
  /\ lit "a &.x:root" = weave [(lit "a ", lit "&"); (lit ".x", lit ":root")] []
  /\ ~ In (ch ":") demo_class
  /\ forallb (fun d => in_blocks (rbc_of_scope d)) (firstn 3 demo_sheet) = true.
Proof. repeat split; try reflexivity. cbn. intuition discriminate. Qed.

(** ** C06 *)
Theorem global_selector_verbatim : forall sel,
  write_selector None sel = replace_char (ch "&") (lit ":root") (List.concat sel).
Proof. exact global_selector. Qed.
Print Assumptions global_selector_verbatim.

Theorem global_selector_no_amp : forall sel,
  ~ In (ch "&") (List.concat sel) -> write_selector None sel = List.concat sel.
Proof. intros sel H. rewrite global_selector. now apply replace_char_none. Qed.
Print Assumptions global_selector_no_amp.

(** ** C07 *)
(** Quoted text without [&] and [:root] is kept. *)
Theorem quoted_text_kept_partial : forall class a body b sel,
  ~ In (ch "&") body -> ~ sub_text (lit ":root") body ->
  List.concat sel = a ++ quoted body ++ b ->
  sub_text (quoted body) (write_selector class sel).
Proof. intros. eapply quoted_text_kept; eauto. Qed.
Print Assumptions quoted_text_kept_partial.

(** In general quoted text is not preserved: [a[href="?x=1&y=2"]]. *)
Theorem quoted_text_kept_refuted :
  exists class body sel,
    sel = [lit "a[href=" ++ quoted body ++ lit "]"]
    /\ ~ sub_text (quoted body) (write_selector (Some class) sel).
Proof.
  exists demo_class, (lit "?x=1&y=2"), [lit "a[href=" ++ quoted (lit "?x=1&y=2") ++ lit "]"].
  split; [reflexivity|]. intros H. apply sub_text_contains in H. vm_compute in H. discriminate.
Qed.
Print Assumptions quoted_text_kept_refuted.

(** ** C08 *)
(** Dangling declarations under any at-rules are read under these at-rules and the class. *)
Theorem dangling_declarations_apply_to_class : forall class conds attrs,
  boring_class class ->
  Forall (fun c => closed (List.concat c)) conds -> Forall closed_attr attrs ->
  exists items,
    read_css (to_style_str class
      (match conds with
       | [] => [SBlock [] (map CAttr attrs)]
       | c :: cs => [SRule c [wrap_rules cs (CBlock [] (map CAttr attrs))]]
       end)) = Some items
    /\ decls items =
       map (fun a => IDecl (map trim (map (@List.concat _) conds ++ [self_selector class]))
                           (trim (a_key a)) (trim (List.concat (a_value a)))) attrs.
Proof.
  intros class conds attrs Hb Hc Ha.
  assert (HB : closed_rbc (CBlock [] (map CAttr attrs))).
  { split; [constructor|]. apply all_Forall. apply Forall_map. exact Ha. }
  assert (HW : forall cs, Forall (fun c => closed (List.concat c)) cs ->
                closed_rbc (wrap_rules cs (CBlock [] (map CAttr attrs)))).
  { induction cs as [|c cs IH]; intros H; [exact HB|]. inversion_clear H. split; [easy|]. split; [|exact I]. auto. }
  assert (D : forall rules, decls_of class rules None (CBlock [] (map CAttr attrs)) =
                map (fun a => IDecl (rules ++ [self_selector class]) (a_key a) (List.concat (a_value a))) attrs).
  { intros rules. cbn. clear. induction attrs; cbn; [easy|]. now rewrite IHattrs. }
  destruct conds as [|c cs].
  - edestruct rendered_css_reads_back with (s := [SBlock [] (map CAttr attrs)]) as (items & H1 & H2);
      [exact Hb|constructor; [exact HB|constructor]|].
    exists items. split; [exact H1|]. rewrite H2. unfold sheet_decls. cbn [flat_map rbc_of_scope].
    rewrite app_nil_r, D, map_map. reflexivity.
  - inversion_clear Hc as [|? ? C1 C2].
    edestruct rendered_css_reads_back with (s := [SRule c [wrap_rules cs (CBlock [] (map CAttr attrs))]])
      as (items & H1 & H2); [exact Hb| |].
    { constructor; [|constructor]. split; [exact C1|]. split; [|exact I]. now apply HW. }
    exists items. split; [exact H1|]. rewrite H2. unfold sheet_decls. cbn [flat_map rbc_of_scope].
    rewrite app_nil_r. cbn [decls_of flat_map]. rewrite app_nil_r, decls_wrap, D, map_map. reflexivity.
Qed.
Print Assumptions dangling_declarations_apply_to_class.
