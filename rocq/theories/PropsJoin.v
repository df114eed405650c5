(** * PropsJoin: CSS texts put after each other (C84). *)

From Coq Require Import String Ascii List NArith Bool Arith Lia.
From Verif Require Import Str Ast CssParser Render SpecRender SpecSays SpecGrammar SpecJoin ParserSound ParserComplete JoinFacts ComposeFacts
  PropsRename PropsParser.
Import ListNotations.
Local Open Scope list_scope.

(** The text of one sheet followed by that of another says the one and then the other. *)
Theorem texts_join : forall t1 a t2 b s,
  writes_sheet t1 a -> writes_sheet t2 b -> joins a b s -> parse (t1 ++ t2) = Parsed s.
Proof. intros t1 a t2 b s H1 H2 J. apply parse_complete. exact (joined_text _ _ _ _ _ H1 H2 J). Qed.
Print Assumptions texts_join.

(** What the joined sheet applies: the declarations of the one and then those of the other, each where it was. *)
Lemma joins_decls class a b s : joins a b s -> sheet_decls class s = sheet_decls class a ++ sheet_decls class b.
Proof.
  intros J. unfold sheet_decls.
  destruct J; rewrite ?flat_map_app; cbn [flat_map]; rewrite ?app_nil_r, <- ?app_assoc; try reflexivity.
  f_equal. rewrite app_assoc. f_equal. cbn [rbc_of_scope decls_of]. apply flat_map_app.
Qed.

(** The joined sheet begins with a block whose first selector starts like a declaration. *)
Definition clashes (b : sheet) : Prop :=
  exists sel l content b', b = SBlock ([sel] :: l) content :: b' /\ starts_like_decl sel.

Lemma ends_bare_dec a : ends_bare a \/ ~ ends_bare a.
Proof.
  destruct a as [|x a _] using rev_ind.
  - right. intros (a' & x & E & _). now destruct a'.
  - destruct x as [[|sel sels] l|cond l].
    + left. exists a, (SBlock [] l). split; [reflexivity|]. now exists l.
    + right. intros (a' & x & E & l' & ->). apply app_inj_tail in E. destruct E. discriminate.
    + right. intros (a' & x & E & l' & ->). apply app_inj_tail in E. destruct E. discriminate.
Qed.

Lemma joins_unless a b : ~ (ends_bare a /\ clashes b) -> exists s, joins a b s.
Proof.
  intros N. destruct (ends_bare_dec a) as [E|E]; [|eexists; now apply joins_closed].
  destruct b as [|x b]; [eexists; apply joins_nil|].
  assert (C : ~ clashes (x :: b)) by tauto.
  destruct x as [[|sel sels] l|cond l].
  - destruct E as (a' & y & -> & l' & ->). eexists. apply joins_group.
  - eexists. apply joins_apart. intros s -> D. apply C. now exists s, sels, l, b.
  - eexists. now apply joins_apart.
Qed.

(** So any two texts can be put after each other, but for declarations outside braces before a selector
    that starts like a declaration. *)
Theorem texts_join_unless : forall class t1 a t2 b,
  writes_sheet t1 a -> writes_sheet t2 b -> ~ (ends_bare a /\ clashes b) ->
  exists s, joins a b s /\ parse (t1 ++ t2) = Parsed s
            /\ sheet_decls class s = sheet_decls class a ++ sheet_decls class b.
Proof.
  intros class t1 a t2 b H1 H2 N. destruct (joins_unless a b N) as (s & J). exists s.
  split; [exact J|]. split; [exact (texts_join _ _ _ _ _ H1 H2 J)|now apply joins_decls].
Qed.
Print Assumptions texts_join_unless.

(** After a text that does not end with declarations outside braces, what follows changes nothing: the
    style of both is that of the one and then that of the other. *)
Theorem closed_texts_join : forall class t1 a t2 b,
  writes_sheet t1 a -> writes_sheet t2 b -> ~ ends_bare a ->
  exists s, parse (t1 ++ t2) = Parsed s /\ s = a ++ b
            /\ to_style_str class s = to_style_str class a ++ to_style_str class b.
Proof.
  intros class t1 a t2 b H1 H2 N. exists (a ++ b). split; [|split; [reflexivity|apply sheets_compose]].
  exact (texts_join _ _ _ _ _ H1 H2 (joins_closed a b N)).
Qed.
Print Assumptions closed_texts_join.

(** ** Concrete texts *)
Lemma red_written : writes_sheet (lit "color: red; ") [SBlock [] [CAttr (mk_attr (lit "color") [lit "red"])]].
Proof.
  exists [], (lit "color: red; " ++ []). split; [reflexivity|]. split; [constructor|].
  apply (wsc_dangling _ [mk_attr (lit "color") [lit "red"]]); [|constructor].
  exact (proj1 declaration_before_block_iff_ex).
Qed.
Lemma block_written sel body content : sel_text sel -> tight sel -> writes_content body content ->
  writes_sheet (sel ++ lit "{" ++ body ++ lit "}") [SBlock [[sel]] content].
Proof.
  intros S T C. exists [], (([] ++ sel ++ []) ++ lit "{" ++ [] ++ body ++ lit "}" ++ [] ++ []). rewrite !app_nil_r.
  split; [reflexivity|]. split; [constructor|]. apply wsc_block with (w := []) (w' := []) (c := []); auto; try (constructor; fail).
  - pose proof (wsel_one [] sel [] blank_nil S T (Forall_nil _)) as H. rewrite app_nil_r in H. exact H.
  - discriminate.
Qed.
Lemma hover_written : writes_sheet (lit "a:hover{}") [SBlock [[lit "a:hover"]] []].
Proof. apply (block_written (lit "a:hover") [] []); [plain_sel|split; [discriminate|reflexivity]|constructor]. Qed.

Example texts_join_ex :
  parse (lit "a:hover{}" ++ lit "color: red; ")
  = Parsed [SBlock [[lit "a:hover"]] []; SBlock [] [CAttr (mk_attr (lit "color") [lit "red"])]]
  /\ parse (lit "color: red; " ++ lit "color: red; ")
     = Parsed [SBlock [] [CAttr (mk_attr (lit "color") [lit "red"]); CAttr (mk_attr (lit "color") [lit "red"])]].
Proof.
  split.
  - apply (texts_join _ _ _ _ _ hover_written red_written). apply joins_closed.
    intros (a & x & E & l & ->). destruct a as [|y [|? a]]; discriminate E.
  - exact (texts_join _ _ _ _ _ red_written red_written (joins_group [] _ _ [])).
Qed.

(** The excluded case: the declaration is taken into the selector. *)
Example texts_join_clash : exists a b,
  writes_sheet (lit "color: red; ") a /\ writes_sheet (lit "a:hover{}") b /\ ends_bare a /\ clashes b
  /\ parse (lit "color: red; " ++ lit "a:hover{}") = Parsed [SBlock [[lit "color: red; a:hover"]] []].
Proof.
  eexists _, _. split; [exact red_written|]. split; [exact hover_written|]. split; [|split].
  - exists [], (SBlock [] [CAttr (mk_attr (lit "color") [lit "red"])]). split; [reflexivity|]. now eexists.
  - exists (lit "a:hover"), [], [], []. split; [reflexivity|]. exact (proj1 (proj2 declaration_before_block_iff_ex)).
  - vm_compute. reflexivity.
Qed.
