(** * PropsReparse: generated CSS is readable by the library itself (C13). *)

From Coq Require Import String Ascii List NArith Bool.
From Verif Require Import Str Ast Render CssParser SpecRender SpecSays SpecGrammar SpecReparse
  Reparse ReparseWritten ParserComplete.
Import ListNotations.
Local Open Scope list_scope.

(** C13.  The CSS generated for any good sheet and class name (or none) is accepted by the
    library's own parser, and what is read contains the same declarations, in the same order,
    under the same conditions.  (The debug build panics in [get_or_register_style] if it is
    not accepted.) *)
Theorem generated_css_reparses : forall class s,
  good_class class -> good_sheet s ->
  exists s', parse (to_style_str class s) = Parsed s' /\ sheet_decls None s' = sheet_decls class s.
Proof. exact rendered_reparses. Qed.
Print Assumptions generated_css_reparses.

(** C13 from texts: whatever is written in the documented syntax, in any layout, without
    interpolations and without keyframes rules that say nothing, can be parsed, rendered
    with any class name and parsed again. *)
Theorem written_css_reparses : forall t s class,
  writes_sheet t s -> dollar_free t -> keyframes_say_something s -> good_class class ->
  parse t = Parsed s
  /\ exists s', parse (to_style_str class s) = Parsed s'
                /\ sheet_decls None s' = sheet_decls class s.
Proof.
  intros t s class W D K C. split; [now apply parse_complete|].
  apply rendered_reparses; [easy|]. eapply written_sheet_good; eauto.
Qed.
Print Assumptions written_css_reparses.

(** Without the condition on keyframes the property fails: an accepted text whose generated
    CSS is rejected. *)
Theorem empty_keyframes_reparse_refuted : exists t s class,
  parse t = Parsed s /\ good_class class
  /\ forall s', parse (to_style_str class s) <> Parsed s'.
Proof.
  exists (lit "@keyframes move{}"), [SRule [lit "@keyframes "; lit "move"] []], (Some (lit "stylist-x")).
  split; [now vm_compute|]. split; [split; [easy|]|].
  - repeat constructor; try (vm_compute; intuition discriminate).
  - intros s'. vm_compute. discriminate.
Qed.
Print Assumptions empty_keyframes_reparse_refuted.

(** ** A case *)

Definition demo_sheet : sheet :=
  [ SBlock [] [CAttr (mk_attr (lit "color") [lit "red"])];
    SBlock [[lit "a:hover"]; [lit "&.b[c=""},""]"]]
           [ CAttr (mk_attr (lit "margin") [lit "0 1px"]);
             CRule [lit "@media "; lit "print"] [CAttr (mk_attr (lit "content") [lit """;"""])] ];
    SRule [lit "@keyframes "; lit "move"]
          [CRule [lit "from, 50%"] [CAttr (mk_attr (lit "top") [lit "0"])]] ].

Ltac plain_text := repeat (constructor; [cbn; intuition discriminate|]); try constructor.
Ltac is_tight := split; [discriminate|reflexivity].
Ltac is_name := eexists _, _; split; [reflexivity|]; split;
  [unfold name_start; cbn; tauto|repeat constructor; unfold name_start; cbn; tauto].

Lemma demo_sheet_good : good_sheet demo_sheet.
Proof.
  assert (A1 : good_attr (mk_attr (lit "color") [lit "red"])).
  { split; [is_name|]. split; [easy|]. split; [|is_tight]. plain_text. }
  assert (A2 : good_attr (mk_attr (lit "margin") [lit "0 1px"])).
  { split; [is_name|]. split; [easy|]. split; [|is_tight]. plain_text. }
  assert (A3 : good_attr (mk_attr (lit "top") [lit "0"])).
  { split; [is_name|]. split; [easy|]. split; [|is_tight]. plain_text. }
  assert (A4 : good_attr (mk_attr (lit "content") [lit """;"""])).
  { split; [is_name|]. split; [easy|]. split; [|is_tight].
    apply (vt_atom (lit """;""") []); [|constructor]. left. exists (lit ";"). split; [easy|].
    constructor; [easy|easy|constructor]. }
  constructor; [|constructor; [|constructor; [|constructor]]]; cbn [rbc_of_scope].
  - constructor; [constructor|]. constructor; [|constructor]. now constructor.
  - constructor.
    + constructor; [|constructor; [|constructor]]; (split; [now vm_compute|is_tight]).
    + constructor; [now constructor|]. constructor; [|constructor]. constructor.
      * exists (lit "@media"), (lit "print"). split; [easy|]. split; [now left|]. split; [|is_tight].
        left. repeat constructor; cbn; intuition discriminate.
      * constructor; [now constructor|constructor].
  - apply gt_keyframes; [|constructor; [constructor|constructor]|easy].
    + exists (lit "@keyframes"), (lit "move"). split; [easy|]. split; [now left|]. split; [|is_tight].
      left. repeat constructor; cbn; intuition discriminate.
    + split; [|split; [is_tight|discriminate]]. eexists.
      apply (wsel_cons [] (lit "from") [] (lit " 50% ")); try constructor; try (cbn; intuition discriminate); try easy.
      * plain_text.
      * apply (wsel_one (lit " ") (lit "50%") (lit " ")).
        -- constructor; [now left|constructor].
        -- plain_text.
        -- is_tight.
        -- constructor; [now left|constructor].
    + constructor; [now constructor|constructor].
Qed.

Example generated_css_reparses_ex :
  good_class (Some (lit "stylist-AB12")) /\ good_class None /\ good_sheet demo_sheet
  /\ sheet_decls (Some (lit "stylist-AB12")) demo_sheet =
     [ IDecl [lit ".stylist-AB12"] (lit "color") (lit "red");
       IDecl [lit ".stylist-AB12 a:hover, .stylist-AB12.b[c=""},""]"] (lit "margin") (lit "0 1px");
       IDecl [lit "@media print"; lit ".stylist-AB12 a:hover, .stylist-AB12.b[c=""},""]"]
             (lit "content") (lit """;""");
       IDecl [lit "@keyframes move"; lit "from, 50%"] (lit "top") (lit "0") ].
Proof.
  split; [|split; [exact I|split; [exact demo_sheet_good|now vm_compute]]].
  split; [easy|]. repeat constructor; try (vm_compute; intuition discriminate).
Qed.
