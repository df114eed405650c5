(** * PropsParser: the properties of the run-time parser (C09 - C16). *)

From Coq Require Import String Ascii List NArith Bool Arith Lia.
From Verif Require Import Str StrFacts Ast Nom CssParser SpecSays SpecGrammar ParserTotal ParserSel ParserComplete ParserDecl.
Import ListNotations.
Local Open Scope list_scope.

(** ** C09: parsing terminates with a verdict *)

(** [parse] is a total function; its bounds (repetition fuel, recursion depth) never show. *)
Theorem parse_terminates : forall css,
  (exists s, parse css = Parsed s) \/ parse css = Rejected.
Proof.
  intros css. pose proof (parse_total css). destruct (parse css); eauto. now elim H.
Qed.
Print Assumptions parse_terminates.

(** The depth bound of the model is irrelevant: any larger one gives the same result, so the
    unbounded recursion of the Rust code returns it as well. *)
Theorem parse_depth_irrelevant : forall css d,
  S (S (List.length css)) <= d ->
  parse css = match sheet_p d css with
              | ROk _ s => Parsed s
              | RErr | RFail => Rejected
              | RFuel => OutOfFuel
              end.
Proof. intros css d H. unfold parse. now rewrite (sheet_depth css d H). Qed.
Print Assumptions parse_depth_irrelevant.

Example parse_terminates_ex :
  (exists s, parse (lit "color: red; a { b: c } @media x { d { e: f; } }") = Parsed s)
  /\ parse (lit "color: red") = Rejected /\ parse (lit "a { b: ""c") = Rejected
  /\ parse (lit "/* ") = Rejected /\ parse [] = Parsed [].
Proof. split; [eexists; vm_compute; reflexivity|]. repeat split; vm_compute; reflexivity. Qed.

(** ** C10: nothing is silently ignored *)

(** The text left over by a successful parse is empty ... *)
Theorem parser_consumes_everything : forall css d rest s,
  S (S (List.length css)) <= d -> sheet_p d css = ROk rest s -> rest = [].
Proof. intros css d rest s H E. eapply sheet_consumes_all; [|exact E]. lia. Qed.
Print Assumptions parser_consumes_everything.

(** ... and the sheet accounts for all of the text: every character belongs to a
    declaration, selector, at-rule, brace, separator or blank space of [SpecSays]. *)
Theorem parsed_text_says_sheet : forall css s, parse css = Parsed s -> says_sheet css s.
Proof. exact parse_sound. Qed.
Print Assumptions parsed_text_says_sheet.

Example parser_consumes_everything_ex :
  parse (lit "a { b: c; } }") = Rejected /\ parse (lit "a { b: c; } d") = Rejected
  /\ parse (lit "a { b: c; } /* d */ ") = Parsed [SBlock [[lit "a"]] [CAttr (mk_attr (lit "b") [lit "c"])]].
Proof. repeat split; vm_compute; reflexivity. Qed.

(** ** C11: well-formed text is parsed to what it says, whatever its layout *)
Theorem grammar_text_parses : forall text s, writes_sheet text s -> parse text = Parsed s.
Proof. exact parse_complete. Qed.
Print Assumptions grammar_text_parses.

Theorem layout_does_not_matter : forall text1 text2 s,
  writes_sheet text1 s -> writes_sheet text2 s -> parse text1 = parse text2.
Proof. exact layout_irrelevant. Qed.
Print Assumptions layout_does_not_matter.

(** Blank space may be added in front of any text, and a text of the grammar may be followed
    by a comment. *)
Theorem grammar_leading_blank : forall w text s,
  blank w -> writes_sheet text s -> parse (w ++ text) = Parsed s.
Proof.
  intros w text s Hw (w' & t & -> & Hw' & H). apply parse_complete. exists (w ++ w'), t.
  rewrite <- app_assoc. splits; auto. clear -Hw Hw'. now apply ParserSound.blank_app.
Qed.
Print Assumptions grammar_leading_blank.

(** Where the layout does matter, beyond the documented syntax. *)
Theorem comment_layout_refuted :
  (* a comment after a quoted value becomes part of the value *)
  parse (lit "a{b:""c""/* d */;}")
    = Parsed [SBlock [[lit "a"]] [CAttr (mk_attr (lit "b") [lit """c""/* d */"])]]
  (* a comment inside a value is rejected *)
  /\ parse (lit "a{b: c /* d */ e;}") = Rejected
  (* a comment after a selector becomes part of the selector *)
  /\ parse (lit "a /* d */ {}") = Parsed [SBlock [[lit "a /* d */"]] []]
  (* a comment in the condition of an at-rule becomes part of it *)
  /\ parse (lit "@media /* d */ x {}") = Parsed [SRule [lit "@media "; lit "/* d */ x"] []].
Proof. repeat split; vm_compute; reflexivity. Qed.
Print Assumptions comment_layout_refuted.

Ltac not_in := let H := fresh in intros H; vm_compute in H; intuition discriminate.
Ltac all_ws := unfold ws; repeat constructor; cbn; tauto.
Ltac all_blank := repeat first [exact blank_nil | apply blank_ws; [cbn; tauto|]].
Ltac plain_sel := repeat first [exact st_nil | apply st_plain; [not_in|]].
Ltac plain_value := repeat first [exact vt_nil | apply vt_plain; [not_in|]].
Ltac is_name :=
  eexists _, _; split; [reflexivity|]; split;
  [unfold name_start; vm_compute; tauto
  |repeat (apply Forall_cons; [unfold name_char, name_start; vm_compute; tauto|]); apply Forall_nil].

(** Two layouts of the same sheet: a quoted comma in a selector, a string containing
    structural chars as value, a nested conditional rule, a comment. *)
Lemma demo_decl w0 w2 w3 : blank w0 -> blank w2 -> ws w3 ->
  writes_decl (w0 ++ lit "c" ++ [] ++ lit ":" ++ w2 ++ lit """};""" ++ w3) (mk_attr (lit "c") [lit """};"""]).
Proof.
  intros H0 H2 H3. exists w0, (lit "c"), [], w2, (lit """};"""), w3. splits; auto; try reflexivity; try discriminate.
  - constructor.
  - now apply ParserLex.ws_blank.
  - is_name.
  - rewrite <- (app_nil_r (lit """};""")). apply vt_atom; [|constructor]. left.
    exists (lit "};"). split; [reflexivity|]. repeat (apply sb_char; [discriminate|discriminate|]). constructor.
  - split; [discriminate|reflexivity].
Qed.

Lemma demo_sel w v : blank w -> ws v ->
  writes_sels (w ++ lit "[a="",""]" ++ v ++ lit "," ++ [] ++ lit "b" ++ v) [[lit "[a="",""]"]; [lit "b"]].
Proof.
  intros H H'. apply wsel_cons; auto.
  - change (lit "[a="",""]") with (lit "[a=" ++ (lit """,""" ++ lit "]")).
    apply st_plain; [not_in|]. apply st_plain; [not_in|]. apply st_plain; [not_in|]. cbn [app].
    apply (st_atom (lit """,""") (lit "]")).
    + left. exists (lit ","). split; [reflexivity|]. apply sb_char; [discriminate|discriminate|]. constructor.
    + plain_sel.
  - split; [discriminate|reflexivity].
  - apply wsel_one; auto; [constructor|plain_sel|]. split; [discriminate|reflexivity].
Qed.

Definition demo_parsed : sheet :=
  [SBlock [[lit "[a="",""]"]; [lit "b"]]
     [CAttr (mk_attr (lit "c") [lit """};"""]);
      CRule [lit "@media "; lit "print"] [CAttr (mk_attr (lit "c") [lit """};"""])]]].

Lemma demo_writes w v c : blank w -> ws v -> c = [] \/ c = lit "/* }{ */" ->
  writes_sheet (c ++ (w ++ lit "[a="",""]" ++ v ++ lit "," ++ [] ++ lit "b" ++ v) ++ lit "{" ++ w ++
     ((w ++ lit "c" ++ [] ++ lit ":" ++ w ++ lit """};""" ++ v) ++ lit ";" ++ w ++
      ((w ++ lit "@media" ++ lit " " ++ v ++ lit "print" ++ v) ++ lit "{"
        ++ (w ++ lit "c" ++ [] ++ lit ":" ++ w ++ lit """};""" ++ v) ++ lit "}" ++ w ++ []))
     ++ lit "}" ++ w ++ []) demo_parsed.
Proof.
  intros H H' Hc. eexists c, _. split; [reflexivity|]. split.
  { destruct Hc as [->| ->]; [constructor|]. change (lit "/* }{ */") with (lit "/*" ++ lit " }{ " ++ lit "*/" ++ []).
    apply blank_comment; [|constructor]. intros (a & b & E).
    assert (F : forallb (fun c => negb (N.eqb c 42)) (lit " }{ ") = true) by reflexivity.
    rewrite E, !forallb_app in F. cbn in F. now rewrite andb_false_r in F. }
  apply wsc_block; auto.
  - now apply demo_sel.
  - discriminate.
  - apply wc_decl; auto; [now apply demo_decl|]. apply wc_rule; auto.
    + exists w, (lit "@media"), v, (lit "print"), v. splits; auto.
      * cbn; tauto.
      * left. repeat (apply Forall_cons; [not_in|]). apply Forall_nil.
      * split; [discriminate|reflexivity].
    + apply wc_last. now apply demo_decl.
    + constructor.
  - constructor.
Qed.

Example grammar_text_parses_ex :
  writes_sheet (lit "[a="",""],b{c:""};"";@media print{c:""};""}}") demo_parsed
  /\ writes_sheet (lit "/* }{ */ [a="",""] ,b {  c: ""};"" ;  @media  print { c: ""};"" } } ") demo_parsed.
Proof.
  split.
  - apply (demo_writes [] [] []); auto; constructor.
  - apply (demo_writes (lit " ") (lit " ") (lit "/* }{ */")); auto.
    + all_blank.
    + all_ws.
Qed.

(** ** C12: the shape of parsed sheets *)
Theorem parsed_sheet_shape : forall css s, parse css = Parsed s -> sheet_shape s.
Proof. exact parse_shape. Qed.
Print Assumptions parsed_sheet_shape.

(** [trim], in which the shape and the grammars are stated, is trimming of the Unicode white
    space: that of Rust's [str::trim]. *)
Lemma uni_ws_exact c : is_uni_ws c = true <-> In c white_space.
Proof.
  unfold is_uni_ws, white_space. cbn [In].
  rewrite ?orb_true_iff, ?andb_true_iff, ?N.eqb_eq, ?N.leb_le. split.
  - intros H. repeat match goal with H : _ \/ _ |- _ => destruct H as [H|H] end; try (subst; tauto).
    + assert (c = 9 \/ c = 10 \/ c = 11 \/ c = 12 \/ c = 13)%N by lia. intuition.
    + assert (c = 8192 \/ c = 8193 \/ c = 8194 \/ c = 8195 \/ c = 8196 \/ c = 8197 \/ c = 8198
              \/ c = 8199 \/ c = 8200 \/ c = 8201 \/ c = 8202)%N by lia. intuition.
  - intros H. repeat match goal with H : _ \/ _ |- _ => destruct H as [H|H] end; try easy; subst; lia.
Qed.

Lemma ws_forall a : Forall (fun c => In c white_space) a <-> forallb is_uni_ws a = true.
Proof.
  rewrite forallb_forall, Forall_forall. split; intros H x Hx; apply uni_ws_exact, H, Hx.
Qed.

Lemma not_ws c : ~ In c white_space <-> is_uni_ws c = false.
Proof. rewrite <- uni_ws_exact. destruct (is_uni_ws c); split; intros H; try easy. Qed.

Theorem trim_exact : forall s t, trim s = t <-> trims_to s t.
Proof.
  intros s t. split.
  - intros <-. destruct (trim_start_split s) as (a & Ha & Wa).
    destruct (trim_end_split (trim_start s)) as (b & Hb & Wb).
    exists a, b. fold (trim s) in Hb. split; [rewrite <- Hb; exact Ha|].
    split; [now apply ws_forall|]. split; [now apply ws_forall|]. split; intros c u E; apply not_ws.
    + unfold trim in E. rewrite <- trim_start_end in E. exact (trim_start_head _ _ _ E).
    + unfold trim, trim_end in E. apply (f_equal (@rev char)) in E.
      rewrite rev_involutive, rev_app_distr in E. exact (trim_start_head _ _ _ E).
  - intros (a & b & -> & Wa & Wb & Hd & La). apply ws_forall in Wa. apply ws_forall in Wb.
    rewrite trim_ws_l, trim_ws_r by easy. unfold trim.
    rewrite trim_start_id by (destruct t; [easy|]; eapply not_ws, Hd; reflexivity).
    unfold trim_end. rewrite trim_start_id; [apply rev_involutive|].
    destruct (rev t) as [|x u] eqn:E; [easy|]. apply not_ws, (La x (rev u)).
    rewrite <- (rev_involutive t), E. reflexivity.
Qed.
Print Assumptions trim_exact.

Example trim_exact_ex : trims_to ([12288; 160] ++ lit "a b" ++ [8232; 9])%N (lit "a b").
Proof. apply trim_exact. vm_compute. reflexivity. Qed.

(** Names and values that consist of Unicode white space only are trimmed away: the shape
    cannot be strengthened to non-empty ones. *)
Theorem parsed_name_nonempty_refuted :
  exists css s a, parse css = Parsed s /\ s = [SBlock [] [CAttr a]] /\ a_key a = [].
Proof. exists ([160%N] ++ lit ":b;"), [SBlock [] [CAttr (mk_attr [] [lit "b"])]]. eexists.
       split; [vm_compute; reflexivity|]. split; reflexivity. Qed.
Print Assumptions parsed_name_nonempty_refuted.

(** ** C14: a declaration before a block *)

(** "color: red; a:hover { color: blue; }" is one block whose selector is
    "color: red; a:hover". *)
Theorem declaration_before_block_refuted :
  parse (lit "color: red; a:hover { color: blue; }")
  = Parsed [SBlock [[lit "color: red; a:hover"]] [CAttr (mk_attr (lit "color") [lit "blue"])]].
Proof. vm_compute. reflexivity. Qed.
Print Assumptions declaration_before_block_refuted.

(** Partial: when the selector after the declarations does not itself start like a
    declaration, they stay apart.  Missing: selectors such as [a:hover], see above. *)
Theorem declaration_before_block_partial : forall t l sel w body content,
  writes_dangling t l -> sel_text sel -> tight sel -> ~ starts_like_decl sel ->
  blank w -> writes_content body content ->
  parse (t ++ sel ++ lit "{" ++ w ++ body ++ lit "}")
  = Parsed [SBlock [] (map CAttr l); SBlock [[sel]] content].
Proof.
  intros t l sel w body content Ht Hs Hts Hno Hw Hb. apply parse_complete.
  exists [], (t ++ ((sel ++ lit "{" ++ w ++ body ++ lit "}"))). split; [reflexivity|]. split; [constructor|].
  apply wsc_dangling; auto.
  replace (sel ++ lit "{" ++ w ++ body ++ lit "}")
    with (([] ++ sel ++ []) ++ lit "{" ++ w ++ body ++ lit "}" ++ [] ++ []) by (now rewrite !app_nil_r).
  apply wsc_block; auto; try constructor; auto; [constructor|constructor|].
  intros _ s [= <-]. exact Hno.
Qed.
Print Assumptions declaration_before_block_partial.

(** The exact condition: for every group of declarations and every selector (ended by no
    colon, as no valid selector is), they stay apart if and only if the selector does not
    start like a declaration. *)
Theorem declaration_before_block_iff : forall t l sel v w body content,
  writes_dangling t l -> sel_text sel -> tight sel -> (forall u, sel <> u ++ lit ":") -> ws v ->
  blank w -> writes_content body content ->
  parse (t ++ sel ++ v ++ lit "{" ++ w ++ body ++ lit "}")
  = Parsed [SBlock [] (map CAttr l); SBlock [[sel]] content] <-> ~ starts_like_decl sel.
Proof.
  intros t l sel v w body content Ht Hs Hts Hcol Hv Hw Hb. split.
  - intros E Hd. apply parse_first_bare in E. apply E.
    exact (swallowed t l sel v (w ++ body ++ lit "}") Ht Hs Hts Hv Hd Hcol).
  - intros Hno. apply parse_complete.
    exists [], (t ++ ((sel ++ v ++ lit "{" ++ w ++ body ++ lit "}"))). split; [reflexivity|]. split; [constructor|].
    apply wsc_dangling; auto.
    replace (sel ++ v ++ lit "{" ++ w ++ body ++ lit "}")
      with (([] ++ sel ++ v) ++ lit "{" ++ w ++ body ++ lit "}" ++ [] ++ []) by (rewrite !app_nil_r; cbn; now rewrite <- !app_assoc).
    apply wsc_block; auto; try constructor; auto; [constructor|].
    intros _ s [= <-]. exact Hno.
Qed.
Print Assumptions declaration_before_block_iff.

(** Both sides occur. *)
Example declaration_before_block_iff_ex :
  writes_dangling (lit "color: red; ") [mk_attr (lit "color") [lit "red"]]
  /\ starts_like_decl (lit "a:hover") /\ ~ starts_like_decl (lit "&:hover").
Proof.
  split; [|split].
  - apply (wd_one (lit "color: red") _ (lit " ")); [|apply (blank_ws (ch " ")); [cbn; tauto|constructor]].
    exists [], (lit "color"), [], (lit " "), (lit "red"), [].
    split; [reflexivity|]. split; [constructor|]. split; [constructor|].
    split; [apply (blank_ws (ch " ")); [cbn; tauto|constructor]|]. split; [constructor|].
    split; [exists (ch "c"), (lit "olor"); split; [reflexivity|]; split; [right; right; now left|]|].
    + repeat (constructor; [left; right; right; now left|]); constructor.
    + split; [reflexivity|]. split.
      * repeat (apply vt_plain; [cbn; intuition discriminate|]); constructor.
      * split; [now split|]. split; [|reflexivity]. intros u c _ _. constructor.
  - exists (lit "a"), [], (lit "hover"). split; [reflexivity|]. split; [|constructor].
    exists (ch "a"), []. split; [reflexivity|]. split; [right; right; now left|constructor].
  - intros (k & w & r & E & (c & k' & -> & Hc & _) & _). injection E as <- _.
    destruct Hc as [Hc|[Hc|[Hc|Hc]]]; try discriminate Hc; vm_compute in Hc; now elim Hc.
Qed.

(** ** C15: selector lists *)

(** A comma inside parentheses does split: ":is(a, b)" becomes two selectors. *)
Theorem comma_in_parentheses_refuted :
  parse (lit ":is(a, b) { c: d; }")
  = Parsed [SBlock [[lit ":is(a"]; [lit "b)"]] [CAttr (mk_attr (lit "c") [lit "d"])]].
Proof. vm_compute. reflexivity. Qed.
Print Assumptions comma_in_parentheses_refuted.

(** A selector may even contain a closing brace: "a } b { c: d; }" is accepted. *)
Theorem selector_with_brace_refuted :
  parse (lit "a } b { c: d; }")
  = Parsed [SBlock [[lit "a } b"]] [CAttr (mk_attr (lit "c") [lit "d"])]].
Proof. vm_compute. reflexivity. Qed.
Print Assumptions selector_with_brace_refuted.

(** Partial: selectors made of chars without special meaning, strings and interpolations
    are split exactly at the commas outside strings.  Missing: parentheses, see above. *)
Theorem selector_list_split_partial : forall sels body content,
  sels <> [] -> Forall (fun s => sel_text s /\ tight s) sels -> writes_content body content ->
  parse (join (lit ",") sels ++ lit "{" ++ body ++ lit "}")
  = Parsed [SBlock (map (fun s => [s]) sels) content].
Proof.
  intros sels body content Hn Hs Hb. apply parse_complete.
  exists [], (join (lit ",") sels ++ lit "{" ++ body ++ lit "}"). split; [reflexivity|]. split; [constructor|].
  replace (join (lit ",") sels ++ lit "{" ++ body ++ lit "}")
    with (join (lit ",") sels ++ lit "{" ++ [] ++ body ++ lit "}" ++ [] ++ []) by reflexivity.
  apply wsc_block; auto; try constructor; [|discriminate].
  induction Hs as [|s l [Hs Hts] Hl IH]; [easy|]. destruct l as [|s2 l].
  - cbn [join map]. replace s with ([] ++ s ++ []) at 1 by (now rewrite app_nil_r).
    apply wsel_one; auto; constructor.
  - change (join (lit ",") (s :: s2 :: l)) with ([] ++ s ++ [] ++ lit "," ++ join (lit ",") (s2 :: l)).
    cbn [map]. apply wsel_cons; auto; try constructor. apply IH. discriminate.
Qed.
Print Assumptions selector_list_split_partial.

Example selector_list_split_ex :
  Forall (fun s => sel_text s /\ tight s) [lit ".a > b:hover"; lit "&[d]"].
Proof.
  repeat (apply Forall_cons || apply Forall_nil); (split; [plain_sel|split; [discriminate|reflexivity]]).
Qed.

(** ** C16: blank space inside empty braces *)
Theorem blank_in_empty_braces_refuted :
  (exists s, parse (lit "@keyframes x {}") = Parsed s)
  /\ parse (lit "@keyframes x { }") = Rejected
  /\ (exists s, parse (lit "@keyframes x { from {} }") = Parsed s)
  /\ parse (lit "@keyframes x { from { } }") = Rejected
  /\ (exists s, parse (lit "a { @media x {} }") = Parsed s)
  /\ parse (lit "a { @media x { } }") = Rejected.
Proof. repeat split; try (eexists; vm_compute; reflexivity); vm_compute; reflexivity. Qed.
Print Assumptions blank_in_empty_braces_refuted.

(** Partial: blank space between the braces of a block or of a top-level conditional rule
    does not matter.  Missing: keyframes, frames and nested rules, see above. *)
Theorem blank_in_empty_braces_partial : forall w,
  blank w ->
  (forall sel, sel_text sel -> tight sel ->
     parse (sel ++ lit "{" ++ w ++ lit "}") = Parsed [SBlock [[sel]] []])
  /\ (forall name cond, In name group_names -> cond_text cond -> tight cond ->
     parse (name ++ lit " " ++ cond ++ lit "{" ++ w ++ lit "}") = Parsed [SRule [name ++ lit " "; cond] []]).
Proof.
  intros w Hw. split.
  - intros sel Hs Ht. apply parse_complete.
    exists [], (([] ++ sel ++ []) ++ lit "{" ++ w ++ [] ++ lit "}" ++ [] ++ []).
    split; [now rewrite !app_nil_r|]. split; [constructor|].
    apply wsc_block; auto; try constructor; auto; try constructor. discriminate.
  - intros name cond Hn Hc Ht. apply parse_complete.
    exists [], (([] ++ name ++ lit " " ++ [] ++ cond ++ []) ++ lit "{" ++ w ++ [] ++ lit "}" ++ [] ++ []).
    split; [rewrite !app_nil_r; cbn [app]; now rewrite <- !app_assoc|]. split; [constructor|].
    apply (wsc_rule false _ [name ++ lit " "; cond] w [] []); auto; try constructor.
    exists [], name, [], cond, []. splits; auto; try constructor; apply Ht.
Qed.
Print Assumptions blank_in_empty_braces_partial.
