(** * VParser: the run-time CSS parser with its errors, /repo/packages/stylist-core/src/parser.rs.

    The functions of [CssParser.v] again, now with [traced_context] (29-64; its tracing is for tests) and the
    errors of nom.  [Error::Parse] keeps the places as text ([source]) and a message made of them
    ([reason]). *)

From Coq Require Import String Ascii List NArith Bool Arith.
From Verif Require Import Str Ast Nom CssParser VNom Ids.
Import ListNotations.
Local Open Scope list_scope.

(** [expect_non_empty], parser.rs 67-83 *)
Definition v_non_empty {A} (p : vparser A) : vparser A := fun i =>
  match i with [] => verr i KLengthValue | _ :: _ => p i end.

(** [Parser::cmt], parser.rs 113-125 *)
Definition v_cmt : vparser str :=
  context "Comment" (vdelimited (vtag (lit "/*"))
    (vrecognize (vmany0 (valt [vis_not (lit "*");
                               vterminated (vtag (lit "*")) (vnot (vchar (ch "/")))])))
    (vtag (lit "*/"))).

(** [Parser::sp], parser.rs 128-132 *)
Definition v_sp : vparser str :=
  context "Whitespace" (vrecognize (vmany0 (valt [vtake_while1 (fun c => mem c sp_chars); v_cmt]))).

(** [Parser::trimmed], parser.rs 92-108 *)
Definition v_trimmed {A} (f : vparser A) : vparser A := context "Trimmed" (vdelimited v_sp f v_sp).

(** [Parser::ident], parser.rs 137-155 *)
Definition v_ident : vparser str :=
  context "Ident" (vrecognize (vpreceded
    (valt [vtag (lit "-"); vtag (lit "_"); valpha1; vtake_while1 (fun c => negb (is_ascii c))])
    (vmany0 (valt [vtag (lit "-"); vtag (lit "_"); valphanumeric1;
                   vtake_while1 (fun c => negb (is_ascii c))])))).

(** [Parser::style_attr_key], parser.rs 157-159 *)
Definition v_style_attr_key : vparser str := context "StyleAttrKey" (v_trimmed v_ident).

(** [Parser::interpolation], parser.rs 235-247 *)
Definition v_interpolation : vparser str :=
  context "Interpolation" (v_trimmed (v_non_empty (vdelimited (vtag (lit "${"))
    (v_trimmed (vrecognize (vpreceded valpha1 (vmany0 (valt [valphanumeric1; vtag (lit "_")])))))
    (vtag (lit "}"))))).

(** [Parser::string], parser.rs 222-231 *)
Definition v_string : vparser str :=
  context "String" (v_trimmed (v_non_empty (vrecognize (vpreceded (vtag dquote)
    (vterminated
       (vmany0 (valt [vis_not (lit "\" ++ dquote);
                      context "EscapedChar" (vrecognize (vpreceded (vtag (lit "\")) vanychar))]))
       (vtag dquote)))))).

(** [Parser::style_attr_value], parser.rs 162-177 *)
Definition v_style_attr_value : vparser str :=
  context "StyleAttrValue" (v_trimmed (vmap trim
    (vrecognize (vmany1 (valt [vis_not (lit "${;}/" ++ dquote);
                               vrecognize v_interpolation;
                               v_string;
                               vrecognize (vpreceded (vtag (lit "/"))
                                                     (vnone_of (lit "${;}" ++ dquote ++ lit "*")))]))))).

(** [Parser::attribute], parser.rs 180-197 *)
Definition v_attribute : vparser attr :=
  context "StyleAttribute" (v_trimmed (v_non_empty
    (vmap (fun p => mk_attr (trim (fst p)) [snd p])
       (vseparated_pair v_style_attr_key (vtag (lit ":")) v_style_attr_value)))).

(** [Parser::attributes], parser.rs 199-218 *)
Definition v_attributes (dangling : bool) : vparser (list attr) :=
  let final_semicolon :=
    if dangling then vmap Some (vtag (lit ";")) else vopt (vtag (lit ";")) in
  context "StyleAttributes" (v_trimmed (v_non_empty
    (vterminated (vseparated_list1 (vtag (lit ";")) v_attribute)
                 (vpreceded (vopt v_sp) final_semicolon)))).

(** [Parser::selector], parser.rs 251-263 *)
Definition v_selector : vparser selector :=
  context "Selector" (v_trimmed (v_non_empty
    (vmap (fun p => [trim p])
       (vrecognize (vmany1 (valt [vrecognize (vpreceded (vnone_of (lit "$,}@{" ++ dquote))
                                                        (vopt (vis_not (lit "$," ++ dquote ++ lit "{"))));
                                  v_string;
                                  vrecognize v_interpolation])))))).

(** [Parser::condition], parser.rs 266-274 *)
Definition v_condition : vparser (list selector) :=
  context "Condition" (v_trimmed (v_non_empty (vmany1 (vterminated v_selector (vopt (vtag (lit ","))))))).

(** [Parser::at_rule_condition], parser.rs 397-428 *)
Definition v_at_rule_condition (tags : list (vparser str)) : vparser (list str) :=
  context "AtRuleCondition" (v_trimmed (v_non_empty
    (vmap (fun p => [fst p; snd p])
       (vpair (vrecognize (vterminated (valt tags) (vtag (lit " "))))
              (vmap trim (vrecognize (vmany1 (valt [vis_not (lit "${"); vrecognize v_interpolation])))))))).

(** The conditions of [rule_block] by kind, parser.rs 341-348. *)
Definition v_other_condition : vparser (list str) :=
  v_at_rule_condition [vtag (lit "@container"); vtag (lit "@media"); vtag (lit "@supports")].
Definition v_frame_condition : vparser (list str) :=
  vmap (fun m => [trim m]) (vrecognize v_condition).

(** The alternatives shared by [block_contents] (281-291) and [rule_block_contents] (321-333) *)
Definition v_content_items (rule : vparser rbc) : vparser (list (list rbc)) :=
  vmany0 (valt [vmap (map CAttr) (v_attributes false); vmap (fun m => [m]) rule]).

(** [Parser::block_contents], parser.rs 276-295 *)
Definition v_block_contents (rule : vparser rbc) : vparser (list rbc) :=
  context "BlockContents" (v_trimmed (v_non_empty (vmap (@List.concat rbc) (v_content_items rule)))).

(** [Parser::rule_block_contents], parser.rs 316-337 *)
Definition v_rule_block_contents (rule : vparser rbc) : vparser (list rbc) :=
  vmap (@List.concat rbc) (context "RuleBlockContents" (v_non_empty (v_content_items rule))).

(** [Parser::rule_block], parser.rs 340-367 *)
Definition v_rule_block_with (cond : vparser (list str)) (rule : vparser rbc) : vparser rbc :=
  context "RuleBlock" (v_trimmed (v_non_empty
    (vmap (fun p => CRule (fst p) (snd p))
       (vseparated_pair cond (vtag (lit "{"))
                        (vterminated (v_rule_block_contents rule) (vtag (lit "}"))))))).

Fixpoint v_rule_block_other (d : nat) : vparser rbc :=
  match d with
  | O => fun _ => VFuel
  | S d' => v_rule_block_with v_other_condition (v_rule_block_other d')
  end.
Definition v_rule_block_frame (d : nat) : vparser rbc :=
  v_rule_block_with v_frame_condition (v_rule_block_other d).

(** [Parser::block], parser.rs 298-314 *)
Definition v_block (d : nat) : vparser scope_content :=
  context "Block" (v_trimmed (v_non_empty
    (vmap (fun p => SBlock (fst p) (snd p))
       (vpair v_condition
              (vdelimited (vtag (lit "{")) (v_trimmed (v_block_contents (v_rule_block_other d)))
                          (vtag (lit "}"))))))).

(** [Parser::dangling_block], parser.rs 370-387 *)
Definition v_dangling_block : vparser scope_content :=
  context "DanglingBlock" (v_trimmed (v_non_empty
    (vmap (fun l => SBlock [] (map CAttr l)) (v_attributes true)))).

(** [Parser::keyframes], parser.rs 430-455 *)
Definition v_keyframes (d : nat) : vparser scope_content :=
  context "Keyframes" (v_trimmed (vmap (fun p => SRule (fst p) (snd p))
    (vseparated_pair (v_at_rule_condition [vtag (lit "@keyframes"); vfail])
                     (vtag (lit "{"))
                     (vterminated (vmany0 (v_rule_block_frame d)) (vtag (lit "}")))))).

(** [Parser::at_rule], parser.rs 458-494 *)
Definition v_at_rule_with (contents : vparser (list scope_content)) : vparser scope_content :=
  context "AtRule" (v_trimmed (v_non_empty
    (vmap (fun p => SRule (fst p) (map rbc_of_scope (snd p)))
       (vseparated_pair
          (v_at_rule_condition [vtag (lit "@container"); vtag (lit "@supports"); vtag (lit "@media")])
          (vtag (lit "{"))
          (vterminated contents (vtag (lit "}"))))))).

(** [Parser::scope_contents], parser.rs 497-511 *)
Fixpoint v_scope_contents (d : nat) : vparser (list scope_content) :=
  match d with
  | O => fun _ => VFuel
  | S d' =>
      context "ScopeContents" (v_trimmed (v_non_empty
        (vmany0 (valt [v_dangling_block; v_block d'; v_at_rule_with (v_scope_contents d'); v_keyframes d']))))
  end.

(** [Parser::scope], parser.rs 390-395 *)
Definition v_scope (d : nat) : vparser (list scope_content) :=
  context "Scope" (v_trimmed (v_non_empty (v_scope_contents d))).

(** [Parser::sheet], parser.rs 515-523 *)
Definition v_sheet (d : nat) : vparser sheet :=
  context "StyleSheet" (v_trimmed (vmap (@List.concat scope_content) (vmany0 (v_scope d)))).

(** ** [nom::error::convert_error] *)

(** The [Debug] text of an [ErrorKind] *)
Definition kind_name (k : error_kind) : str :=
  match k with
  | KTag => lit "Tag" | KIsNot => lit "IsNot" | KTakeWhile1 => lit "TakeWhile1" | KAlpha => lit "Alpha"
  | KAlphaNumeric => lit "AlphaNumeric" | KNoneOf => lit "NoneOf" | KEof => lit "Eof" | KFail => lit "Fail"
  | KNot => lit "Not" | KAlt => lit "Alt" | KMany0 => lit "Many0" | KMany1 => lit "Many1"
  | KSeparatedList => lit "SeparatedList" | KLengthValue => lit "LengthValue"
  end.

Definition newline : char := 10%N.

(** How many bytes a char has in UTF-8. *)
Definition char_len (c : char) : nat :=
  if N.ltb c 128 then 1 else if N.ltb c 2048 then 2 else if N.ltb c 65536 then 3 else 4.
Definition byte_len (s : str) : nat := list_sum (map char_len s).

(** What comes after the last newline. *)
Fixpoint last_line (s : str) : str :=
  match s with
  | [] => []
  | c :: s' => if existsb (char_eqb newline) s' then last_line s'
               else if char_eqb newline c then s' else s
  end.

(** [lines().next()]: up to the first newline.  A carriage return before it is dropped too, as [trim_end]
    does below. *)
Definition first_line (s : str) : str := fst (span (fun c => negb (char_eqb newline c)) s).

(** One place.  [input.offset(substring)] is the number of bytes before the place: the place is a rest of
    the input.  The caret is written right aligned in the width of the column. *)
Definition convert_one (input : str) (n : nat) (e : str * vkind) : str :=
  let (rest, kind) := e in
  let prefix := firstn (List.length input - List.length rest) input in
  match input with
  | [] =>
      match kind with
      | VChar c => decimal (N.of_nat n) ++ lit ": expected '" ++ [c] ++ lit "', got empty input" ++ [newline; newline]
      | VContext s => decimal (N.of_nat n) ++ lit ": in " ++ s ++ lit ", got empty input" ++ [newline; newline]
      | VNom k => decimal (N.of_nat n) ++ lit ": in " ++ kind_name k ++ lit ", got empty input" ++ [newline; newline]
      end
  | _ =>
      let line_number := S (List.length (filter (char_eqb newline) prefix)) in
      let line := trim_end (first_line (last_line prefix ++ rest)) in
      let column := S (byte_len (last_line prefix)) in
      let shown := line ++ [newline] ++ repeat 32%N (column - 1) ++ lit "^" ++ [newline] in
      let head := decimal (N.of_nat n) ++ lit ": at line " ++ decimal (N.of_nat line_number) in
      match kind with
      | VChar c =>
          match rest with
          | a :: _ => head ++ lit ":" ++ [newline] ++ shown ++ lit "expected '" ++ [c] ++ lit "', found " ++ [a]
                      ++ [newline; newline]
          | [] => head ++ lit ":" ++ [newline] ++ shown ++ lit "expected '" ++ [c] ++ lit "', got end of input"
                  ++ [newline; newline]
          end
      | VContext s => head ++ lit ", in " ++ s ++ lit ":" ++ [newline] ++ shown ++ [newline]
      | VNom k => head ++ lit ", in " ++ kind_name k ++ lit ":" ++ [newline] ++ shown ++ [newline]
      end
  end.
Fixpoint convert_from (input : str) (n : nat) (e : verror) : str :=
  match e with
  | [] => []
  | x :: e' => convert_one input n x ++ convert_from input (S n) e'
  end.
Definition convert_error (input : str) (e : verror) : str := convert_from input 0 e.

(** ** What [Parser::parse] returns, parser.rs 526-545 *)

Inductive vparse_result :=
| VParsed (s : sheet)
| VRejected (reason : str) (source : verror)   (* [Error::Parse] *)
| VOutOfFuel.

Definition v_parse (css : str) : vparse_result :=
  match v_sheet (S (S (List.length css))) css with
  | VOk _ s => VParsed s
  | VErr e | VFail e => VRejected (convert_error css e) e
  | VFuel => VOutOfFuel
  end.

(** [Display] of [Error::Parse], error.rs 26 *)
Definition display_parse (reason : str) : str := lit "Failed to Parse CSS, due to:" ++ [newline] ++ reason.

(** [ResultDisplay], error.rs 63-77: the value, or a panic with the message. *)
Inductive unwrapped := Value (s : sheet) | Panic (message : str).
Definition unwrap_display (r : vparse_result) : option unwrapped :=
  match r with
  | VParsed s => Some (Value s)
  | VRejected reason _ => Some (Panic (display_parse reason))
  | VOutOfFuel => None
  end.
Definition expect_display (r : vparse_result) (msg : str) : option unwrapped :=
  match r with
  | VParsed s => Some (Value s)
  | VRejected reason _ => Some (Panic (msg ++ lit ": " ++ display_parse reason))
  | VOutOfFuel => None
  end.
