(** * Inline: macros called with CSS tokens,
    /repo/packages/stylist-macros/src/inline/ and spacing_iterator.rs.

    A [syn::parse::ParseBuffer] is the list of token trees ahead.  Groups without delimiters,
    which come from [macro_rules!], are left out of the token trees ([Tok.v]).  Spans are left
    out.  Of an error only its kind is kept. *)

From Coq Require Import String Ascii List NArith Bool Arith.
From Verif Require Import Str Ast Tok Output.
Import ListNotations.
Local Open Scope list_scope.

(** ** Looking ahead *)

(** [input.peek(Token![c])] looks at one punctuation char only, whether or not it is joint with
    the next one; [Cursor::punct] skips the quote of a lifetime. *)
Definition peek_punct (c : char) (l : list rtok) : bool :=
  match l with RPunct d _ :: _ => char_eqb d c && negb (char_eqb d 39) | _ => false end.
(** [input.peek(Ident::peek_any)] *)
Definition peek_ident (l : list rtok) : bool :=
  match l with RIdent _ :: _ => true | _ => false end.
(** [input.peek(token::Brace)] and its siblings. *)
Definition peek_group (d : delim) (l : list rtok) : bool :=
  match l with
  | RGroup e _ :: _ =>
      match d, e with
      | Brace, Brace | Bracket, Bracket | Paren, Paren => true
      | _, _ => false
      end
  | _ => false
  end.

(** ** css_ident.rs *)

(** [CssIdent::peek], 37-44: [DoubleMinus] starts with a minus as well, and a minus has been
    dealt with; [peek2] looks behind one token tree. *)
Definition css_peek (l : list rtok) : bool :=
  if peek_punct (ch "-") l then
    peek_punct (ch "-") (tl l) || peek_ident (tl l)
  else peek_ident l.

(** [IdentPart::parse_part], 58-75; [None] is an error. *)
Definition parse_part (dash ident : bool) (l : list rtok) : option (ident_part * list rtok) :=
  match l with
  | RPunct c j :: l' => if dash && char_eqb c (ch "-") then Some (IPDash j, l') else None
  | RIdent s :: l' => if ident then Some (IPIdent s, l') else None
  | _ => None
  end.

(** The loop of [CssIdent::parse], 81-92; [IdentPart::peek] (22-27) is true exactly if
    [parse_part] succeeds. *)
Fixpoint ident_loop (last : ident_part) (l : list rtok) : css_ident * list rtok :=
  let (dash, ident) := match last with IPDash j => (j, true) | IPIdent _ => (true, false) end in
  match l with
  | RPunct c j :: l' =>
      if dash && char_eqb c (ch "-") then
        let (ps, r) := ident_loop (IPDash j) l' in (IPDash j :: ps, r)
      else ([], l)
  | RIdent s :: l' =>
      if ident then
        let (ps, r) := ident_loop (IPIdent s) l' in (IPIdent s :: ps, r)
      else ([], l)
  | _ => ([], l)
  end.
(** [CssIdent::parse], 78-95. *)
Definition parse_ident (l : list rtok) : option (css_ident * list rtok) :=
  match parse_part true true l with
  | Some (p, l') => let (ps, r) := ident_loop p l' in Some (p :: ps, r)
  | None => None
  end.

(** ** component_value *)

(** [ComponentValue], mod.rs 32-38, with [FunctionToken], [PreservedToken], [SimpleBlock] and
    [InterpolatedExpression]. *)
Inductive cval :=
| CFunction (name : css_ident) (args : list cval)
| CToken (t : ptok)
| CBlk (d : delim) (contents : list cval)
| CExpr (e : expr).

(** The result of a parser; [PFuel] is no outcome of the code. *)
Inductive pres (A : Type) := POk (a : A) (rest : list rtok) | PErr | PFuel.
Arguments POk {A} a rest.
Arguments PErr {A}.
Arguments PFuel {A}.
Definition pbind {A B} (r : pres A) (f : A -> list rtok -> pres B) : pres B :=
  match r with POk a rest => f a rest | PErr => PErr | PFuel => PFuel end.

(** Repeat a parser until nothing is left: [ComponentValue::parse_multiple] (mod.rs 73-77, with
    [ComponentValueStream::next], stream.rs 31-37) and
    [CssScopeContent::consume_list_of_rules] (scope_content.rs 51-58). *)
Fixpoint many_left {A} (p : list rtok -> pres A) (fuel : nat) (l : list rtok) : pres (list A) :=
  match l with
  | [] => POk [] []
  | _ =>
      match fuel with
      | O => PFuel
      | S n => pbind (p l) (fun a r => pbind (many_left p n r) (fun al r' => POk (a :: al) r'))
      end
  end.

Section Expressions.
  (** [syn::Expr::parse] on the tokens between [${] and [}], with nothing left over.  (What is
      left over is reported by syn when the whole input has been parsed: a compile error as
      well.) *)
  Variable expr_of : code -> option expr.

  (** [PreservedToken::parse], preserved_token.rs 23-35, when [CssIdent::peek] is false. *)
  Definition parse_preserved (l : list rtok) : pres cval :=
    match l with
    | RPunct c j :: r => if char_eqb c 39 then PErr else POk (CToken (PPunct c j)) r
    | RLit t :: r => POk (CToken (PLiteral t)) r
    | _ => PErr
    end.

  (** [ComponentValue::parse], mod.rs 50-71, with [SimpleBlock::parse] (simple_block.rs 51-84),
      [InterpolatedExpression::parse] (interpolated_expression.rs 23-36) and
      [FunctionToken::parse_with_name] (function_token.rs 48-55). *)
  Fixpoint cv (fuel : nat) (l : list rtok) : pres cval :=
    match fuel with
    | O => PFuel
    | S n =>
        let inside g := many_left (cv n) (List.length g) g in
        match l with
        | RGroup d g :: r => pbind (inside g) (fun c _ => POk (CBlk d c) r)
        | _ =>
            if peek_punct (ch "$") l && peek_group Brace (tl l) then
              match tl l with
              | RGroup _ g :: r =>
                  match expr_of g with Some e => POk (CExpr e) r | None => PErr end
              | _ => PErr
              end
            else if negb (css_peek l) then parse_preserved l
            else
              match parse_ident l with
              | None => PErr
              | Some (i, r) =>
                  match r with
                  | RGroup Paren g :: r' => pbind (inside g) (fun c _ => POk (CFunction i c) r')
                  | _ => POk (CToken (PIdent i)) r
                  end
              end
        end
    end.
  (** Groups nest no deeper than there are tokens. *)
  Definition component (l : list rtok) : pres cval := cv (S (toks_size l)) l.

  (** [ComponentValueStream::next().ok_or_else(..)??]: the end of input is an error. *)
  Definition next_component (l : list rtok) : pres cval :=
    match l with [] => PErr | _ => component l end.

  (** *** Validation *)

  Inductive ierr := ENotInAttribute | ENotInSelector | EAtRule | ENested.

  (** [validate_attribute_token], mod.rs 116-149. *)
  Fixpoint validate_attribute (c : cval) : list ierr :=
    match c with
    | CExpr _ | CToken (PIdent _) | CToken (PLiteral _) => []
    | CFunction _ args => flat_map validate_attribute args
    | CBlk _ _ => [ENotInAttribute]
    | CToken (PPunct p _) => if mem p (lit "-/%:,#") then [] else [ENotInAttribute]
    end.

  (** [matches!(Lit::new(l), Lit::Str(_))]: syn looks at the first chars; string literals start
      with a quote or an [r]. *)
  Definition is_str_literal (t : str) : bool :=
    match t with c :: _ => char_eqb c 34 || char_eqb c (ch "r") | [] => false end.

  (** [validate_selector_token], mod.rs 151-199; [None] is [Err]. *)
  Fixpoint validate_selector (c : cval) : option (list ierr) :=
    match c with
    | CExpr _ | CFunction _ _ | CToken (PIdent _) => Some []
    | CBlk Bracket contents =>
        (fix go l := match l with
                     | [] => Some []
                     | x :: l' =>
                         match validate_selector x, go l' with
                         | Some e, Some r => Some (e ++ r)
                         | _, _ => None
                         end
                     end) contents
    | CBlk _ _ => Some [ENotInSelector]
    | CToken (PLiteral t) => if is_str_literal t then Some [] else Some [ENotInSelector]
    | CToken (PPunct p _) =>
        if char_eqb p (ch ";") then None
        else if mem p (lit "&>+~|$*=^#.:,") then Some [] else Some [ENotInSelector]
    end.

  (** ** parse *)

  (** [CssAttributeName], attribute.rs 14-17. *)
  Inductive iname := INIdent (i : css_ident) | INExpr (e : expr).
  (** [CssAttribute], attribute.rs 26-31, [CssAtRule], rule.rs 17-24, [CssQualifiedRule],
      block.rs 7-10, and [CssScopeContent], scope_content.rs 8-12. *)
  Inductive icontent :=
  | ICAttr (name : iname) (values : list cval) (errors : list ierr)
  | ICAtRule (name : css_ident) (prelude : list cval) (body : option (list icontent))
             (errors : list ierr)
  | ICNested (qualifiers : list cval) (errors : list ierr) (body : list icontent).

  (** [maybe_to_attribute_name], attribute.rs 86-94. *)
  Definition attribute_name (c : cval) : option iname :=
    match c with
    | CToken (PIdent i) => Some (INIdent i)
    | CExpr e => Some (INExpr e)
    | _ => None
    end.

  (** [input.parse::<Token![c]>()] *)
  Definition expect (c : char) (l : list rtok) : pres unit :=
    if peek_punct c l then POk tt (tl l) else PErr.

  (** [CssAttributeValue::parse], attribute.rs 60-82. *)
  Fixpoint attribute_value (fuel : nat) (l : list rtok) : pres (list cval * list ierr) :=
    if peek_punct (ch ";") l then POk ([], []) l
    else
      match fuel with
      | O => PFuel
      | S n =>
          pbind (next_component l) (fun c r =>
          let e := validate_attribute c in
          pbind (attribute_value n r) (fun ve r' =>
          POk ((if match e with [] => true | _ => false end then c :: fst ve else fst ve),
               e ++ snd ve) r'))
      end.

  (** [CssAttribute::parse], attribute.rs 33-58. *)
  Definition attribute (l : list rtok) : pres icontent :=
    pbind (next_component l) (fun c r =>
    match attribute_name c with
    | None => PErr
    | Some name =>
        pbind (expect (ch ":") r) (fun _ r1 =>
        pbind (attribute_value (S (List.length r1)) r1) (fun ve r2 =>
        pbind (expect (ch ";") r2) (fun _ r3 => POk (ICAttr name (fst ve) (snd ve)) r3)))
    end).

  (** [CssBlockQualifier::parse], qualifier.rs 17-38. *)
  Fixpoint qualifier (fuel : nat) (l : list rtok) : pres (list cval * list ierr) :=
    if peek_group Brace l then POk ([], []) l
    else
      match fuel with
      | O => PFuel
      | S n =>
          pbind (next_component l) (fun c r =>
          match validate_selector c with
          | None => PErr
          | Some e =>
              pbind (qualifier n r) (fun qe r' =>
              POk ((if match e with [] => true | _ => false end then c :: fst qe else fst qe),
                   e ++ snd qe) r')
          end)
      end.

  (** The loop of [CssAtRule::parse], rule.rs 45-57: stops in front of a
      semicolon or a brace. *)
  Fixpoint prelude (fuel : nat) (l : list rtok) : pres (list cval) :=
    if peek_punct (ch ";") l || peek_group Brace l then POk [] l
    else
      match fuel with
      | O => PFuel
      | S n =>
          pbind (next_component l) (fun c r =>
          pbind (prelude n r) (fun cs r' => POk (c :: cs) r'))
      end.

  Definition at_rule_names : list str := [lit "media"; lit "supports"].

  (** [CssScope::parse], scope.rs 15-25, for a parser of the contents. *)
  Definition scope_with {A} (p : list rtok -> pres (list A)) (l : list rtok) : pres (list A) :=
    match l with
    | RGroup Brace g :: r => pbind (p g) (fun a _ => POk a r)
    | _ => PErr
    end.

  (** [CssAtRule::parse], rule.rs 25-67. *)
  Definition at_rule_with (p : list rtok -> pres (list icontent)) (l : list rtok) : pres icontent :=
    pbind (expect (ch "@") l) (fun _ r =>
    match parse_ident r with
    | None => PErr
    | Some (name, r1) =>
        let errors := if existsb (str_eqb (ident_string name)) at_rule_names then [] else [EAtRule] in
        pbind (prelude (S (List.length r1)) r1) (fun cs r2 =>
        if peek_punct (ch ";") r2 then POk (ICAtRule name cs None errors) r2
        else pbind (scope_with p r2) (fun body r3 => POk (ICAtRule name cs (Some body) errors) r3))
    end).

  (** [CssQualifiedRule::parse], block.rs 12-18. *)
  Definition qualified_rule_with (p : list rtok -> pres (list icontent)) (l : list rtok)
    : pres icontent :=
    pbind (qualifier (S (List.length l)) l) (fun qe r =>
    pbind (scope_with p r) (fun body r' => POk (ICNested (fst qe) (snd qe) body) r')).

  (** [CssScopeContent::parse], scope_content.rs 14-47.  The fork is the list itself.  An error
      of the second peek is not reported there (36). *)
  Fixpoint scope_content_p (fuel : nat) (l : list rtok) : pres icontent :=
    match fuel with
    | O => PFuel
    | S n =>
        let rules g := many_left (scope_content_p n) (List.length g) g in
        match next_component l with
        | PErr => PErr
        | PFuel => PFuel
        | POk (CToken (PPunct p j)) r =>
            if char_eqb p (ch "@") then at_rule_with rules l else qualified_rule_with rules l
        | POk c r =>
            match attribute_name c with
            | None => qualified_rule_with rules l
            | Some _ =>
                match next_component r with
                | POk (CToken (PPunct p j)) _ =>
                    if char_eqb p (ch ":") then attribute l else qualified_rule_with rules l
                | PFuel => PFuel
                | _ => qualified_rule_with rules l
                end
            end
        end
    end.

  (** [CssRootNode::parse], root.rs 12-17. *)
  Definition root (l : list rtok) : pres (list icontent) :=
    many_left (scope_content_p (S (toks_size l))) (List.length l) l.
End Expressions.

(** ** spacing_iterator.rs *)

(** The result of converting to output: [OPanic] is an [unreachable!]; [OFuel] is no outcome of
    the code. *)
Inductive ores (A : Type) := OOk (a : A) | OPanic | OFuel.
Arguments OOk {A} a.
Arguments OPanic {A}.
Arguments OFuel {A}.
Definition obind {A B} (r : ores A) (f : A -> ores B) : ores B :=
  match r with OOk a => f a | OPanic => OPanic | OFuel => OFuel end.

Section Spacing.
  Context {I : Type}.
  Variable spacer : I -> I -> option I.

  (** [SpacingState], 27-34. *)
  Inductive sstate :=
  | NotStarted
  | AtItemSpaced (item spacing next : I)
  | AtItem (item next : I)
  | AtSpacing (spacing next : I)
  | AtEnd (item : I)
  | Finished.

  (** [maybe_spaced], 37-53. *)
  Definition maybe_spaced (item : I) (next : option I) : sstate :=
    match next with
    | None => AtEnd item
    | Some next =>
        match spacer item next with
        | None => AtItem item next
        | Some spacing => AtItemSpaced item spacing next
        end
    end.

  (** [advance], 55-78; the underlying iterator is the list of items ahead.  The recursive call of
      the first case is unfolded: it is on a state that has started. *)
  Definition advance_started (s : sstate) (it : list I) : option I * sstate * list I :=
    match s with
    | NotStarted => (None, Finished, it)
    | Finished => (None, Finished, it)
    | AtEnd item => (Some item, Finished, it)
    | AtSpacing spacing next => (Some spacing, maybe_spaced next (hd_error it), tl it)
    | AtItem item next => (Some item, maybe_spaced next (hd_error it), tl it)
    | AtItemSpaced item spacing next => (Some item, AtSpacing spacing next, it)
    end.
  Definition advance (s : sstate) (it : list I) : option I * sstate * list I :=
    match s with
    | NotStarted =>
        match it with
        | [] => (None, Finished, [])
        | item :: it' => advance_started (maybe_spaced item (hd_error it')) (tl it')
        end
    | _ => advance_started s it
    end.

  (** [collect()]: call [next] (94-100) until it returns [None]. *)
  Fixpoint spacing_collect (fuel : nat) (s : sstate) (it : list I) : ores (list I) :=
    match fuel with
    | O => OFuel
    | S n =>
        match advance s it with
        | (None, _, _) => OOk []
        | (Some x, s', it') => obind (spacing_collect n s' it') (fun r => OOk (x :: r))
        end
    end.
  (** [spaced_with(spacer).collect()], 11-22. *)
  Definition spaced_with (l : list I) : ores (list I) :=
    spacing_collect (S (2 * List.length l)) NotStarted l.
End Spacing.

(** ** into_output *)

(** [l.iter().map(f).collect()] where [f] may panic. *)
Definition oall {A B} (f : A -> ores B) : list A -> ores (list B) :=
  fix go l :=
    match l with
    | [] => OOk []
    | x :: l' => obind (f x) (fun y => obind (go l') (fun r => OOk (y :: r)))
    end.

(** [to_output_fragments], component_value/mod.rs 79-114; [From<char>], output/str_frag.rs
    20-33. *)
Fixpoint to_fragments (c : cval) : ores (list out_frag) :=
  match c with
  | CToken t => OOk [FToken t]
  | CExpr e => OOk [FExpr e]
  | CBlk Brace _ => OPanic
  | CBlk d contents =>
      obind (oall to_fragments contents) (fun l =>
      OOk (FDelim d true :: List.concat l ++ [FDelim d false]))
  | CFunction name args =>
      obind (oall to_fragments args) (fun l =>
      OOk (FToken (PIdent name) :: FDelim Paren true :: List.concat l ++ [FDelim Paren false]))
  end.

(** [fragment_spacing], parse/mod.rs 66-75. *)
Definition fragment_spacing (l r : out_frag) : option out_frag :=
  let left :=
    match l with
    | FDelim _ false | FToken (PIdent _) | FToken (PLiteral _) => true
    | FToken (PPunct p _) => mem p (lit "&*")
    | _ => false
    end in
  let right :=
    match r with
    | FToken (PIdent _) | FToken (PLiteral _) => true
    | FToken (PPunct p _) => mem p (lit "*#")
    | _ => false
    end in
  if left && right then Some (FStr (lit " ")) else None.

(** [flat_map(|p| p.to_output_fragments()).spaced_with(fragment_spacing).collect()] *)
Definition spaced_fragments (l : list cval) : ores (list out_frag) :=
  obind (oall to_fragments l) (fun ls => spaced_with fragment_spacing (List.concat ls)).

(** [CssAttributeName::into_output], attribute.rs 114-122. *)
Definition name_output (n : iname) : cow_string :=
  match n with
  | INIdent i => into_inner (FToken (PIdent i))
  | INExpr e => into_inner (FExpr e)
  end.

(** [CssAttribute::into_output], attribute.rs 96-112.  The errors that [ctx] collects are the
    second component. *)
Definition attr_output (name : iname) (values : list cval) (errors : list ierr)
  : ores (out_attr * list ierr) :=
  obind (spaced_fragments values) (fun v => OOk (mk_out_attr (name_output name) v, errors)).

(** [is_not_comma], qualifier.rs 52-54, negated. *)
Definition is_comma (c : cval) : bool :=
  match c with CToken (PPunct p _) => char_eqb p (ch ",") | _ => false end.

(** The batches of [CssBlockQualifier::into_output], qualifier.rs 56-76: [peek()?], then
    [peeking_take_while(is_not_comma)], then [next()]. *)
Fixpoint take_part (l : list cval) : list cval * list cval :=
  match l with
  | [] => ([], [])
  | c :: l' =>
      if is_comma c then ([], l) else let (a, b) := take_part l' in (c :: a, b)
  end.
Fixpoint batches (fuel : nat) (l : list cval) : ores (list (list cval)) :=
  match l with
  | [] => OOk []
  | _ =>
      match fuel with
      | O => OFuel
      | S n =>
          let (part, rest) := take_part l in
          obind (batches n (tl rest)) (fun r => OOk (part :: r))
      end
  end.
Definition qualifier_output (qualifiers : list cval) (errors : list ierr)
  : ores (list out_selector * list ierr) :=
  obind (batches (List.length qualifiers) qualifiers) (fun parts =>
  obind (oall spaced_fragments parts) (fun l => OOk (l, errors))).

(** [condition_output], rule.rs 70-84. *)
Definition condition_output (name : css_ident) (prelude : list cval) : ores (list out_frag) :=
  obind (spaced_fragments prelude) (fun l =>
  OOk (FStr (lit "@" ++ ident_string name ++ lit " ") :: l)).

(** [into_dangling_output], block.rs 28-43: the declarations of [attrs]. *)
Definition dangling_output (attrs : list (iname * list cval * list ierr))
  : ores (list out_rbc * list ierr) :=
  obind (oall (fun a => attr_output (fst (fst a)) (snd (fst a)) (snd a)) attrs) (fun l =>
  OOk (map (fun o => OutAttr (fst o)) l, flat_map snd l)).

(** [CssScope::into_rule_block_output], scope.rs 63-91, with [CssAtRule::into_rule_block_output],
    rule.rs 99-110. *)
Fixpoint rule_block_output (c : icontent) : ores (list out_rbc * list ierr) :=
  match c with
  | ICAttr name values errors =>
      obind (attr_output name values errors) (fun o => OOk ([OutAttr (fst o)], snd o))
  | ICAtRule name prelude body errors =>
      obind (condition_output name prelude) (fun cond =>
      obind (match body with
             | Some b => oall rule_block_output b
             | None => OOk []
             end) (fun l =>
      OOk ([OutRule cond (flat_map fst l)], errors ++ flat_map snd l)))
  | ICNested _ _ _ => OOk ([], [ENested])
  end.
Definition rule_blocks_output (l : list icontent) : ores (list out_rbc * list ierr) :=
  obind (oall rule_block_output l) (fun l => OOk (flat_map fst l, flat_map snd l)).

(** [CssQualifiedRule::into_output], block.rs 21-26. *)
Definition qualified_output (qualifiers : list cval) (errors : list ierr) (body : list icontent)
  : ores (list out_selector * list out_rbc * list ierr) :=
  obind (qualifier_output qualifiers errors) (fun q =>
  obind (rule_blocks_output body) (fun b => OOk (fst q, fst b, snd q ++ snd b))).

(** [flush_attrs], root.rs 24-32 and scope.rs 32-40: [block] wraps the dangling block. *)
Definition flush {A} (block : list out_rbc -> A) (attrs : list (iname * list cval * list ierr))
  : ores (list A * list ierr) :=
  match attrs with
  | [] => OOk ([], [])
  | _ => obind (dangling_output attrs) (fun o => OOk ([block (fst o)], snd o))
  end.

(** The loop of [CssRootNode::into_output], root.rs 34-50, and of [CssScope::into_rule_output],
    scope.rs 42-60, for the way [one] of converting what is not a declaration.  [attrs] holds
    the declarations seen since the last flush, in order. *)
Definition grouped {A} (block : list out_rbc -> A) (one : icontent -> ores (A * list ierr))
  : list (iname * list cval * list ierr) -> list icontent -> ores (list A * list ierr) :=
  fix go attrs l :=
    match l with
    | [] => flush block attrs
    | ICAttr name values errors :: l' => go (attrs ++ [(name, values, errors)]) l'
    | c :: l' =>
        obind (flush block attrs) (fun f =>
        obind (one c) (fun o =>
        obind (go [] l') (fun r =>
        OOk (fst f ++ fst o :: fst r, snd f ++ snd o ++ snd r))))
    end.

(** [CssAtRule::into_rule_output], rule.rs 86-97, and [CssQualifiedRule::into_output], inside an
    at-rule; a declaration never gets here. *)
Fixpoint rule_item_output (c : icontent) : ores (out_rbc * list ierr) :=
  match c with
  | ICAttr name values errors =>
      obind (attr_output name values errors) (fun o => OOk (OutAttr (fst o), snd o))
  | ICAtRule name prelude body errors =>
      obind (condition_output name prelude) (fun cond =>
      obind (match body with
             | Some b => grouped (OutBlock []) rule_item_output [] b
             | None => OOk ([], [])
             end) (fun o => OOk (OutRule cond (fst o), errors ++ snd o)))
  | ICNested qualifiers errors body =>
      obind (qualified_output qualifiers errors body) (fun o =>
      OOk (OutBlock (fst (fst o)) (snd (fst o)), snd o))
  end.
(** The same at the top, where [Rule] and [Block] are scope contents. *)
Definition root_item_output (c : icontent) : ores (out_scope * list ierr) :=
  obind (rule_item_output c) (fun o =>
  match fst o with
  | OutRule cond content => OOk (OutSRule cond content, snd o)
  | OutBlock cond content => OOk (OutSBlock cond content, snd o)
  | OutAttr a => OOk (OutSBlock [] [OutAttr a], snd o)
  end).
(** [CssRootNode::into_output], root.rs 20-51. *)
Definition root_output (l : list icontent) : ores (out_sheet * list ierr) :=
  grouped (OutSBlock []) root_item_output [] l.

(** ** macro_fn, inline/mod.rs 11-28 *)

(** [IErrors errors g]: [compile_error!]s for all [errors], in front of the expression [g]. *)
Inductive inline_expansion :=
| IExpands (g : gsheet)
| IErrors (errors : list ierr) (g : gsheet)
| ISyntaxError
| IPanic
| IFuel.

(** [into_compile_errors], parse/mod.rs 43-63: [Sheet::from(Vec::new())] after the errors. *)
Definition no_sheet : gsheet := GNow (GVec []).

Definition inline_macro (expr_of : code -> option expr) (input : list rtok) : inline_expansion :=
  match root expr_of input with
  | PErr => ISyntaxError
  | PFuel => IFuel
  | POk contents _ =>
      match root_output contents with
      | OPanic => IPanic
      | OFuel => IFuel
      | OOk (out, errors) =>
          match errors with
          | [] => IExpands (expand out)
          | _ => IErrors errors no_sheet
          end
      end
  end.
