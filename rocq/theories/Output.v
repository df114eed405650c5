(** * Output: what the macros build and the code they generate,
    /repo/packages/stylist-macros/src/output/.

    The generated token streams are represented by the Rust expressions they spell: [g...]
    types, one constructor for each [quote!].  Their meaning is given below by an evaluator that
    knows where Rust allows what: a [const] item may not call functions that are not [const]
    (allocate, format) nor mention local variables, a [static]'s initialiser closure may not
    mention local variables. *)

From Coq Require Import String Ascii List NArith Bool Arith.
From Verif Require Import Str Ast Owned Tok.
Import ListNotations.
Local Open Scope list_scope.

(** ** Output trees *)

(** [IdentPart] and [CssIdent], inline/css_ident.rs 10-19; an [Ident]'s text is [unraw]ed when
    it is written (52). *)
Inductive ident_part := IPDash (joint : bool) | IPIdent (s : str).
Definition css_ident := list ident_part.

(** [Ident::unraw]: drop a leading [r#]. *)
Definition unraw (s : str) : str :=
  if starts_with (lit "r#") s then skipn 2 s else s.

(** [CssIdent::to_output_string], css_ident.rs 47-55. *)
Definition ident_string (i : css_ident) : str :=
  flat_map (fun p => match p with IPDash _ => lit "-" | IPIdent s => unraw s end) i.

(** [PreservedToken], inline/component_value/preserved_token.rs 7-11. *)
Inductive ptok :=
| PPunct (c : char) (joint : bool)
| PLiteral (text : str)
| PIdent (i : css_ident).

(** [PreservedToken::to_output_string], preserved_token.rs 38-44. *)
Definition ptok_string (t : ptok) : str :=
  match t with
  | PIdent i => ident_string i
  | PLiteral l => l
  | PPunct p _ => [p]
  end.

(** [OutputFragment], output/str_frag.rs 12-18; an [Argument] (literal/argument.rs 4-8) keeps
    its name and its tokens. *)
Inductive out_frag :=
| FExpr (e : expr)
| FArg (name : str) (tokens : code)
| FToken (t : ptok)
| FDelim (d : delim) (start : bool)
| FStr (s : str).

(** [ExpressionKind], output/context.rs 9-36, and [join], 40-47. *)
Inductive kind := KDynamic | KStatic | KConst.
Definition kjoin (a b : kind) : kind :=
  match a, b with
  | KDynamic, _ | _, KDynamic => KDynamic
  | KStatic, _ | _, KStatic => KStatic
  | KConst, KConst => KConst
  end.

(** [ReifyContext] is its [usage] (50-53); [new] is [KConst] (57-66), [uses_nested] is [kjoin]
    (68-70), [uses_dynamic_argument] (73-75), [uses_static] (77-79), [is_static] (81-83),
    [is_const] (85-87). *)
Definition uses_dynamic (k : kind) : kind := kjoin k KDynamic.
Definition uses_static (k : kind) : kind := kjoin k KStatic.
Definition is_static (k : kind) : bool := match k with KStatic | KConst => true | _ => false end.
Definition is_const (k : kind) : bool := match k with KConst => true | _ => false end.

(** [OutputCowString], output/cow_str.rs 8-11; the tokens of [Raw] always are
    [ToString::to_string(&(expr) as &dyn Display).into()] around an expression. *)
Inductive cow_string := CStr (s : str) | CRaw (c : code) (k : kind).

(** [from_displayable_spanned], cow_str.rs 20-32, on an [Expr] or a [TokenStream], whose [Reify]
    (output/mod.rs 45-59) records a dynamic argument. *)
Definition from_displayable (c : code) : cow_string :=
  CRaw c (uses_static (uses_dynamic KConst)).

(** [OutputFragment::str_for_delim], str_frag.rs 80-90. *)
Definition delim_string (d : delim) (start : bool) : str :=
  match d, start with
  | Brace, true => lit "{"
  | Brace, false => lit "}"
  | Bracket, true => lit "["
  | Bracket, false => lit "]"
  | Paren, true => lit "("
  | Paren, false => lit ")"
  end.

(** [OutputFragment::into_inner], str_frag.rs 60-78. *)
Definition into_inner (f : out_frag) : cow_string :=
  match f with
  | FToken t => CStr (ptok_string t)
  | FDelim d start => CStr (delim_string d start)
  | FStr s => CStr s
  | FArg _ tokens => from_displayable tokens
  | FExpr (ELitStr s) => CStr s
  | FExpr (ECode c) => from_displayable c
  end.

(** [OutputFragment::as_string], str_frag.rs 92-98. *)
Definition as_string (f : out_frag) : option str :=
  match into_inner f with CStr s => Some s | CRaw _ _ => None end.

(** [fragment_coalesce], str_frag.rs 113-124, under [itertools]' [coalesce]: the last item is
    merged with the next one as long as that succeeds. *)
Fixpoint coalesce_from (l : out_frag) (rest : list out_frag) : list out_frag :=
  match rest with
  | [] => [l]
  | r :: rest' =>
      match as_string l, as_string r with
      | Some lt, Some rt => coalesce_from (FStr (lt ++ rt)) rest'
      | _, _ => l :: coalesce_from r rest'
      end
  end.
Definition coalesce (l : list out_frag) : list out_frag :=
  match l with [] => [] | x :: l' => coalesce_from x l' end.

(** [OutputSelector] (output/selector.rs 7-9), [OutputAttribute] (style_attr.rs 10-13),
    [OutputRuleBlockContent] (rule_block_content.rs 6-10), [OutputRule] (rule.rs 10-13),
    [OutputBlock] (block.rs 6-9), [OutputScopeContent] (scope_content.rs 6-9) and [OutputSheet]
    (sheet.rs 6-8). *)
Definition out_selector := list out_frag.
Record out_attr := mk_out_attr { oa_key : cow_string; oa_values : list out_frag }.
Inductive out_rbc :=
| OutAttr (a : out_attr)
| OutRule (cond : list out_frag) (content : list out_rbc)
| OutBlock (cond : list out_selector) (content : list out_rbc).
Inductive out_scope :=
| OutSRule (cond : list out_frag) (content : list out_rbc)
| OutSBlock (cond : list out_selector) (content : list out_rbc).
Definition out_sheet := list out_scope.

(** ** Generated expressions *)

(** [Cow::<str>::Borrowed("lit")], cow_str.rs 42-49, and
    [ToString::to_string(&(expr) as &dyn Display).into()], 25-29. *)
Inductive gstr := GLitStr (s : str) | GDisplay (c : code).
(** [Cow::Borrowed({ const ITEMS: [T; n] = [..]; &ITEMS })] and [Cow::Owned(vec![..])],
    maybe_static.rs 32-49. *)
Inductive gvec (A : Type) := GItems (l : list A) | GVec (l : list A).
Arguments GItems {A} l.
Arguments GVec {A} l.
(** [Bow::Borrowed({ const X: T = ..; &X })] and [Bow::Boxed(Box::new(..))],
    rule_block_content.rs 20-33 and 42-55. *)
Inductive gbow (A : Type) := GBorrow (a : A) | GBox (a : A).
Arguments GBorrow {A} a.
Arguments GBox {A} a.
(** [StringFragment { inner }] is its [inner]; [Selector { fragments }] its fragments. *)
Definition gfrags := gvec gstr.
Inductive grbc :=
| GAttr (key : gstr) (value : gfrags)
| GRule (r : gbow grule)
| GBlock (b : gbow gblock)
with grule := mk_grule (cond : gfrags) (content : gvec grbc)
with gblock := mk_gblock (cond : gvec gfrags) (content : gvec grbc).
Inductive gscope := GSRule (r : grule) | GSBlock (b : gblock).
(** [{ static SHEET_REF: Lazy<Sheet> = Lazy::new(|| Sheet::from(..)); SHEET_REF.clone() }] and
    [Sheet::from(..)], sheet.rs 17-36. *)
Inductive gsheet := GLazy (c : gvec gscope) | GNow (c : gvec gscope).

(** ** Reify

    Every function takes the context's kind and returns the updated one. *)

(** [iter().map(|m| m.into_token_stream(&mut ctx)).collect()] *)
Definition map_ctx {A G} (f : A -> kind -> G * kind) : list A -> kind -> list G * kind :=
  fix go l k :=
    match l with
    | [] => ([], k)
    | x :: l' =>
        let (g, k') := f x k in
        let (gs, k'') := go l' k' in
        (g :: gs, k'')
    end.

(** [into_cow_vec_tokens], maybe_static.rs 21-51. *)
Definition cow_vec {A G} (f : A -> kind -> G * kind) (l : list A) (k : kind) : gvec G * kind :=
  let (contents, inner) := map_ctx f l KConst in
  if is_const inner then (GItems contents, k)
  else (GVec contents, kjoin (uses_static k) inner).

(** cow_str.rs 35-52. *)
Definition reify_cow (c : cow_string) (k : kind) : gstr * kind :=
  match c with
  | CRaw t inner => (GDisplay t, kjoin k inner)
  | CStr s => (GLitStr s, k)
  end.

(** str_frag.rs 101-110. *)
Definition reify_frag (f : out_frag) (k : kind) : gstr * kind := reify_cow (into_inner f) k.

(** Coalesced fragments: rule.rs 17-21, selector.rs 13-18, style_attr.rs 18-22. *)
Definition reify_frags (l : list out_frag) (k : kind) : gfrags * kind :=
  cow_vec reify_frag (coalesce l) k.

(** style_attr.rs 15-32. *)
Definition reify_attr (a : out_attr) (k : kind) : (gstr * gfrags) * kind :=
  let (key, k1) := reify_cow (oa_key a) k in
  let (value, k2) := reify_frags (oa_values a) k1 in
  ((key, value), k2).

(** rule.rs 15-35, for the way [f] of reifying the contents. *)
Definition reify_rule_with (f : out_rbc -> kind -> grbc * kind)
    (cond : list out_frag) (content : list out_rbc) (k : kind) : grule * kind :=
  let (c, k1) := reify_frags cond k in
  let (l, k2) := cow_vec f content k1 in
  (mk_grule c l, k2).

(** block.rs 11-27. *)
Definition reify_block_with (f : out_rbc -> kind -> grbc * kind)
    (cond : list out_selector) (content : list out_rbc) (k : kind) : gblock * kind :=
  let (c, k1) := cow_vec reify_frags cond k in
  let (l, k2) := cow_vec f content k1 in
  (mk_gblock c l, k2).

(** rule_block_content.rs 12-66. *)
Fixpoint reify_rbc (c : out_rbc) (k : kind) : grbc * kind :=
  match c with
  | OutRule cond content =>
      let (r, inner) := reify_rule_with reify_rbc cond content KConst in
      (GRule (if is_const inner then GBorrow r else GBox r), kjoin k inner)
  | OutBlock cond content =>
      let (b, inner) := reify_block_with reify_rbc cond content KConst in
      (GBlock (if is_const inner then GBorrow b else GBox b), kjoin k inner)
  | OutAttr a =>
      let '(key, value, k1) := reify_attr a k in (GAttr key value, k1)
  end.

(** scope_content.rs 11-24. *)
Definition reify_scope (c : out_scope) (k : kind) : gscope * kind :=
  match c with
  | OutSRule cond content =>
      let (r, k1) := reify_rule_with reify_rbc cond content k in (GSRule r, k1)
  | OutSBlock cond content =>
      let (b, k1) := reify_block_with reify_rbc cond content k in (GSBlock b, k1)
  end.

(** sheet.rs 10-38; the caller passes a new context (literal/mod.rs 132, inline/mod.rs 25). *)
Definition reify_sheet (s : out_sheet) (k : kind) : gsheet * kind :=
  let (contents, k1) := cow_vec reify_scope s k in
  let k2 := uses_static k1 in
  ((if is_static k2 then GLazy contents else GNow contents), k2).
Definition expand (s : out_sheet) : gsheet := fst (reify_sheet s KConst).

(** ** What the generated code does

    Not code of the repository: the meaning of the Rust expressions above. *)

(** The local variables in scope, seen through what is asked of them: the [Display] text of
    every expression. *)
Definition env := code -> str.

(** Where an expression stands. *)
Inductive place := InConst | InStatic | InFunction (rho : env).

(** All results, or [None] if one is missing. *)
Definition all_some {A B} (f : A -> option B) : list A -> option (list B) :=
  fix go l :=
    match l with
    | [] => Some []
    | x :: l' =>
        match f x, go l' with
        | Some y, Some r => Some (y :: r)
        | _, _ => None
        end
    end.

(** [None]: rustc rejects the expression in that place. *)
Definition ev_str (p : place) (g : gstr) : option (cow str) :=
  match g, p with
  | GLitStr s, _ => Some (CowBorrowed s)
  | GDisplay c, InFunction rho => Some (CowOwned (rho c))
  | GDisplay _, _ => None
  end.
Definition ev_vec {A B} (f : place -> A -> option B) (p : place) (g : gvec A)
  : option (cow (list B)) :=
  match g with
  | GItems l => option_map CowBorrowed (all_some (f InConst) l)
  | GVec l => match p with
              | InConst => None
              | _ => option_map CowOwned (all_some (f p) l)
              end
  end.
Definition ev_bow {A B} (f : place -> A -> option B) (p : place) (g : gbow A) : option (bow B) :=
  match g with
  | GBorrow a => option_map Borrowed (f InConst a)
  | GBox a => match p with
              | InConst => None
              | _ => option_map Boxed (f p a)
              end
  end.
Definition ev_frag (p : place) (g : gstr) : option ofrag := option_map mk_ofrag (ev_str p g).
Definition ev_frags (p : place) (g : gfrags) : option (cow (list ofrag)) := ev_vec ev_frag p g.
Definition ev_selector (p : place) (g : gfrags) : option oselector :=
  option_map mk_oselector (ev_frags p g).
Definition ev_rule_with (f : place -> grbc -> option orbc) (p : place) (r : grule)
  : option orule :=
  match r with
  | mk_grule c l =>
      match ev_frags p c, ev_vec f p l with
      | Some c', Some l' => Some (mk_orule c' l')
      | _, _ => None
      end
  end.
Definition ev_block_with (f : place -> grbc -> option orbc) (p : place) (b : gblock)
  : option oblock :=
  match b with
  | mk_gblock c l =>
      match ev_vec ev_selector p c, ev_vec f p l with
      | Some c', Some l' => Some (mk_oblock c' l')
      | _, _ => None
      end
  end.
Fixpoint ev_rbc (p : place) (g : grbc) {struct g} : option orbc :=
  match g with
  | GAttr k v =>
      match ev_str p k, ev_frags p v with
      | Some k', Some v' => Some (OAttr (mk_oattr k' v'))
      | _, _ => None
      end
  | GRule r => option_map ORule (ev_bow (ev_rule_with ev_rbc) p r)
  | GBlock b => option_map OBlock (ev_bow (ev_block_with ev_rbc) p b)
  end.
Definition ev_scope (p : place) (g : gscope) : option oscope :=
  match g with
  | GSRule r => option_map OSRule (ev_rule_with ev_rbc p r)
  | GSBlock b => option_map OSBlock (ev_block_with ev_rbc p b)
  end.
Definition ev_contents (p : place) (g : gvec gscope) : option osheet := ev_vec ev_scope p g.

(** One evaluation of the expansion, given what is in the [static]: a [Lazy] runs its closure
    the first time and keeps the result. *)
Definition evaluate (cell : option osheet) (rho : env) (g : gsheet)
  : option (osheet * option osheet) :=
  match g with
  | GNow c => option_map (fun v => (v, cell)) (ev_contents (InFunction rho) c)
  | GLazy c =>
      match cell with
      | Some v => Some (v, cell)
      | None => option_map (fun v => (v, Some v)) (ev_contents InStatic c)
      end
  end.
(** The same expansion evaluated again and again while the program runs. *)
Fixpoint evaluate_all (cell : option osheet) (rhos : list env) (g : gsheet)
  : option (list osheet) :=
  match rhos with
  | [] => Some []
  | rho :: rhos' =>
      match evaluate cell rho g with
      | Some (v, cell') => option_map (cons v) (evaluate_all cell' rhos' g)
      | None => None
      end
  end.

(** Induction through the nested lists. *)
Section OutRbcInd.
  Variable P : out_rbc -> Prop.
  Variable Q : list out_rbc -> Prop.
  Hypothesis HA : forall a, P (OutAttr a).
  Hypothesis HR : forall cond content, Q content -> P (OutRule cond content).
  Hypothesis HB : forall cond content, Q content -> P (OutBlock cond content).
  Hypothesis Hnil : Q [].
  Hypothesis Hcons : forall c l, P c -> Q l -> Q (c :: l).

  Fixpoint out_rbc_ind2 (c : out_rbc) : P c :=
    let fix go (l : list out_rbc) : Q l :=
      match l with
      | [] => Hnil
      | c :: l' => Hcons c l' (out_rbc_ind2 c) (go l')
      end in
    match c with
    | OutAttr a => HA a
    | OutRule cond content => HR cond content (go content)
    | OutBlock cond content => HB cond content (go content)
    end.

  Fixpoint out_rbcs_ind2 (l : list out_rbc) : Q l :=
    match l with
    | [] => Hnil
    | c :: l' => Hcons c l' (out_rbc_ind2 c) (out_rbcs_ind2 l')
    end.
End OutRbcInd.
