(** * SpecInline: how Rust tokens read as CSS, and the sheet they spell.

    Independent of the parser: no fuel, no errors, no order of attempts. *)

From Coq Require Import String Ascii List NArith Bool.
From Verif Require Import Str Ast Tok Output Inline.
Import ListNotations.
Local Open Scope list_scope.

(** ** Component values *)

(** The tokens a CSS identifier is made of. *)
Inductive is_part : rtok -> ident_part -> Prop :=
| part_dash j : is_part (RPunct (ch "-") j) (IPDash j)
| part_ident s : is_part (RIdent s) (IPIdent s).

(** Whether a part continues the identifier that ends in another one: an identifier and a dash
    do, whatever the spacing; two dashes only if nothing is between them. *)
Inductive joins : ident_part -> ident_part -> Prop :=
| join_dashes j : joins (IPDash true) (IPDash j)
| join_dash_ident j s : joins (IPDash j) (IPIdent s)
| join_ident_dash s j : joins (IPIdent s) (IPDash j).

(** [run p l ps r]: from behind [p], the parts [ps] continue the identifier up to [r], and it
    ends there. *)
Inductive run : ident_part -> list rtok -> css_ident -> list rtok -> Prop :=
| run_end p l : (forall t q r, l = t :: r -> is_part t q -> ~ joins p q) -> run p l [] l
| run_more p t q l ps r : is_part t q -> joins p q -> run q l ps r -> run p (t :: l) (q :: ps) r.
Inductive reads_ident : list rtok -> css_ident -> list rtok -> Prop :=
| ri t p l ps r : is_part t p -> run p l ps r -> reads_ident (t :: l) (p :: ps) r.

(** A dash on its own is no identifier. *)
Definition starts_ident (l : list rtok) : Prop :=
  (exists s r, l = RIdent s :: r)
  \/ (exists j t p r, l = RPunct (ch "-") j :: t :: r /\ is_part t p).

Section Reading.
  (** Which tokens are a Rust expression. *)
  Variable expr_of : code -> option expr.

  (** [reads l c r]: the next component value of [l] is [c]; [r] is what follows. *)
  Inductive reads : list rtok -> cval -> list rtok -> Prop :=
  | rd_block d g cs r : reads_all g cs -> reads (RGroup d g :: r) (CBlk d cs) r
  | rd_expr j g e r :
      expr_of g = Some e -> reads (RPunct (ch "$") j :: RGroup Brace g :: r) (CExpr e) r
  | rd_function l i g cs r :
      starts_ident l -> reads_ident l i (RGroup Paren g :: r) -> reads_all g cs ->
      reads l (CFunction i cs) r
  | rd_ident l i r :
      starts_ident l -> reads_ident l i r -> (forall g r', r <> RGroup Paren g :: r') ->
      reads l (CToken (PIdent i)) r
  | rd_punct c j r :
      c <> 39%N -> ~ starts_ident (RPunct c j :: r) ->
      (c = ch "$" -> forall g r', r <> RGroup Brace g :: r') ->
      reads (RPunct c j :: r) (CToken (PPunct c j)) r
  | rd_literal t r : reads (RLit t :: r) (CToken (PLiteral t)) r
  with reads_all : list rtok -> list cval -> Prop :=
  | ra_nil : reads_all [] []
  | ra_cons l c r cs : reads l c r -> reads_all r cs -> reads_all l (c :: cs).

  (** The component values in front of the first place where [stop] holds. *)
  Inductive reads_until (stop : list rtok -> Prop) : list rtok -> list cval -> list rtok -> Prop :=
  | ru_stop l : stop l -> reads_until stop l [] l
  | ru_more l c r cs r' :
      ~ stop l -> reads l c r -> reads_until stop r cs r' -> reads_until stop l (c :: cs) r'.
  Definition at_semicolon (l : list rtok) : Prop := exists j r, l = RPunct (ch ";") j :: r.
  Definition at_brace (l : list rtok) : Prop := exists g r, l = RGroup Brace g :: r.

  (** ** What is allowed where *)

  Definition one_of (cs : string) (c : char) : Prop := In c (lit cs).

  (** In the value of a declaration. *)
  Inductive value_ok : cval -> Prop :=
  | vo_expr e : value_ok (CExpr e)
  | vo_ident i : value_ok (CToken (PIdent i))
  | vo_literal t : value_ok (CToken (PLiteral t))
  | vo_punct c j : one_of "-/%:,#" c -> value_ok (CToken (PPunct c j))
  | vo_function i args : Forall value_ok args -> value_ok (CFunction i args).

  (** No braces, as they stand for no CSS. *)
  Inductive no_braces : cval -> Prop :=
  | nb_expr e : no_braces (CExpr e)
  | nb_token t : no_braces (CToken t)
  | nb_block d cs : d <> Brace -> Forall no_braces cs -> no_braces (CBlk d cs)
  | nb_function i args : Forall no_braces args -> no_braces (CFunction i args).

  (** In a selector; the arguments of [:not(..)] and the like are not looked at. *)
  Inductive selector_ok : cval -> Prop :=
  | so_expr e : selector_ok (CExpr e)
  | so_ident i : selector_ok (CToken (PIdent i))
  | so_function i args : selector_ok (CFunction i args)
  | so_string t c t' :
      t = c :: t' -> (c = 34%N \/ c = ch "r") -> selector_ok (CToken (PLiteral t))
  | so_punct c j : one_of "&>+~|$*=^#.:," c -> selector_ok (CToken (PPunct c j))
  | so_bracket cs : Forall selector_ok cs -> selector_ok (CBlk Bracket cs).

  (** ** Stylesheets *)

  (** A raw identifier stands for its name. *)
  Definition part_text (p : ident_part) : str :=
    match p with
    | IPDash _ => lit "-"
    | IPIdent (c :: d :: s) => if (c =? ch "r")%N && (d =? ch "#")%N then s else c :: d :: s
    | IPIdent s => s
    end.
  Definition ident_text (i : css_ident) : str := List.concat (map part_text i).

  Inductive css_item :=
  | IDecl (name : iname) (values : list cval)
  | IAt (name : str) (condition : list cval) (body : list css_item)
  | IRule (selectors : list cval) (body : list css_item).

  Inductive names : cval -> iname -> Prop :=
  | nm_ident i : names (CToken (PIdent i)) (INIdent i)
  | nm_expr e : names (CExpr e) (INExpr e).

  (** What starts with a name and a colon is a declaration. *)
  Definition starts_declaration (l : list rtok) : Prop :=
    exists c n j r, reads l c (RPunct (ch ":") j :: r) /\ names c n.
  Definition starts_at_rule (l : list rtok) : Prop := exists j r, l = RPunct (ch "@") j :: r.

  (** [content nest l i r]: the next item of [l] is [i]; [r] is what follows.  Blocks are only
      allowed if [nest]. *)
  Inductive content : bool -> list rtok -> css_item -> list rtok -> Prop :=
  | ct_declaration nest l c name j r values j' r' :
      reads l c (RPunct (ch ":") j :: r) -> names c name ->
      reads_until at_semicolon r values (RPunct (ch ";") j' :: r') ->
      Forall value_ok values ->
      content nest l (IDecl name values) r'
  | ct_at_rule nest j l i r condition g body r' :
      reads_ident l i r -> (ident_text i = lit "media" \/ ident_text i = lit "supports") ->
      reads_until (fun l => at_semicolon l \/ at_brace l) r condition (RGroup Brace g :: r') ->
      Forall no_braces condition ->
      contents nest g body ->
      content nest (RPunct (ch "@") j :: l) (IAt (ident_text i) condition body) r'
  | ct_rule l selectors g body r :
      ~ starts_at_rule l -> ~ starts_declaration l ->
      reads_until at_brace l selectors (RGroup Brace g :: r) ->
      Forall selector_ok selectors -> Forall no_braces selectors ->
      contents false g body ->
      content true l (IRule selectors body) r
  with contents : bool -> list rtok -> list css_item -> Prop :=
  | cs_nil nest : contents nest [] []
  | cs_cons nest l i r items :
      content nest l i r -> contents nest r items -> contents nest l (i :: items).

  (** The whole input of the macro. *)
  Definition reads_sheet (l : list rtok) (items : list css_item) : Prop := contents true l items.
End Reading.

(** ** The text of component values *)

(** A piece of text; whether it ends, or starts, a part of a compound selector or value that is
    set off by a space. *)
Record piece := mk_piece { p_ends : bool; p_starts : bool; p_text : str }.

Fixpoint spell (l : list piece) : str :=
  match l with
  | [] => []
  | [p] => p_text p
  | p :: ((q :: _) as l') =>
      p_text p ++ (if p_ends p && p_starts q then lit " " else []) ++ spell l'
  end.

Definition expr_text (rho : env) (e : expr) : str :=
  match e with ELitStr s => s | ECode c => rho c end.
Definition among (cs : string) (c : char) : bool := existsb (N.eqb c) (lit cs).
Definition token_piece (t : ptok) : piece :=
  match t with
  | PIdent i => mk_piece true true (ident_text i)
  | PLiteral t => mk_piece true true t
  | PPunct c _ => mk_piece (among "&*" c) (among "*#" c) [c]
  end.
Definition opens (d : delim) : piece :=
  mk_piece false false (match d with Brace => lit "{" | Bracket => lit "[" | Paren => lit "(" end).
Definition closes (d : delim) : piece :=
  mk_piece true false (match d with Brace => lit "}" | Bracket => lit "]" | Paren => lit ")" end).
Fixpoint pieces (rho : env) (c : cval) : list piece :=
  match c with
  | CToken t => [token_piece t]
  | CExpr e => [mk_piece false false (expr_text rho e)]
  | CBlk d cs => opens d :: flat_map (pieces rho) cs ++ [closes d]
  | CFunction i cs =>
      mk_piece true true (ident_text i) :: opens Paren :: flat_map (pieces rho) cs ++ [closes Paren]
  end.
Definition text (rho : env) (l : list cval) : str := spell (flat_map (pieces rho) l).

(** ** The sheet *)

(** A list cut at its commas; nothing follows a comma at the end. *)
Definition comma (c : cval) : Prop := exists j, c = CToken (PPunct (ch ",") j).
Inductive comma_groups : list cval -> list (list cval) -> Prop :=
| cg_none : comma_groups [] []
| cg_last g : g <> [] -> Forall (fun c => ~ comma c) g -> comma_groups g [g]
| cg_more g c rest gs :
    Forall (fun c => ~ comma c) g -> comma c -> comma_groups rest gs ->
    comma_groups (g ++ c :: rest) (g :: gs).

Definition name_text (rho : env) (n : iname) : str :=
  match n with INIdent i => ident_text i | INExpr e => expr_text rho e end.
Definition declaration (rho : env) (d : iname * list cval) : rbc :=
  CAttr (mk_attr (name_text rho (fst d)) [text rho (snd d)]).
Definition condition_text (rho : env) (name : str) (condition : list cval) : str :=
  lit "@" ++ name ++ lit " " ++ text rho condition.

(** In a block: every declaration and at-rule once, in order. *)
Inductive block_says (rho : env) : list css_item -> list rbc -> Prop :=
| bs_nil : block_says rho [] []
| bs_declaration name values items l :
    block_says rho items l ->
    block_says rho (IDecl name values :: items) (declaration rho (name, values) :: l)
| bs_at name condition body bl items l :
    block_says rho body bl -> block_says rho items l ->
    block_says rho (IAt name condition body :: items)
                   (CRule [condition_text rho name condition] bl :: l).

Definition is_declaration (i : css_item) : Prop := exists n v, i = IDecl n v.

(** At the top and in at-rules there: the same, where declarations next to each other make one
    block without selector. *)
Inductive scope_says (rho : env) : list css_item -> list rbc -> Prop :=
| ss_nil : scope_says rho [] []
| ss_declarations d ds items l :
    (forall i rest, items = i :: rest -> ~ is_declaration i) ->
    scope_says rho items l ->
    scope_says rho (map (fun d => IDecl (fst d) (snd d)) (d :: ds) ++ items)
                   (CBlock [] (map (declaration rho) (d :: ds)) :: l)
| ss_at name condition body bl items l :
    scope_says rho body bl -> scope_says rho items l ->
    scope_says rho (IAt name condition body :: items)
                   (CRule [condition_text rho name condition] bl :: l)
| ss_rule selectors groups body bl items l :
    comma_groups selectors groups ->
    block_says rho body bl -> scope_says rho items l ->
    scope_says rho (IRule selectors body :: items)
                   (CBlock (map (fun g => [text rho g]) groups) bl :: l).

Definition as_rbc (c : scope_content) : rbc :=
  match c with SBlock cond l => CBlock cond l | SRule cond l => CRule cond l end.
Definition sheet_says (rho : env) (items : list css_item) (s : sheet) : Prop :=
  scope_says rho items (map as_rbc s).

(** ** Braces out of place *)

(** No braces but [${ .. }]. *)
Inductive brace_free : list rtok -> Prop :=
| bf_nil : brace_free []
| bf_expr j g l : brace_free l -> brace_free (RPunct (ch "$") j :: RGroup Brace g :: l)
| bf_group d g l : d <> Brace -> brace_free g -> brace_free l -> brace_free (RGroup d g :: l)
| bf_token t l : (forall d g, t <> RGroup d g) -> brace_free l -> brace_free (t :: l).
(** No braces but [${ .. }] inside of parentheses and brackets. *)
Inductive braces_outside : list rtok -> Prop :=
| bo_nil : braces_outside []
| bo_expr j g l : braces_outside l -> braces_outside (RPunct (ch "$") j :: RGroup Brace g :: l)
| bo_body g l : braces_outside g -> braces_outside l -> braces_outside (RGroup Brace g :: l)
| bo_group d g l : d <> Brace -> brace_free g -> braces_outside l -> braces_outside (RGroup d g :: l)
| bo_token t l : (forall d g, t <> RGroup d g) -> braces_outside l -> braces_outside (t :: l).

(** ** Spaces between the tokens written *)

Inductive ends_compound : out_frag -> Prop :=
| ec_close d : ends_compound (FDelim d false)
| ec_ident i : ends_compound (FToken (PIdent i))
| ec_literal t : ends_compound (FToken (PLiteral t))
| ec_punct c j : one_of "&*" c -> ends_compound (FToken (PPunct c j)).
Inductive starts_compound : out_frag -> Prop :=
| sc_ident i : starts_compound (FToken (PIdent i))
| sc_literal t : starts_compound (FToken (PLiteral t))
| sc_punct c j : one_of "*#" c -> starts_compound (FToken (PPunct c j)).

(** [spaced_out l r]: [r] is [l] with a space between two neighbours iff the first ends and the
    second starts a compound. *)
Inductive spaced_out : list out_frag -> list out_frag -> Prop :=
| sp_none : spaced_out [] []
| sp_last x : spaced_out [x] [x]
| sp_space x y l r :
    ends_compound x -> starts_compound y -> spaced_out (y :: l) r ->
    spaced_out (x :: y :: l) (x :: FStr (lit " ") :: r)
| sp_tight x y l r :
    ~ (ends_compound x /\ starts_compound y) -> spaced_out (y :: l) r ->
    spaced_out (x :: y :: l) (x :: r).
