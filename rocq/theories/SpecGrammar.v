(** * SpecGrammar: the style syntax as documented, with arbitrary layout.

    [writes_sheet text sheet]: [text] is a way of writing [sheet].  Blank space (white space
    and comments, [SpecSays.blank]) may be put around every declaration, key, value, selector,
    at-rule and brace; the exceptions are spelled out in the comments below.  Written without
    reference to the parser model.

    Lexical atoms: double-quoted strings and [${name}] interpolations. *)

From Coq Require Import String Ascii List NArith Bool.
From Verif Require Import Str Ast SpecSays.
Import ListNotations.
Local Open Scope list_scope.

Definition ws (w : str) : Prop := Forall (fun c => In c css_ws) w.

Definition atom (t : str) : Prop := string_text t \/ interp_text t.

(** Text of a value: any chars but [$ { ; } /] and double quotes, slashes not starting a comment, atoms. *)
Inductive value_text : str -> Prop :=
| vt_nil : value_text []
| vt_plain c v : ~ In c (lit "${;}/" ++ [34%N]) -> value_text v -> value_text (c :: v)
| vt_slash c v : ~ In c (lit "${;}*" ++ [34%N]) -> value_text v -> value_text (ch "/" :: c :: v)
| vt_atom s v : atom s -> value_text v -> value_text (s ++ v).

(** Text of a selector: any chars but [$ , { } @ ; /] and double quotes, slashes not starting a comment; and atoms. *)
Inductive sel_text : str -> Prop :=
| st_nil : sel_text []
| st_plain c v : ~ In c (lit "$,{}@;/" ++ [34%N]) -> sel_text v -> sel_text (c :: v)
| st_slash c v : ~ In c (lit "$,{}@;*" ++ [34%N]) -> sel_text v -> sel_text (ch "/" :: c :: v)
| st_atom s v : atom s -> sel_text v -> sel_text (s ++ v).

(** Text of an at-rule condition: any chars but [$ {]; with interpolations, no [/] either. *)
Inductive cond_pieces : str -> Prop :=
| ct_nil : cond_pieces []
| ct_plain c v : ~ In c (lit "${/") -> cond_pieces v -> cond_pieces (c :: v)
| ct_interp s v : interp_text s -> cond_pieces v -> cond_pieces (s ++ v).
Definition cond_text (t : str) : Prop :=
  Forall (fun c => ~ In c (lit "${")) t \/ cond_pieces t.

(** No white space at either end (in the sense of Rust's [trim]), and not empty. *)
Definition tight (t : str) : Prop := t <> [] /\ trim t = t.

(** [key : value].  After a value that ends with an atom only white space may follow, not a
    comment (the library takes such a comment into the value). *)
Definition writes_decl (t : str) (a : attr) : Prop :=
  exists w0 k w1 w2 v w3,
    t = w0 ++ k ++ w1 ++ lit ":" ++ w2 ++ v ++ w3
    /\ blank w0 /\ blank w1 /\ blank w2 /\ blank w3
    /\ name k /\ trim k = k
    /\ value_text v /\ tight v
    /\ (forall u c, v = u ++ [c] -> In c (lit "}" ++ [34%N]) -> ws w3)
    /\ a = mk_attr k [v].

(** [sel, sel, ...].  Blank space before a selector, white space after it (a comment after a
    selector is taken into the selector). *)
Inductive writes_sels : str -> list selector -> Prop :=
| wsel_one w s v : blank w -> sel_text s -> tight s -> ws v -> writes_sels (w ++ s ++ v) [[s]]
| wsel_cons w s v t l :
    blank w -> sel_text s -> tight s -> ws v -> writes_sels t l ->
    writes_sels (w ++ s ++ v ++ lit "," ++ t) ([s] :: l).

(** [@name condition].  Exactly one of the listed names, a space, white space, the condition,
    white space. *)
Definition writes_at (names : list str) (t : str) (cond : list str) : Prop :=
  exists w n v c v',
    t = w ++ n ++ lit " " ++ v ++ c ++ v' /\ blank w /\ In n names /\ ws v /\ ws v'
    /\ cond_text c /\ tight c /\ cond = [n ++ lit " "; c].

(** Contents of a rule inside a block or keyframes: declarations separated by semicolons
    (the last one may be omitted before the closing brace), and conditional rules.
    Nothing at all when empty (blank space between the braces of an empty nested rule is
    rejected by the library: see C16). *)
Inductive writes_content : str -> list rbc -> Prop :=
| wc_nil : writes_content [] []
| wc_last t a : writes_decl t a -> writes_content t [CAttr a]
| wc_decl t a w t' c :
    writes_decl t a -> blank w -> writes_content t' c ->
    writes_content (t ++ lit ";" ++ w ++ t') (CAttr a :: c)
| wc_rule t cond body content w' t' c :
    writes_at group_names t cond -> writes_content body content -> blank w' ->
    writes_content t' c ->
    writes_content (t ++ lit "{" ++ body ++ lit "}" ++ w' ++ t') (CRule cond content :: c).

(** Declarations outside braces: each ends with a semicolon. *)
Inductive writes_dangling : str -> list attr -> Prop :=
| wd_one t a w : writes_decl t a -> blank w -> writes_dangling (t ++ lit ";" ++ w) [a]
| wd_cons t a w t' l :
    writes_decl t a -> blank w -> writes_dangling t' l ->
    writes_dangling (t ++ lit ";" ++ w ++ t') (a :: l).

(** A frame of a keyframes rule: its condition is the text of its selector list. *)
Definition writes_frame (t : str) (r : rbc) : Prop :=
  exists w ct l v body content w',
    t = w ++ ct ++ v ++ lit "{" ++ body ++ lit "}" ++ w'
    /\ blank w /\ writes_sels (ct ++ v) l /\ tight ct /\ hd_error ct <> Some (ch "/") /\ ws v
    /\ writes_content body content /\ blank w'
    /\ r = CRule [ct] content.

(** A selector that starts like a declaration, such as [a:hover]. *)
Definition starts_like_decl (s : str) : Prop :=
  exists k w r, s = k ++ w ++ lit ":" ++ r /\ name k /\ ws w.

(** Contents of a sheet or of a top-level conditional rule.  The flag says that declarations
    outside braces come directly before: they are followed by something else than
    declarations (which would belong to the same group), and not by a selector that starts
    like a declaration (see C14). *)
Inductive writes_scope : bool -> str -> list scope_content -> Prop :=
| wsc_nil after : writes_scope after [] []
| wsc_dangling t l t' c :
    writes_dangling t l -> writes_scope true t' c ->
    writes_scope false (t ++ t') (SBlock [] (map CAttr l) :: c)
| wsc_block after t sels w body content w' t' c :
    writes_sels t sels ->
    (after = true -> forall s, hd_error sels = Some [s] -> ~ starts_like_decl s) ->
    blank w -> writes_content body content -> blank w' ->
    writes_scope false t' c ->
    writes_scope after (t ++ lit "{" ++ w ++ body ++ lit "}" ++ w' ++ t')
                 (SBlock sels content :: c)
| wsc_rule after t cond w body content w' t' c :
    writes_at group_names t cond -> blank w -> writes_scope false body content -> blank w' ->
    writes_scope false t' c ->
    writes_scope after (t ++ lit "{" ++ w ++ body ++ lit "}" ++ w' ++ t')
                 (SRule cond (map rbc_of_scope content) :: c)
| wsc_keyframes after t cond body frames w' t' c :
    writes_at [lit "@keyframes"] t cond -> star writes_frame body frames -> blank w' ->
    writes_scope false t' c ->
    writes_scope after (t ++ lit "{" ++ body ++ lit "}" ++ w' ++ t') (SRule cond frames :: c).

Definition writes_sheet (t : str) (s : sheet) : Prop :=
  exists w t', t = w ++ t' /\ blank w /\ writes_scope false t' s.
