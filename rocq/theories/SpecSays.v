(** * SpecSays: what an accepted style sheet text is made of.

    [says_sheet text sheet]: every char of [text] is accounted for: it belongs to a property
    name, a value, a selector, a condition, to the punctuation around them, or to blank space
    (white space and comments).  Written without reference to the parser model. *)

From Coq Require Import String Ascii List NArith Bool.
From Verif Require Import Str Ast.
Import ListNotations.
Local Open Scope list_scope.

(** Juxtaposition of any number of texts related to values by [R]. *)
Inductive star {A} (R : str -> A -> Prop) : str -> list A -> Prop :=
| star_nil : star R [] []
| star_cons t a t' l : R t a -> star R t' l -> star R (t ++ t') (a :: l).

(** Blank space: the white space chars of CSS (without form feed) and comments. *)
Definition css_ws : str := [32%N; 9%N; 13%N; 10%N].
Inductive blank : str -> Prop :=
| blank_nil : blank []
| blank_ws c w : In c css_ws -> blank w -> blank (c :: w)
| blank_comment body w :
    ~ (exists a b, body = a ++ lit "*/" ++ b) -> blank w ->
    blank (lit "/*" ++ body ++ lit "*/" ++ w).

Definition padded {A} (R : str -> A -> Prop) (t : str) (a : A) : Prop :=
  exists w u w', t = w ++ u ++ w' /\ blank w /\ blank w' /\ R u a.

(** Identifiers. *)
Definition name_start (c : char) : Prop :=
  c = ch "-" \/ c = ch "_" \/ is_ascii_alpha c = true \/ (128 <= c)%N.
Definition name_char (c : char) : Prop := name_start c \/ is_ascii_digit c = true.
Definition name (t : str) : Prop :=
  exists c r, t = c :: r /\ name_start c /\ Forall name_char r.

(** Quoted strings (double quotes only), with backslash escapes. *)
Inductive string_body : str -> Prop :=
| sb_nil : string_body []
| sb_char c b : c <> 92%N -> c <> 34%N -> string_body b -> string_body (c :: b)
| sb_escape c b : string_body b -> string_body (92%N :: c :: b).
Definition string_text (t : str) : Prop :=
  exists b, t = [34%N] ++ b ++ [34%N] /\ string_body b.

(** Interpolations [${name}] (kept verbatim by the run-time parser). *)
Definition interp_name (t : str) : Prop :=
  exists c r, t = c :: r /\ is_ascii_alpha c = true
              /\ Forall (fun x => is_ascii_alnum x = true \/ x = ch "_") r.
Definition interp_text (t : str) : Prop :=
  exists w n w', t = lit "${" ++ w ++ n ++ w' ++ lit "}" /\ blank w /\ blank w' /\ interp_name n.

Definition run_of (f : char -> Prop) (t : str) : Prop := t <> [] /\ Forall f t.
Definition blank_around (P : str -> Prop) (t : str) : Prop := padded (fun u _ => P u) t tt.

(** Non-empty sequences of pieces. *)
Definition pieces (P : str -> Prop) (t : str) : Prop :=
  exists l, l <> [] /\ Forall P l /\ t = List.concat l.

Definition value_piece (t : str) : Prop :=
  run_of (fun c => ~ In c (lit "${;}/" ++ [34%N])) t
  \/ blank_around string_text t
  \/ blank_around interp_text t
  \/ exists c, t = [ch "/"; c] /\ ~ In c (lit "${;}*" ++ [34%N]).

Definition selector_piece (t : str) : Prop :=
  (exists c r, t = c :: r /\ ~ In c (lit "$,}@{" ++ [34%N])
               /\ Forall (fun x => ~ In x (lit "$,{" ++ [34%N])) r)
  \/ blank_around string_text t
  \/ blank_around interp_text t.

Definition condition_piece (t : str) : Prop :=
  run_of (fun c => ~ In c (lit "${")) t \/ blank_around interp_text t.

(** [key: value] *)
Definition decl_text (t : str) (a : attr) : Prop :=
  exists kt k vt v,
    t = kt ++ lit ":" ++ vt
    /\ padded (fun u x => u = x /\ name u) kt k
    /\ padded (fun u x => u = x /\ pieces value_piece u) vt v
    /\ a = mk_attr (trim k) [trim v].

(** Declarations separated by semicolons; a final semicolon is required when the flag is
    set, optional otherwise. *)
Inductive says_decls (final : bool) : str -> list attr -> Prop :=
| sd_last t a : final = false -> padded decl_text t a -> says_decls final t [a]
| sd_last_semi t a w : padded decl_text t a -> blank w ->
    says_decls final (t ++ lit ";" ++ w) [a]
| sd_cons t a t' l : padded decl_text t a -> says_decls final t' l ->
    says_decls final (t ++ lit ";" ++ t') (a :: l).

(** One selector. *)
Definition selector_text (t : str) (s : selector) : Prop :=
  exists u, padded (fun x y => x = y /\ pieces selector_piece x) t u /\ s = [trim u].
(** A selector list; each selector may be followed by a comma. *)
Definition selector_list (t : str) (l : list selector) : Prop :=
  l <> [] /\
  padded (star (fun u s => exists u' comma, u = u' ++ comma /\ selector_text u' s
                                        /\ (comma = [] \/ comma = lit ","))) t l.

(** [@name condition], giving the two fragments "@name " and "condition". *)
Definition at_text (names : list str) (t : str) (cond : list str) : Prop :=
  exists w n c w', t = w ++ n ++ lit " " ++ c ++ w' /\ blank w /\ blank w' /\ In n names
                   /\ pieces condition_piece c /\ cond = [n ++ lit " "; trim c].

Definition group_names : list str := [lit "@media"; lit "@supports"; lit "@container"].

(** The content of a block: declarations and conditional rules. *)
Inductive says_content : str -> list rbc -> Prop :=
| sc_end w : blank w -> says_content w []
| sc_decls t l t' c :
    says_decls false t l -> says_content t' c -> says_content (t ++ t') (map CAttr l ++ c)
| sc_rule w t cond body content w' t' c :
    blank w -> at_text group_names t cond -> says_content body content -> blank w' ->
    says_content t' c ->
    says_content (w ++ t ++ lit "{" ++ body ++ lit "}" ++ w' ++ t') (CRule cond content :: c).

(** A frame of a keyframes rule. *)
Definition frame_text (t : str) (r : rbc) : Prop :=
  exists w ct body content w',
    t = w ++ ct ++ lit "{" ++ body ++ lit "}" ++ w' /\ blank w /\ blank w'
    /\ (exists l, selector_list ct l)
    /\ says_content body content
    /\ r = CRule [trim ct] content.

(** The content of a sheet or of a top-level conditional rule. *)
Inductive says_scope : str -> list scope_content -> Prop :=
| ss_end w : blank w -> says_scope w []
| ss_decls t l t' c :
    says_decls true t l -> says_scope t' c ->
    says_scope (t ++ t') (SBlock [] (map CAttr l) :: c)
| ss_block w t sels body content w' t' c :
    blank w -> selector_list t sels -> says_content body content -> blank w' ->
    says_scope t' c ->
    says_scope (w ++ t ++ lit "{" ++ body ++ lit "}" ++ w' ++ t') (SBlock sels content :: c)
| ss_rule w t cond body content w' t' c :
    blank w -> at_text group_names t cond -> says_scope body content -> blank w' ->
    says_scope t' c ->
    says_scope (w ++ t ++ lit "{" ++ body ++ lit "}" ++ w' ++ t')
               (SRule cond (map rbc_of_scope content) :: c)
| ss_keyframes w t cond body frames w' t' c :
    blank w -> at_text [lit "@keyframes"] t cond -> star frame_text body frames -> blank w' ->
    says_scope t' c ->
    says_scope (w ++ t ++ lit "{" ++ body ++ lit "}" ++ w' ++ t') (SRule cond frames :: c).

Definition says_sheet : str -> sheet -> Prop := says_scope.

(** ** White space and what trimming it means *)

(** The chars with the Unicode property [White_Space], one by one (PropList.txt). *)
Definition white_space : list char :=
  [9; 10; 11; 12; 13; 32; 133; 160; 5760;
   8192; 8193; 8194; 8195; 8196; 8197; 8198; 8199; 8200; 8201; 8202;
   8232; 8233; 8239; 8287; 12288]%N.

(** [t] is what is left of [s] without the white space at both ends. *)
Definition trims_to (s t : str) : Prop :=
  exists a b, s = a ++ t ++ b
    /\ Forall (fun c => In c white_space) a /\ Forall (fun c => In c white_space) b
    /\ (forall c u, t = c :: u -> ~ In c white_space)
    /\ (forall c u, t = u ++ [c] -> ~ In c white_space).

(** ** The shape of parsed sheets (C12) *)

(** A property name: an identifier without the Unicode white space around it. *)
Definition key_shape (k : str) : Prop := exists u, name u /\ k = trim u.

(** A value: one fragment, made of value pieces, without white space around it. *)
Definition attr_shape (a : attr) : Prop :=
  key_shape (a_key a) /\ exists u, a_value a = [trim u] /\ pieces value_piece u.

(** The condition of a conditional rule: two fragments, "@name " and the rest. *)
Definition cond_shape (names : list str) (cond : list str) : Prop :=
  exists n u, In n names /\ cond = [n ++ lit " "; trim u] /\ pieces condition_piece u.

Inductive content_shape : rbc -> Prop :=
| cs_attr a : attr_shape a -> content_shape (CAttr a)
| cs_rule cond l : cond_shape group_names cond -> Forall content_shape l ->
    content_shape (CRule cond l).

Definition selector_shape (s : selector) : Prop :=
  exists u, s = [trim u] /\ pieces selector_piece u.

Inductive frame_shape : rbc -> Prop :=
| fs_frame c l : (exists sels, selector_list c sels) -> Forall content_shape l -> frame_shape (CRule [trim c] l).

Inductive scope_shape : rbc -> Prop :=
| sh_dangling l : l <> [] -> Forall attr_shape l -> scope_shape (CBlock [] (map CAttr l))
| sh_block sels l : sels <> [] -> Forall selector_shape sels -> Forall content_shape l ->
    scope_shape (CBlock sels l)
| sh_rule cond l : cond_shape group_names cond -> Forall scope_shape l ->
    scope_shape (CRule cond l)
| sh_keyframes cond l : cond_shape [lit "@keyframes"] cond -> Forall frame_shape l ->
    scope_shape (CRule cond l).

Definition sheet_shape (s : sheet) : Prop := Forall (fun c => scope_shape (rbc_of_scope c)) s.
