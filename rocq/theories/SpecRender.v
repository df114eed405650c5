(** * SpecRender: what the rendered CSS must say.

    This file does not use the renderer model.  It contains
    - the meaning of a sheet: the list of its declarations with their full paths;
    - a small CSS reader working on the text alone;
    - the lexical side conditions ("closed" fragments). *)

From Coq Require Import String Ascii List NArith Bool Arith.
From Verif Require Import Str Ast.
Import ListNotations.
Local Open Scope list_scope.

(** ** What a sheet means *)

(** What reading a style sheet yields: a block is entered (with the full path of the
    conditions now open, outermost first) or a declaration is read under a path. *)
Inductive item :=
| IOpen (path : list str)
| IDecl (path : list str) (key value : str).

Definition is_decl (i : item) : bool :=
  match i with IDecl _ _ _ => true | IOpen _ => false end.
Definition decls (l : list item) : list item := filter is_decl l.

Definition opt_list {A} (o : option A) : list A :=
  match o with Some x => [x] | None => [] end.

(** The selector that stands for the element carrying the generated class
    ([:root] for a global style). *)
Definition self_selector (class : option str) : str :=
  match class with Some c => lit "." ++ c | None => lit ":root" end.

(** How one selector is scoped (the documented rules of [Style] and [GlobalStyle]):
    - [&] and [:root] stand for the element carrying the class;
    - otherwise a pseudo class is applied to that element, any other selector selects
      among its descendants;
    - in a global style [&] is [:root] and everything else is kept. *)
Definition scoped (class : option str) (sel : str) : str :=
  match class with
  | None => replace_char (ch "&") (lit ":root") sel
  | Some c =>
      if contains_char (ch "&") sel || contains_str (lit ":root") sel
      then replace_str (lit ":root") (lit "." ++ c) (replace_char (ch "&") (lit "." ++ c) sel)
      else if starts_with (lit ":") sel then lit "." ++ c ++ sel
      else lit "." ++ c ++ lit " " ++ sel
  end.

(** The selector in force inside a block: its own selector list, or, for a block without
    selectors, the selector around it, or the class itself. *)
Definition block_sel (class : option str) (outer : option str) (cond : list selector) : str :=
  match cond, outer with
  | _ :: _, _ => join (lit ", ") (map (fun s => scoped class (List.concat s)) cond)
  | [], Some s => s
  | [], None => self_selector class
  end.

(** The declarations of a content, in document order, each with its path: the at-rule
    conditions around it, then the selector in force. *)
Fixpoint decls_of (class : option str) (rules : list str) (sel : option str) (c : rbc)
  : list item :=
  match c with
  | CAttr a => [IDecl (rules ++ opt_list sel) (a_key a) (List.concat (a_value a))]
  | CRule cond content => flat_map (decls_of class (rules ++ [List.concat cond]) sel) content
  | CBlock cond content => flat_map (decls_of class rules (Some (block_sel class sel cond))) content
  end.

Definition sheet_decls (class : option str) (s : sheet) : list item :=
  flat_map (fun c => decls_of class [] None (rbc_of_scope c)) s.

(** ** A CSS reader *)

(** Lexical modes: plain text, after a backslash, inside a string quoted by [q], after a
    backslash in such a string, after a slash, inside a comment, after a star in a comment. *)
Inductive mode := MPlain | MEsc | MStr (q : char) | MStrEsc (q : char) | MSlash | MCom | MComStar.

Definition quote_chars : str := [34%N; 39%N].
Definition backslash : char := 92%N.

Definition step_plain (c : char) : mode :=
  if char_eqb c backslash then MEsc
  else if mem c quote_chars then MStr c
  else if char_eqb c (ch "/") then MSlash
  else MPlain.

Definition step (m : mode) (c : char) : mode :=
  match m with
  | MPlain => step_plain c
  | MSlash => if char_eqb c (ch "*") then MCom else step_plain c
  | MEsc => MPlain
  | MStr q => if char_eqb c backslash then MStrEsc q
              else if char_eqb c q then MPlain else MStr q
  | MStrEsc q => MStr q
  | MCom => if char_eqb c (ch "*") then MComStar else MCom
  | MComStar => if char_eqb c (ch "/") then MPlain
                else if char_eqb c (ch "*") then MComStar else MCom
  end.

(** In which modes [{], [}] and [;] have their structural meaning. *)
Definition structural (m : mode) : bool :=
  match m with MPlain | MSlash => true | _ => false end.

(** Split at the first colon. *)
Fixpoint split_colon (s : str) : option (str * str) :=
  match s with
  | [] => None
  | c :: s' =>
      if char_eqb c (ch ":") then Some ([], s')
      else match split_colon s' with Some (k, v) => Some (c :: k, v) | None => None end
  end.

(** [read m buf stack text]: [buf] is the text since the last structural char, [stack] the
    open conditions, outermost first. *)
Fixpoint read (m : mode) (buf : str) (stack : list str) (text : str) : option (list item) :=
  match text with
  | [] =>
      match m, trim buf, stack with
      | MPlain, [], [] => Some []
      | _, _, _ => None
      end
  | c :: text' =>
      if structural m && char_eqb c (ch "{") then
        let stack' := stack ++ [trim buf] in
        option_map (cons (IOpen stack')) (read MPlain [] stack' text')
      else if structural m && char_eqb c (ch "}") then
        match trim buf, stack with
        | [], _ :: _ => read MPlain [] (removelast stack) text'
        | _, _ => None
        end
      else if structural m && char_eqb c (ch ";") then
        match split_colon buf with
        | Some (k, v) => option_map (cons (IDecl stack (trim k) (trim v)))
                                    (read MPlain [] stack text')
        | None => None
        end
      else read (step m c) (buf ++ [c]) stack text'
  end.

Definition read_css (text : str) : option (list item) := read MPlain [] [] text.

(** ** Side conditions *)

(** Scanning a fragment: the mode at its end, or [None] if it contains a structural
    [{], [}] or [;]. *)
Fixpoint scan (m : mode) (s : str) : option mode :=
  match s with
  | [] => Some m
  | c :: s' =>
      if structural m && mem c (lit "{};") then None else scan (step m c) s'
  end.

(** A lexically closed fragment: its strings, escapes and comments end inside it and it
    contains no structural [{], [}], [;]. *)
Definition closed (s : str) : Prop := scan MPlain s = Some MPlain.

(** Chars without lexical meaning, as in generated class names. *)
Definition boring (c : char) : bool :=
  negb (mem c [backslash; 34%N; 39%N; ch "/"; ch "*"; ch "{"; ch "}"; ch ";"]).
Definition boring_class (class : option str) : Prop :=
  match class with Some c => forallb boring c = true | None => True end.

Definition closed_attr (a : attr) : Prop :=
  closed (a_key a) /\ ~ In (ch ":") (a_key a) /\ closed (List.concat (a_value a)).

Fixpoint closed_rbc (c : rbc) : Prop :=
  match c with
  | CAttr a => closed_attr a
  | CRule cond content =>
      closed (List.concat cond)
      /\ (fix all l := match l with [] => True | c :: l' => closed_rbc c /\ all l' end) content
  | CBlock cond content =>
      Forall (fun s => closed (List.concat s)) cond
      /\ (fix all l := match l with [] => True | c :: l' => closed_rbc c /\ all l' end) content
  end.
Definition closed_sheet (s : sheet) : Prop := Forall (fun c => closed_rbc (rbc_of_scope c)) s.

(** Reading trims what is between the structural chars. *)
Definition trim_item (i : item) : item :=
  match i with
  | IOpen p => IOpen (map trim p)
  | IDecl p k v => IDecl (map trim p) (trim k) (trim v)
  end.

(** Scanning braces only: [Some] depth at the end, [None] if some prefix closes more than
    it opened. *)
Fixpoint brace_depth (d : nat) (s : str) : option nat :=
  match s with
  | [] => Some d
  | c :: s' =>
      if char_eqb c (ch "{") then brace_depth (S d) s'
      else if char_eqb c (ch "}") then
        match d with O => None | S d' => brace_depth d' s' end
      else brace_depth d s'
  end.
Definition balanced (s : str) : Prop := brace_depth 0 s = Some 0.

Definition brace_free (s : str) : Prop := ~ In (ch "{") s /\ ~ In (ch "}") s.

Fixpoint brace_free_rbc (c : rbc) : Prop :=
  match c with
  | CAttr a => brace_free (a_key a) /\ Forall brace_free (a_value a)
  | CRule cond content =>
      Forall brace_free cond
      /\ (fix all l := match l with [] => True | c :: l' => brace_free_rbc c /\ all l' end) content
  | CBlock cond content =>
      Forall (Forall brace_free) cond
      /\ (fix all l := match l with [] => True | c :: l' => brace_free_rbc c /\ all l' end) content
  end.
Definition brace_free_class (class : option str) : Prop :=
  match class with Some c => brace_free c | None => True end.
Definition brace_free_sheet (s : sheet) : Prop :=
  Forall (fun c => brace_free_rbc (rbc_of_scope c)) s.

(** ** Canonical layout *)

(** The lines of a rendered sheet. *)
Inductive line := LOpen (cond : str) | LClose | LDecl (key value : str).

(** One line per opened condition, closing brace and declaration, four spaces per level. *)
Fixpoint layout (depth : nat) (ls : list line) : str :=
  match ls with
  | [] => []
  | LOpen c :: ls' => spaces (4 * depth) ++ c ++ lit " {" ++ nl ++ layout (S depth) ls'
  | LClose :: ls' => spaces (4 * (depth - 1)) ++ lit "}" ++ nl ++ layout (depth - 1) ls'
  | LDecl k v :: ls' => spaces (4 * depth) ++ k ++ lit ": " ++ v ++ lit ";" ++ nl ++ layout depth ls'
  end.

(** Running the lines on a stack of open conditions: the final stack and what was read. *)
Fixpoint run (stack : list str) (ls : list line) : option (list str * list item) :=
  match ls with
  | [] => Some (stack, [])
  | LOpen c :: ls' =>
      match run (stack ++ [c]) ls' with
      | Some (st, is) => Some (st, IOpen (stack ++ [c]) :: is)
      | None => None
      end
  | LClose :: ls' =>
      match stack with [] => None | _ :: _ => run (removelast stack) ls' end
  | LDecl k v :: ls' =>
      match run stack ls' with
      | Some (st, is) => Some (st, IDecl stack k v :: is)
      | None => None
      end
  end.

(** Does the sheet contain a declaration or a keyframes rule? *)
Fixpoint silent (c : rbc) : bool :=
  match c with
  | CAttr _ => false
  | CRule cond content => negb (starts_with (lit "@keyframes") (List.concat cond)) && forallb silent content
  | CBlock _ content => forallb silent content
  end.
Definition silent_sheet (s : sheet) : bool := forallb (fun c => silent (rbc_of_scope c)) s.

(** The keyframes rules outside blocks, with their paths, in document order. *)
Fixpoint top_keyframes (rules : list str) (c : rbc) : list (list str) :=
  match c with
  | CRule cond content =>
      let path := rules ++ [List.concat cond] in
      (if starts_with (lit "@keyframes") (List.concat cond) then [path] else [])
      ++ flat_map (top_keyframes path) content
  | _ => []
  end.
Definition sheet_keyframes (s : sheet) : list (list str) :=
  flat_map (fun c => top_keyframes [] (rbc_of_scope c)) s.

(** ** Selector markers *)

(** A selector text as plain pieces separated by markers ([&] or [:root]). *)
Definition marker (m : str) : Prop := m = lit "&" \/ m = lit ":root".
Definition plain_piece (p : str) : Prop :=
  ~ In (ch "&") p /\ ~ (exists a b, p = a ++ lit ":root" ++ b).

(** [pieces] = [(p1, m1); (p2, m2); ...] and [last] stand for [p1 m1 p2 m2 ... last]. *)
Fixpoint weave (pieces : list (str * str)) (last : str) : str :=
  match pieces with
  | [] => last
  | (p, m) :: pieces' => p ++ m ++ weave pieces' last
  end.

Definition sub_text (s t : str) : Prop := exists a b, t = a ++ s ++ b.

(** At-rules around a content. *)
Fixpoint wrap_rules (conds : list (list str)) (c : rbc) : rbc :=
  match conds with
  | [] => c
  | cond :: conds' => CRule cond [wrap_rules conds' c]
  end.

(** Every declaration of the content is inside some block. *)
Fixpoint in_blocks (c : rbc) : bool :=
  match c with
  | CAttr _ => false
  | CRule _ content => forallb in_blocks content
  | CBlock _ _ => true
  end.

(** A quoted string. *)
Definition quoted (body : str) : str := [34%N] ++ body ++ [34%N].

Definition item_path (i : item) : list str := match i with IDecl p _ _ => p | IOpen p => p end.
