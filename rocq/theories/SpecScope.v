(** * SpecScope: what the names in the body of a function refer to.

    Rust's rules for local variables, on tokens: [let x = ..;] is in scope after its semicolon, up
    to the end of the group it is in, and hides an earlier [x]; names are the same if both the
    text and the hygiene are ([Attr.site]).  What is written in a macro of [macro_rules!] refers to
    what is in scope where the macro is defined; a macro is in scope from its definition to the end of
    the group.  Every identifier is looked up, also those that are no variables; patterns other
    than [x] and [mut x] bind nothing here. *)

From Coq Require Import String Ascii List NArith Bool Arith.
From Verif Require Import Str Tok Attr.
Import ListNotations.
Local Open Scope list_scope.

(** The text of tokens, with a space after every identifier and literal. *)
Fixpoint text (t : htok) : str :=
  match t with
  | HIdent s _ | HLit s => s ++ lit " "
  | HPunct c _ => [c]
  | HGroup d l =>
      let inside := flat_map text l in
      match d with
      | Brace => lit "{" ++ inside ++ lit "}"
      | Bracket => lit "[" ++ inside ++ lit "]"
      | Paren => lit "(" ++ inside ++ lit ")"
      end
  end.
Definition texts (l : list htok) : str := flat_map text l.

Definition hname := (str * site)%type.
Definition hname_eqb (a b : hname) : bool := str_eqb (fst a) (fst b) && site_eqb (snd a) (snd b).

(** A name and what it refers to: the how manieth binding of that name, in the order of the text.
    A call of a macro with what stands in it; [None] if it is not defined in the function. *)
Inductive event :=
| EUse (n : hname) (binding : option nat)
| ECall (m : str) (def : option (list event)).

(** What the tokens before mean for the next one. *)
Inductive last := LNone | LLet | LIdent (s : str) | LBang (s : str) | LMacro (name : str).

Record scope := mk_scope
  { vars : list (hname * nat); macros : list (str * list event); pending : list hname;
    made : list hname; before : last }.

Fixpoint lookup {A B} (eqb : A -> A -> bool) (k : A) (l : list (A * B)) : option B :=
  match l with [] => None | (k', v) :: l' => if eqb k k' then Some v else lookup eqb k l' end.

Definition count (n : hname) (l : list hname) : nat := List.length (filter (hname_eqb n) l).

(** At a semicolon what was declared comes into scope. *)
Definition settle (s : scope) : scope :=
  fold_right (fun n s => mk_scope ((n, count n (made s)) :: vars s) (macros s) [] (n :: made s) LNone)
             (mk_scope (vars s) (macros s) [] (made s) LNone) (pending s).

(** At the end of a group its variables and macros go out of scope. *)
Definition leave_group (outer inner : scope) : scope :=
  mk_scope (vars outer) (macros outer) (pending outer) (made inner) LNone.

Definition at_ident (n : str) (h : site) (s : scope) : scope :=
  let to l := mk_scope (vars s) (macros s) (pending s) (made s) l in
  match before s with
  | LLet => if str_eqb n (lit "mut") then s
            else mk_scope (vars s) (macros s) ((n, h) :: pending s) (made s) (LIdent n)
  | LBang m => if str_eqb m (lit "macro_rules") then to (LMacro n)
               else if str_eqb n (lit "let") then to LLet else to (LIdent n)
  | _ => if str_eqb n (lit "let") then to LLet else to (LIdent n)
  end.

Definition at_punct (c : char) (s : scope) : scope :=
  let to l := mk_scope (vars s) (macros s) (pending s) (made s) l in
  if char_eqb c (ch ";") then settle s
  else match before s with
       | LIdent n => if char_eqb c (ch "!") then to (LBang n) else to LNone
       | _ => to LNone
       end.

(** Inside of a group nothing is declared yet. *)
Definition enter (s : scope) : scope := mk_scope (vars s) (macros s) [] (made s) LNone.

(** What a group means: the definition of a macro, the arguments of one, or just a group. *)
Definition at_group (s : scope) (inner : scope * list event) : scope * list event :=
  let (s1, es) := inner in
  match before s with
  | LMacro m => (mk_scope (vars s) ((m, es) :: macros s) (pending s) (made s) LNone, [])
  | LBang m => (leave_group s s1, ECall m (lookup str_eqb m (macros s)) :: es)
  | _ => (leave_group s s1, es)
  end.

Fixpoint walk (t : htok) (s : scope) : scope * list event :=
  match t with
  | HIdent n h => (at_ident n h s, [EUse (n, h) (lookup hname_eqb (n, h) (vars s))])
  | HPunct c _ => (at_punct c s, [])
  | HLit _ => (mk_scope (vars s) (macros s) (pending s) (made s) LNone, [])
  | HGroup _ l =>
      at_group s ((fix go (l : list htok) (s : scope) : scope * list event :=
                     match l with
                     | [] => (s, [])
                     | t :: l' => let (s1, es) := walk t s in let (s2, es') := go l' s1 in (s2, es ++ es')
                     end) l (enter s))
  end.
Fixpoint walks (l : list htok) (s : scope) : scope * list event :=
  match l with
  | [] => (s, [])
  | t :: l' => let (s1, es) := walk t s in let (s2, es') := walks l' s1 in (s2, es ++ es')
  end.

(** The scope at the begin of a function with these parameters. *)
Definition params (l : list str) : scope :=
  settle (mk_scope [] [] (map (fun n => (n, CallSite)) l) [] LNone).

(** What the body of a function refers to. *)
Definition body_events (ps : list str) (body : list htok) : list event :=
  snd (walk (HGroup Brace body) (params ps)).
