(** * Tok: Rust token trees, as procedural macros receive them.

    [proc_macro2::TokenTree]: an identifier (with its source text), a punctuation char with its
    [Spacing], a literal with its source text, or a delimited group.  Spans are dropped, except
    that no two tokens are ever compared by them.  Invisible ([Delimiter::None]) groups, which
    only come from other macros' expansions, are left out. *)

From Coq Require Import String Ascii List NArith Bool Arith.
From Verif Require Import Str.
Import ListNotations.
Local Open Scope list_scope.

(** [proc_macro2::Delimiter] without [None]. *)
Inductive delim := Brace | Bracket | Paren.

Inductive rtok :=
| RIdent (s : str)
| RPunct (c : char) (joint : bool)
| RLit (text : str)
| RGroup (d : delim) (l : list rtok).

(** The source of an expression interpolated into a macro. *)
Definition code := list rtok.

(** [syn::Expr], as far as the macros look into it: a plain string literal (with its value), or
    anything else. *)
Inductive expr := ELitStr (value : str) | ECode (c : code).

(** The number of tokens, inside groups too. *)
Fixpoint tok_size (t : rtok) : nat :=
  match t with
  | RGroup _ l => S (fold_right (fun t n => tok_size t + n) 0 l)
  | _ => 1
  end.
Definition toks_size (l : list rtok) : nat := fold_right (fun t n => tok_size t + n) 0 l.

(** [is_comma] and [is_equal], literal/mod.rs 39-51. *)
Definition is_punct (c : char) (t : rtok) : bool :=
  match t with RPunct d _ => char_eqb c d | _ => false end.
