(** * SpecGuard: selectors that select nothing without an element of a class (C97). *)

From Coq Require Import String Ascii List NArith Bool Arith.
From Verif Require Import Str Ast Manager SpecRender.
Import ListNotations.
Local Open Scope list_scope.

(** Where a reader of a selector is: in a string with this quote or not, after a backslash or not,
    in how many parentheses and brackets, in a comment or not, and after the first char of what may
    start or end a comment or not. *)
Record place := mk_place
  { pl_quote : option char; pl_escape : bool; pl_depth : nat; pl_comment : bool; pl_half : bool }.
Definition top : place := mk_place None false 0 false false.

Definition next_place (p : place) (c : char) : place :=
  if pl_comment p then
    if pl_half p && char_eqb c (ch "/") then mk_place (pl_quote p) false (pl_depth p) false false
    else mk_place (pl_quote p) false (pl_depth p) true (char_eqb c (ch "*"))
  else if pl_escape p then mk_place (pl_quote p) false (pl_depth p) false false
  else if char_eqb c backslash then mk_place (pl_quote p) true (pl_depth p) false false
  else match pl_quote p with
       | Some q => mk_place (if char_eqb c q then None else Some q) false (pl_depth p) false false
       | None =>
           if mem c quote_chars then mk_place (Some c) false (pl_depth p) false false
           else if mem c (lit "([") then mk_place None false (S (pl_depth p)) false false
           else if mem c (lit ")]") then mk_place None false (pred (pl_depth p)) false false
           else if pl_half p && char_eqb c (ch "*") then mk_place None false (pl_depth p) true false
           else mk_place None false (pl_depth p) false (char_eqb c (ch "/"))
       end.
Definition place_after (s : str) : place := fold_left next_place s top.

(** What follows does not go on with a name.  (A backslash starts an escape, and a NUL stands for
    U+FFFD, which is a char of names.) *)
Definition name_ends (s : str) : Prop :=
  match s with
  | [] => True
  | c :: _ => ident_char c = false /\ c <> backslash /\ c <> 0%N
  end.

(** The selector has the class selector [.class] outside of strings, comments, parentheses and brackets.  A
    compound of it then has this class selector, so that it selects an element only if some element
    has the class: the element itself, or one that the combinators reach from it. *)
Definition guarded (class sel : str) : Prop :=
  exists a b, sel = a ++ lit "." ++ class ++ b /\ place_after a = top /\ name_ends b.

(** [&] or [:root] is written there. *)
Definition marked (sel : str) : Prop :=
  exists a m b, sel = a ++ m ++ b /\ marker m /\ place_after a = top /\ name_ends b.
Definition unmarked (sel : str) : Prop :=
  ~ exists a m b, sel = a ++ m ++ b /\ marker m.

(** All selectors of blocks are like this. *)
Fixpoint all_selectors (P : str -> Prop) (c : rbc) : Prop :=
  match c with
  | CAttr _ => True
  | CRule _ content => (fix all l := match l with [] => True | x :: l' => all_selectors P x /\ all l' end) content
  | CBlock sels content =>
      Forall (fun s => P (List.concat s)) sels
      /\ (fix all l := match l with [] => True | x :: l' => all_selectors P x /\ all l' end) content
  end.

(** ** What a list of selectors selects *)

Definition is_top (p : place) : bool :=
  match pl_quote p with None => true | _ => false end
  && negb (pl_escape p) && Nat.eqb (pl_depth p) 0 && negb (pl_comment p) && negb (pl_half p).

(** The selectors of a list: the texts between its commas, but for those in strings, comments,
    parentheses and brackets. *)
Fixpoint split_top (p : place) (done : str) (s : str) : list str :=
  match s with
  | [] => [done]
  | c :: s' =>
      if is_top p && char_eqb c (ch ",") then done :: split_top (next_place p c) [] s'
      else split_top (next_place p c) (done ++ [c]) s'
  end.
Definition selector_list (s : str) : list str := split_top top [] s.

(** A selector is a sequence of simple selectors ([p], [.a], [:hover], [[href]], ...) and combinators
    (white space, [>], [+], [~]). *)
Inductive token := Simple (s : str) | Comb (s : str).

Definition css_space : str := [32; 9; 10; 13; 12]%N.
Definition name_char (c : char) : bool := ident_char c || char_eqb c backslash || (c =? 0)%N.

(** Chars of names, and all chars that are in strings, comments, parentheses and brackets, go on with
    a simple selector; so do a second colon, and a parenthesis after the name of a pseudo-class.  All
    others start one. *)
Fixpoint tokens_from (p : place) (cur : token) (s : str) : list token :=
  match s with
  | [] => [cur]
  | c :: s' =>
      let p' := next_place p c in
      match is_top p, mem c (css_space ++ lit ">+~"), cur with
      | true, true, Comb t => tokens_from p' (Comb (t ++ [c])) s'
      | true, true, Simple _ => cur :: tokens_from p' (Comb [c]) s'
      | _, _, Comb t => cur :: tokens_from p' (Simple [c]) s'
      | true, _, Simple t =>
          if name_char c || str_eqb t (lit ":") && char_eqb c (ch ":") || starts_with (lit ":") t && char_eqb c (ch "(") then tokens_from p' (Simple (t ++ [c])) s'
          else cur :: tokens_from p' (Simple [c]) s'
      | _, _, Simple t => tokens_from p' (Simple (t ++ [c])) s'
      end
  end.
Definition tokens (s : str) : list token := tokens_from top (Comb []) s.

(** A page: its elements, the classes they have, the simple selectors that match them and the
    elements that combinators lead to. *)
Record page := mk_page
  { element : Type; present : element -> Prop; has_class : element -> str -> Prop;
    matches : element -> str -> Prop; reaches : str -> element -> element -> Prop }.
(** All that is asked of it: a class selector matches the elements that have the class. *)
Definition css_page (pg : page) : Prop :=
  forall e c, plain_ident c = true -> matches pg e (lit "." ++ c) <-> has_class pg e c.

(** From the element [e] of a compound selector the tokens lead to the element [f]. *)
Fixpoint leads (pg : page) (l : list token) (e f : element pg) : Prop :=
  match l with
  | [] => e = f
  | Simple s :: l' => matches pg e s /\ leads pg l' e f
  | [Comb c] => Forall (fun x => In x css_space) c /\ e = f
  | Comb c :: l' => exists e', present pg e' /\ reaches pg c e e' /\ leads pg l' e' f
  end.
(** White space at the start leads to nothing. *)
Definition selects_one (pg : page) (sel : str) (f : element pg) : Prop :=
  exists e, present pg e /\
    match tokens sel with
    | Comb c :: l => Forall (fun x => In x css_space) c /\ leads pg l e f
    | l => leads pg l e f
    end.
Definition selects (pg : page) (sels : str) (f : element pg) : Prop :=
  exists sel, In sel (selector_list sels) /\ selects_one pg sel f.

(** One selector: no comma, and no string, comment, parenthesis or bracket without its end. *)
Definition single (s : str) : Prop := selector_list s = [s] /\ place_after s = top.
