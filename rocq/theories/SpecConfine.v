(** * SpecConfine: selectors that select an element with a class and what is inside of it (C98). *)

From Coq Require Import String Ascii List NArith Bool Arith.
From Verif Require Import Str Ast Manager SpecRender SpecGuard.
Import ListNotations.
Local Open Scope list_scope.

(** What is inside of an element of a page: all combinators lead from what is inside of an element to
    what is inside of it (siblings of what is inside are inside, too), and those but [+] and [~] lead
    from an element to what is inside of it. *)
Definition css_tree (pg : page) (inside : element pg -> element pg -> Prop) : Prop :=
  (forall c e f g, reaches pg c e f -> inside g e -> inside g f)
  /\ (forall c e f, reaches pg c e f -> ~ In (ch "+") c -> ~ In (ch "~") c -> inside e f).

(** The first combinator outside of strings, comments, parentheses and brackets. *)
Definition comb_char (c : char) : bool := mem c (css_space ++ lit ">+~").
Fixpoint comb_run (s : str) : str :=
  match s with
  | [] => []
  | c :: s' => if comb_char c then c :: comb_run s' else []
  end.
Fixpoint first_comb (p : place) (s : str) : str :=
  match s with
  | [] => []
  | c :: s' => if is_top p && comb_char c then comb_run s else first_comb (next_place p c) s'
  end.
Definition goes_inside (s : str) : Prop :=
  let c := first_comb top s in ~ In (ch "+") c /\ ~ In (ch "~") c.

(** [&] or [:root] is written there, and neither [+] nor [~] is the first combinator after it. *)
Definition marked_inside (sel : str) : Prop :=
  exists a m b, sel = a ++ m ++ b /\ marker m /\ place_after a = top /\ name_ends b /\ goes_inside b.
(** Neither of them is written.  The class is put before the selector: with a space, but not before a
    colon. *)
Definition unmarked_inside (sel : str) : Prop :=
  unmarked sel /\ goes_inside (if starts_with (lit ":") sel then sel else lit " " ++ sel).

(** The list of selectors selects only elements with the class and what is inside of them. *)
Definition selects_inside (class sels : str) : Prop :=
  forall pg inside f, css_page pg -> css_tree pg inside -> selects pg sels f ->
    exists e, present pg e /\ has_class pg e class /\ (e = f \/ inside e f).

(** No combinator but white space is at the start and at the end of a selector.  (It is an error
    otherwise, and selects nothing.) *)
Definition proper (sel : str) : Prop :=
  match tokens sel with
  | Comb w :: l => (forall x, In x w -> In x css_space)
                   /\ (forall l' c, l = l' ++ [Comb c] -> forall x, In x c -> In x css_space)
  | _ => False
  end.

(** The list of selectors selects only where some element has the class (C97). *)
Definition needs_class (class sels : str) : Prop :=
  forall pg f, css_page pg -> selects pg sels f -> exists e, present pg e /\ has_class pg e class.
