(** * SpecNested: what a selector says if [&] stands for the element with a class (C99). *)

From Coq Require Import String Ascii List NArith Bool Arith.
From Verif Require Import Str Ast Manager SpecRender SpecGuard.
Import ListNotations.
Local Open Scope list_scope.

(** The selector with its [&]: [:root] is another way to write it, and a selector without [&] is about
    what is inside of [&], or about [&] itself if it starts with a colon. *)
Definition nested (sel : str) : str :=
  if contains_char (ch "&") sel || contains_str (lit ":root") sel
  then replace_str (lit ":root") (lit "&") sel
  else if starts_with (lit ":") sel then lit "&" ++ sel
  else lit "& " ++ sel.

(** A page in which [&] matches the elements that have the class.  A simple selector with an [&] in it,
    as [:not(&)], matches what it does with the class there. *)
Definition amp_text (class s : str) : str :=
  flat_map (fun c => if char_eqb c (ch "&") then lit "." ++ class else [c]) s.
Definition amp_page (class : str) (pg : page) : page :=
  mk_page (element pg) (present pg) (has_class pg)
    (fun e s => if str_eqb s (lit "&") then has_class pg e class else matches pg e (amp_text class s))
    (reaches pg).

(** The declarations of a style, each with the at-rules around it and the list of selectors it stands
    under, with their [&]. *)
Fixpoint nested_of (rules : list str) (sel : str) (c : rbc) : list (list str * str * str * str) :=
  match c with
  | CAttr a => [(rules, sel, a_key a, List.concat (a_value a))]
  | CRule cond content => flat_map (nested_of (rules ++ [List.concat cond]) sel) content
  | CBlock cond content =>
      flat_map (nested_of rules (match cond with
                                 | [] => sel
                                 | _ => join (lit ", ") (map (fun s => nested (List.concat s)) cond)
                                 end)) content
  end.
Definition sheet_nested (s : sheet) : list (list str * str * str * str) :=
  flat_map (fun c => nested_of [] (lit "&") (rbc_of_scope c)) s.
