(** * Str: Rust strings and the [str] operations the code uses.

    A Rust [char] is modelled by its code point (an [N]); a [&str] / [String] /
    [Cow<'static, str>] is the list of its chars.  UTF-8 is not modelled: all the
    operations used by the code work on char boundaries. *)

From Coq Require Import String Ascii List NArith Bool.
Import ListNotations.
Local Open Scope list_scope.

Notation char := N (only parsing).
Notation str := (list char) (only parsing).

(** ASCII literals, so that the model can write Rust's string literals. *)
Definition lit (s : string) : str := map N_of_ascii (list_ascii_of_string s).
Definition ch (a : ascii) : char := N_of_ascii a.

(** The newline written as [\n] in Rust literals. *)
Definition nl : str := [10%N].

Definition char_eqb : char -> char -> bool := N.eqb.

Fixpoint str_eqb (a b : str) : bool :=
  match a, b with
  | [], [] => true
  | x :: a', y :: b' => char_eqb x y && str_eqb a' b'
  | _, _ => false
  end.

(** [c] is one of the chars of [set]. *)
Definition mem (c : char) (set : str) : bool := existsb (char_eqb c) set.

(** Rust [str::starts_with(&str)] *)
Fixpoint starts_with (p s : str) : bool :=
  match p, s with
  | [], _ => true
  | _ :: _, [] => false
  | x :: p', y :: s' => char_eqb x y && starts_with p' s'
  end.

(** Rust [str::contains(char)] *)
Definition contains_char (c : char) (s : str) : bool := mem c s.

(** Rust [str::contains(&str)] *)
Fixpoint contains_str (p s : str) : bool :=
  starts_with p s || match s with [] => false | _ :: s' => contains_str p s' end.

(** Rust [str::replace(char, &str)] *)
Definition replace_char (c : char) (r s : str) : str :=
  flat_map (fun x => if char_eqb x c then r else [x]) s.

(** Rust [str::replace(&str, &str)]: non-overlapping matches from left to right.
    [skip] counts the chars of the current match still to be dropped.
    Only used with non-empty patterns. *)
Fixpoint replace_aux (p r s : str) (skip : nat) : str :=
  match s with
  | [] => []
  | x :: s' =>
      match skip with
      | S k => replace_aux p r s' k
      | O => if starts_with p s
             then r ++ replace_aux p r s' (List.length p - 1)
             else x :: replace_aux p r s' 0
      end
  end.
Definition replace_str (p r s : str) : str := replace_aux p r s 0.

(** Unicode [White_Space], as used by Rust's [str::trim]. *)
Definition is_uni_ws (c : char) : bool :=
  ((9 <=? c) && (c <=? 13) || (c =? 32) || (c =? 133) || (c =? 160) || (c =? 5760)
   || ((8192 <=? c) && (c <=? 8202)) || (c =? 8232) || (c =? 8233) || (c =? 8239)
   || (c =? 8287) || (c =? 12288))%N.

(** Rust [str::trim_start] / [trim_end] / [trim] *)
Fixpoint trim_start (s : str) : str :=
  match s with
  | c :: s' => if is_uni_ws c then trim_start s' else s
  | [] => []
  end.
Definition trim_end (s : str) : str := rev (trim_start (rev s)).
Definition trim (s : str) : str := trim_end (trim_start s).

(** Joining with a separator, Rust [slice::join]. *)
Fixpoint join (sep : str) (l : list str) : str :=
  match l with
  | [] => []
  | [x] => x
  | x :: l' => x ++ sep ++ join sep l'
  end.

Definition spaces (n : nat) : str := repeat 32%N n.

(** ** Char classes of nom 7 for [char] (ASCII only) and of the code *)
Definition is_ascii_alpha (c : char) : bool :=
  ((65 <=? c) && (c <=? 90) || (97 <=? c) && (c <=? 122))%N.
Definition is_ascii_digit (c : char) : bool := ((48 <=? c) && (c <=? 57))%N.
Definition is_ascii_alnum (c : char) : bool := is_ascii_alpha c || is_ascii_digit c.
