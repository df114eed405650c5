(** * SpecClass: which class a selector means, and which classes an element has (C92).

    Selectors are read as CSS Syntax Level 3 says (section 3.3 preprocessing, 4.3.7 escapes, 4.3.8 and 4.3.9
    the start of an ident sequence, 4.3.11 ident sequences).  The [class] attribute is a set of tokens
    separated by ASCII whitespace, as HTML says. *)

From Coq Require Import String Ascii List NArith Bool Arith.
From Verif Require Import Str.
Import ListNotations.
Local Open Scope list_scope.
Local Open Scope N_scope.

Definition replacement : char := 65533.
Definition surrogate (c : char) : bool := (55296 <=? c) && (c <=? 57343).

(** 3.3: one newline character, and no NUL *)
Fixpoint preprocess (s : str) : str :=
  match s with
  | [] => []
  | c :: r =>
      if c =? 13 then
        match r with
        | [] => [10]
        | d :: r' => if d =? 10 then 10 :: preprocess r' else 10 :: preprocess r
        end
      else if c =? 12 then 10 :: preprocess r
      else if (c =? 0) || surrogate c then replacement :: preprocess r
      else c :: preprocess r
  end.

Definition letter (c : char) : bool := ((65 <=? c) && (c <=? 90)) || ((97 <=? c) && (c <=? 122)).
Definition digit (c : char) : bool := (48 <=? c) && (c <=? 57).
Definition name_start (c : char) : bool := letter c || (c =? 95) || (128 <=? c).
Definition name_char (c : char) : bool := name_start c || digit c || (c =? 45).

(** 4.3.8 *)
Definition escape_ok (s : str) : bool :=
  match s with
  | [] => false
  | c :: r => (c =? 92) && match r with [] => true | d :: _ => negb (d =? 10) end
  end.

(** 4.3.9 *)
Definition starts_name (s : str) : bool :=
  match s with
  | [] => false
  | c :: r =>
      if c =? 45 then match r with [] => false | d :: _ => name_start d || (d =? 45) || escape_ok r end
      else name_start c || escape_ok s
  end.

(** 4.3.7, after the backslash: a char, or up to six hexadecimal digits and one blank *)
Definition hex (c : char) : option N :=
  if digit c then Some (c - 48)
  else if (65 <=? c) && (c <=? 70) then Some (c - 55)
  else if (97 <=? c) && (c <=? 102) then Some (c - 87)
  else None.
Fixpoint hexes (n : nat) (acc : N) (s : str) : N * str :=
  match n, s with
  | S n', c :: r => match hex c with Some v => hexes n' (16 * acc + v) r | None => (acc, s) end
  | _, _ => (acc, s)
  end.
Definition skip_blank (s : str) : str :=
  match s with c :: r => if (c =? 10) || (c =? 9) || (c =? 32) then r else s | [] => [] end.
Definition unescape (s : str) : char * str :=
  match s with
  | [] => (replacement, [])
  | c :: r =>
      match hex c with
      | None => (c, r)
      | Some v =>
          let (x, rest) := hexes 5 v r in
          (if (x =? 0) || surrogate x || (1114111 <? x) then replacement else x, skip_blank rest)
      end
  end.

(** 4.3.11; each step takes a char, so the length of the text is enough. *)
Fixpoint name_of (fuel : nat) (s : str) : str * str :=
  match fuel, s with
  | S n, c :: r =>
      if name_char c then let (x, rest) := name_of n r in (c :: x, rest)
      else if escape_ok s then let (v, r') := unescape r in let (x, rest) := name_of n r' in (v :: x, rest)
      else ([], s)
  | _, _ => ([], s)
  end.

(** The class selector at the beginning of a text: the class and what follows it. *)
Definition class_selector (s : str) : option (str * str) :=
  match preprocess s with
  | [] => None
  | c :: r => if (c =? 46) && starts_name r then Some (name_of (List.length r) r) else None
  end.

(** A name that stands before this text ends there. *)
Definition ends_name (s : str) : Prop :=
  match s with [] => True | c :: _ => name_char c = false /\ escape_ok s = false end.

(** ASCII whitespace of HTML, and the tokens of a [class] attribute. *)
Definition html_blank (c : char) : bool := (c =? 9) || (c =? 10) || (c =? 12) || (c =? 13) || (c =? 32).
Fixpoint tokens (cur : str) (s : str) : list str :=
  let flush := match cur with [] => [] | _ => [cur] end in
  match s with
  | [] => flush
  | c :: r => if html_blank c then flush ++ tokens [] r else tokens (cur ++ [c]) r
  end.
Definition classes (attr : str) : list str := tokens [] attr.

(** The class [x] handed out is fit: the selector [.x] selects the elements with the class [x], and [x] is
    one class in an attribute. *)
Definition selected (x : str) : Prop := class_selector (46 :: x) = Some (x, []).
Definition one_class (x : str) : Prop :=
  forall before after, classes (before ++ [32] ++ x ++ [32] ++ after) = classes before ++ [x] ++ classes after.

(** Rust's [str] has no surrogates. *)
Definition scalar (s : str) : Prop := Forall (fun c => surrogate c = false) s.

(** The prefixes for which this is to hold. *)
Definition fit_prefix (p : str) (suffix : str) : Prop :=
  Forall (fun c => name_char c = true) p
  /\ match p with
     | [] => exists c r, suffix = c :: r /\ (letter c = true)
     | c :: r =>
         if c =? 45 then match r with [] => True | d :: _ => name_start d = true \/ d = 45 end
         else name_start c = true
     end.
