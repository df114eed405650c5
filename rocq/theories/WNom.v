(** * WNom: the nom combinators of [Nom.v] with the work they do.

    Next to its result a parser says how much work it did: every call of a parser counts, and
    every char it looks at or hands on.
    - [tag] looks at no more chars than the tag has;
    - [take_while1] looks at the chars it takes and at the one after them;
    - [none_of], [anychar], [char] look at one char;
    - [recognize] gives a slice: what happens to it ([String::trim], [to_string] in
      /repo/packages/stylist-core/src/parser.rs 171-176, 186-189, 258, 423) costs its length;
    - [alt] and the loops count one for every parser they try.
    Not counted are the closures of [map] beyond that, the logging of [traced_context]
    (parser.rs 29-64), allocation, and collecting errors. *)

From Coq Require Import String Ascii List NArith Bool Arith.
From Verif Require Import Str Nom.
Import ListNotations.
Local Open Scope list_scope.
Local Open Scope N_scope.

Definition wparser (A : Type) := str -> res A * N.

(** The length of a text. *)
Definition len {A} (l : list A) : N := N.of_nat (List.length l).

(** The [?] operator *)
Definition wbind {A B} (x : res A * N) (f : str -> A -> res B * N) : res B * N :=
  match x with
  | (ROk r a, w) => let (y, w') := f r a in (y, w + w')
  | (RErr, w) => (RErr, w)
  | (RFail, w) => (RFail, w)
  | (RFuel, w) => (RFuel, w)
  end.

(** [w] more work *)
Definition more {A} (w : N) (x : res A * N) : res A * N := let (y, w') := x in (y, w + w').

(** [nom::bytes::complete::tag] *)
Definition wtag (t : str) : wparser str := fun i => (tag t i, 1 + len t).

(** [nom::bytes::complete::take_while1] *)
Definition wwhile1 (f : char -> bool) : wparser str := fun i => (take_while1 f i, 1 + (1 + len (fst (span f i)))).
Definition wis_not (set : str) : wparser str := wwhile1 (fun c => negb (mem c set)).
Definition walpha1 : wparser str := wwhile1 is_ascii_alpha.
Definition walphanumeric1 : wparser str := wwhile1 is_ascii_alnum.

(** [nom::character::complete::{none_of, anychar, char}], [nom::combinator::fail] *)
Definition wnone_of (set : str) : wparser char := fun i => (none_of set i, 2).
Definition wanychar : wparser char := fun i => (anychar i, 2).
Definition wchar (x : char) : wparser char := fun i => (char_p x i, 2).
Definition wfail {A} : wparser A := fun _ => (RErr, 1).

(** [nom::combinator::{map, not, opt, recognize}] *)
Definition wmap {A B} (f : A -> B) (p : wparser A) : wparser B := fun i =>
  wbind (p i) (fun r a => (ROk r (f a), 1)).
Definition wnot {A} (p : wparser A) : wparser unit := fun i =>
  match p i with
  | (ROk _ _, w) => (RErr, w + 1)
  | (RErr, w) => (ROk i tt, w + 1)
  | (RFail, w) => (RFail, w + 1)
  | (RFuel, w) => (RFuel, w + 1)
  end.
Definition wopt {A} (p : wparser A) : wparser (option A) := fun i =>
  match p i with
  | (ROk r a, w) => (ROk r (Some a), w + 1)
  | (RErr, w) => (ROk i None, w + 1)
  | (RFail, w) => (RFail, w + 1)
  | (RFuel, w) => (RFuel, w + 1)
  end.
Definition wrecognize {A} (p : wparser A) : wparser str := fun i =>
  wbind (p i) (fun r _ => (ROk r (firstn (List.length i - List.length r) i), 1 + (len i - len r))).

(** [nom::branch::alt] *)
Fixpoint walt {A} (ps : list (wparser A)) : wparser A := fun i =>
  match ps with
  | [] => (RErr, 1)
  | p :: ps' => match p i with (RErr, w) => more (1 + w) (walt ps' i) | (x, w) => (x, 1 + w) end
  end.

(** [nom::sequence::*] *)
Definition wpair {A B} (p : wparser A) (q : wparser B) : wparser (A * B) := fun i =>
  wbind (p i) (fun r a => wbind (q r) (fun r' b => (ROk r' (a, b), 1))).
Definition wpreceded {A B} (p : wparser A) (q : wparser B) : wparser B := fun i =>
  wbind (p i) (fun r _ => q r).
Definition wterminated {A B} (p : wparser A) (q : wparser B) : wparser A := fun i =>
  wbind (p i) (fun r a => wbind (q r) (fun r' _ => (ROk r' a, 1))).
Definition wdelimited {A B C} (p : wparser A) (q : wparser B) (s : wparser C) : wparser B :=
  wpreceded p (wterminated q s).
Definition wseparated_pair {A B C} (p : wparser A) (s : wparser B) (q : wparser C) : wparser (A * C) :=
  wpair p (wpreceded s q).

(** [nom::multi::{many0, many1, separated_list1}] *)
Fixpoint wmany0_fuel {A} (n : nat) (p : wparser A) : wparser (list A) := fun i =>
  match n with
  | O => (RFuel, 0)
  | S n' =>
      match p i with
      | (RErr, w) => (ROk i [], w + 1)
      | (RFail, w) => (RFail, w + 1)
      | (RFuel, w) => (RFuel, w + 1)
      | (ROk r a, w) =>
          if Nat.eqb (List.length r) (List.length i) then (RErr, w + 1)
          else more (w + 1) (wbind (wmany0_fuel n' p r) (fun r' l => (ROk r' (a :: l), 0)))
      end
  end.
Definition wmany0 {A} (p : wparser A) : wparser (list A) := fun i =>
  wmany0_fuel (S (List.length i)) p i.
Definition wmany1 {A} (p : wparser A) : wparser (list A) := fun i =>
  wbind (p i) (fun r a => wbind (wmany0 p r) (fun r' l => (ROk r' (a :: l), 1))).
Fixpoint wsep_fuel {A B} (n : nat) (sep : wparser B) (p : wparser A) : wparser (list A) := fun i =>
  match n with
  | O => (RFuel, 0)
  | S n' =>
      match sep i with
      | (RErr, w) => (ROk i [], w + 1)
      | (RFail, w) => (RFail, w + 1)
      | (RFuel, w) => (RFuel, w + 1)
      | (ROk r _, w) =>
          if Nat.eqb (List.length r) (List.length i) then (RErr, w + 1)
          else match p r with
               | (RErr, w') => (ROk i [], w + w' + 1)
               | (RFail, w') => (RFail, w + w' + 1)
               | (RFuel, w') => (RFuel, w + w' + 1)
               | (ROk r' a, w') =>
                   more (w + w' + 1) (wbind (wsep_fuel n' sep p r') (fun r'' l => (ROk r'' (a :: l), 0)))
               end
      end
  end.
Definition wseparated_list1 {A B} (sep : wparser B) (p : wparser A) : wparser (list A) := fun i =>
  wbind (p i) (fun r a =>
    wbind (wsep_fuel (S (List.length r)) sep p r) (fun r' l => (ROk r' (a :: l), 1))).
