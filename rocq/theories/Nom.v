(** * Nom: the nom 7 combinators used by the code.

    nom's source is not in /repo; these definitions follow nom 7's documented behaviour
    (Cargo.toml of stylist-core and stylist-macros: [nom = "7.1"]).  Error payloads
    ([VerboseError]) are dropped; [Incomplete] does not exist for the [complete] parsers
    that are used.  The functions imported by the code are listed in
    /repo/packages/stylist-core/src/parser.rs 4-11 and
    /repo/packages/stylist-macros/src/literal/fstring.rs 1-10. *)

From Coq Require Import String Ascii List NArith Bool Arith.
From Verif Require Import Str.
Import ListNotations.
Local Open Scope list_scope.

(** [IResult<&str, A, VerboseError<&str>>]: [Ok((rest, a))], [Err(Err::Error(_))],
    [Err(Err::Failure(_))].  [RFuel] is not a nom result: it says that the model's bound on
    the number of iterations or on the recursion depth was reached. *)
Inductive res (A : Type) :=
| ROk (rest : str) (a : A)
| RErr
| RFail
| RFuel.
Arguments ROk {A} rest a.
Arguments RErr {A}.
Arguments RFail {A}.
Arguments RFuel {A}.

Definition parser (A : Type) := str -> res A.

(** The [?] operator on a parse result. *)
Definition bind {A B} (x : res A) (f : str -> A -> res B) : res B :=
  match x with
  | ROk r a => f r a
  | RErr => RErr
  | RFail => RFail
  | RFuel => RFuel
  end.

(** The longest prefix whose chars satisfy [f], and the rest. *)
Fixpoint span (f : char -> bool) (s : str) : str * str :=
  match s with
  | [] => ([], [])
  | c :: s' => if f c then let (a, b) := span f s' in (c :: a, b) else ([], s)
  end.

(** [nom::bytes::complete::tag] *)
Definition tag (t : str) : parser str := fun i =>
  if starts_with t i then ROk (skipn (List.length t) i) t else RErr.

(** [nom::bytes::complete::take_while1] *)
Definition take_while1 (f : char -> bool) : parser str := fun i =>
  match span f i with
  | ([], _) => RErr
  | (a, b) => ROk b a
  end.

(** [nom::bytes::complete::is_not] *)
Definition is_not (set : str) : parser str := take_while1 (fun c => negb (mem c set)).

(** [nom::character::complete::{alpha1, alphanumeric1}] (ASCII only) *)
Definition alpha1 : parser str := take_while1 is_ascii_alpha.
Definition alphanumeric1 : parser str := take_while1 is_ascii_alnum.

(** [nom::character::complete::none_of] *)
Definition none_of (set : str) : parser char := fun i =>
  match i with
  | [] => RErr
  | c :: r => if mem c set then RErr else ROk r c
  end.

(** [nom::character::complete::anychar] *)
Definition anychar : parser char := fun i =>
  match i with
  | [] => RErr
  | c :: r => ROk r c
  end.

(** [nom::character::complete::char] *)
Definition char_p (x : char) : parser char := fun i =>
  match i with
  | [] => RErr
  | c :: r => if char_eqb c x then ROk r c else RErr
  end.

(** [nom::combinator::fail] *)
Definition fail_p {A} : parser A := fun _ => RErr.

(** [nom::combinator::map] *)
Definition map_p {A B} (f : A -> B) (p : parser A) : parser B := fun i =>
  bind (p i) (fun r a => ROk r (f a)).

(** [nom::combinator::not] *)
Definition not_p {A} (p : parser A) : parser unit := fun i =>
  match p i with
  | ROk _ _ => RErr
  | RErr => ROk i tt
  | RFail => RFail
  | RFuel => RFuel
  end.

(** [nom::combinator::opt] *)
Definition opt {A} (p : parser A) : parser (option A) := fun i =>
  match p i with
  | ROk r a => ROk r (Some a)
  | RErr => ROk i None
  | RFail => RFail
  | RFuel => RFuel
  end.

(** [nom::combinator::recognize]: the consumed slice. *)
Definition recognize {A} (p : parser A) : parser str := fun i =>
  bind (p i) (fun r _ => ROk r (firstn (List.length i - List.length r) i)).

(** [nom::combinator::cut] *)
Definition cut {A} (p : parser A) : parser A := fun i =>
  match p i with
  | RErr => RFail
  | x => x
  end.

(** [nom::combinator::all_consuming] *)
Definition all_consuming {A} (p : parser A) : parser A := fun i =>
  bind (p i) (fun r a => match r with [] => ROk r a | _ => RErr end).

(** [nom::branch::alt] on a tuple of parsers *)
Fixpoint alt {A} (ps : list (parser A)) : parser A := fun i =>
  match ps with
  | [] => RErr
  | p :: ps' => match p i with RErr => alt ps' i | x => x end
  end.

(** [nom::sequence::*] *)
Definition pair_p {A B} (p : parser A) (q : parser B) : parser (A * B) := fun i =>
  bind (p i) (fun r a => bind (q r) (fun r' b => ROk r' (a, b))).
Definition preceded {A B} (p : parser A) (q : parser B) : parser B := fun i =>
  bind (p i) (fun r _ => q r).
Definition terminated {A B} (p : parser A) (q : parser B) : parser A := fun i =>
  bind (p i) (fun r a => bind (q r) (fun r' _ => ROk r' a)).
Definition delimited {A B C} (p : parser A) (q : parser B) (s : parser C) : parser B :=
  preceded p (terminated q s).
Definition separated_pair {A B C} (p : parser A) (s : parser B) (q : parser C) : parser (A * C) :=
  pair_p p (preceded s q).

(** [nom::multi::many0]: stops at the first [Error]; an element that succeeds without
    consuming is an [Error].  Every iteration consumes, so [S (length i)] iterations are
    enough. *)
Fixpoint many0_fuel {A} (n : nat) (p : parser A) : parser (list A) := fun i =>
  match n with
  | O => RFuel
  | S n' =>
      match p i with
      | RErr => ROk i []
      | RFail => RFail
      | RFuel => RFuel
      | ROk r a =>
          if Nat.eqb (List.length r) (List.length i) then RErr
          else bind (many0_fuel n' p r) (fun r' l => ROk r' (a :: l))
      end
  end.
Definition many0 {A} (p : parser A) : parser (list A) := fun i =>
  many0_fuel (S (List.length i)) p i.

(** [nom::multi::many1]: the first element must succeed (and may consume nothing), then the
    loop of [many0]. *)
Definition many1 {A} (p : parser A) : parser (list A) := fun i =>
  bind (p i) (fun r a => bind (many0 p r) (fun r' l => ROk r' (a :: l))).

(** [nom::multi::separated_list1]: when the element after a separator fails, the result
    ends before that separator. *)
Fixpoint sep_fuel {A B} (n : nat) (sep : parser B) (p : parser A) : parser (list A) := fun i =>
  match n with
  | O => RFuel
  | S n' =>
      match sep i with
      | RErr => ROk i []
      | RFail => RFail
      | RFuel => RFuel
      | ROk r _ =>
          if Nat.eqb (List.length r) (List.length i) then RErr
          else match p r with
               | RErr => ROk i []
               | RFail => RFail
               | RFuel => RFuel
               | ROk r' a => bind (sep_fuel n' sep p r') (fun r'' l => ROk r'' (a :: l))
               end
      end
  end.
Definition separated_list1 {A B} (sep : parser B) (p : parser A) : parser (list A) := fun i =>
  bind (p i) (fun r a =>
    bind (sep_fuel (S (List.length r)) sep p r) (fun r' l => ROk r' (a :: l))).
