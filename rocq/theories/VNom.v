(** * VNom: the nom combinators of [Nom.v] with their errors.

    [Nom.v] drops what an error says.  Here it is kept: a [VerboseError] is a list of places, each
    the rest of the input at which something was expected, and what it was.  nom's source is not in
    /repo; these definitions follow nom 7.1 (Cargo.toml of stylist-core).  [VerboseError]'s
    [from_error_kind] makes a list of one, [append] and [add_context] put one at the end, [or] keeps the
    last error. *)

From Coq Require Import String Ascii List NArith Bool Arith.
From Verif Require Import Str Nom.
Import ListNotations.
Local Open Scope list_scope.

(** [nom::error::ErrorKind], those that occur *)
Inductive error_kind :=
| KTag | KIsNot | KTakeWhile1 | KAlpha | KAlphaNumeric | KNoneOf | KEof | KFail | KNot | KAlt | KMany0 | KMany1
| KSeparatedList | KLengthValue.

(** [nom::error::VerboseErrorKind] *)
Inductive vkind := VContext (s : str) | VChar (c : char) | VNom (k : error_kind).
Definition verror := list (str * vkind).

Inductive vres (A : Type) :=
| VOk (rest : str) (a : A)
| VErr (e : verror)
| VFail (e : verror)
| VFuel.
Arguments VOk {A} rest a.
Arguments VErr {A} e.
Arguments VFail {A} e.
Arguments VFuel {A}.

Definition vparser (A : Type) := str -> vres A.

Definition vbind {A B} (x : vres A) (f : str -> A -> vres B) : vres B :=
  match x with
  | VOk r a => f r a
  | VErr e => VErr e
  | VFail e => VFail e
  | VFuel => VFuel
  end.

(** [ParseError::from_error_kind] *)
Definition verr {A} (i : str) (k : error_kind) : vres A := VErr [(i, VNom k)].

(** [nom::error::context] *)
Definition context {A} (s : string) (p : vparser A) : vparser A := fun i =>
  match p i with
  | VErr e => VErr (e ++ [(i, VContext (lit s))])
  | VFail e => VFail (e ++ [(i, VContext (lit s))])
  | x => x
  end.

Definition vtag (t : str) : vparser str := fun i =>
  if starts_with t i then VOk (skipn (List.length t) i) t else verr i KTag.

(** [split_at_position1_complete], with the kind of the error *)
Definition vwhile1 (k : error_kind) (f : char -> bool) : vparser str := fun i =>
  match span f i with
  | ([], _) => verr i k
  | (a, b) => VOk b a
  end.
Definition vtake_while1 := vwhile1 KTakeWhile1.
Definition vis_not (set : str) : vparser str := vwhile1 KIsNot (fun c => negb (mem c set)).
Definition valpha1 : vparser str := vwhile1 KAlpha is_ascii_alpha.
Definition valphanumeric1 : vparser str := vwhile1 KAlphaNumeric is_ascii_alnum.

Definition vnone_of (set : str) : vparser char := fun i =>
  match i with
  | [] => verr i KNoneOf
  | c :: r => if mem c set then verr i KNoneOf else VOk r c
  end.
Definition vanychar : vparser char := fun i =>
  match i with
  | [] => verr i KEof
  | c :: r => VOk r c
  end.
(** [from_char] *)
Definition vchar (x : char) : vparser char := fun i =>
  match i with
  | [] => VErr [(i, VChar x)]
  | c :: r => if char_eqb c x then VOk r c else VErr [(i, VChar x)]
  end.
Definition vfail {A} : vparser A := fun i => verr i KFail.

Definition vmap {A B} (f : A -> B) (p : vparser A) : vparser B := fun i =>
  vbind (p i) (fun r a => VOk r (f a)).
Definition vnot {A} (p : vparser A) : vparser unit := fun i =>
  match p i with
  | VOk _ _ => verr i KNot
  | VErr _ => VOk i tt
  | VFail e => VFail e
  | VFuel => VFuel
  end.
Definition vopt {A} (p : vparser A) : vparser (option A) := fun i =>
  match p i with
  | VOk r a => VOk r (Some a)
  | VErr _ => VOk i None
  | VFail e => VFail e
  | VFuel => VFuel
  end.
Definition vrecognize {A} (p : vparser A) : vparser str := fun i =>
  vbind (p i) (fun r _ => VOk r (firstn (List.length i - List.length r) i)).

(** [alt]: the error of the last alternative, and [Alt]. *)
Fixpoint valt_from {A} (last : verror) (ps : list (vparser A)) : vparser A := fun i =>
  match ps with
  | [] => VErr (last ++ [(i, VNom KAlt)])
  | p :: ps' => match p i with VErr e => valt_from e ps' i | x => x end
  end.
Definition valt {A} (ps : list (vparser A)) : vparser A := valt_from [] ps.

Definition vpair {A B} (p : vparser A) (q : vparser B) : vparser (A * B) := fun i =>
  vbind (p i) (fun r a => vbind (q r) (fun r' b => VOk r' (a, b))).
Definition vpreceded {A B} (p : vparser A) (q : vparser B) : vparser B := fun i =>
  vbind (p i) (fun r _ => q r).
Definition vterminated {A B} (p : vparser A) (q : vparser B) : vparser A := fun i =>
  vbind (p i) (fun r a => vbind (q r) (fun r' _ => VOk r' a)).
Definition vdelimited {A B C} (p : vparser A) (q : vparser B) (s : vparser C) : vparser B :=
  vpreceded p (vterminated q s).
Definition vseparated_pair {A B C} (p : vparser A) (s : vparser B) (q : vparser C) : vparser (A * C) :=
  vpair p (vpreceded s q).

Fixpoint vmany0_fuel {A} (n : nat) (p : vparser A) : vparser (list A) := fun i =>
  match n with
  | O => VFuel
  | S n' =>
      match p i with
      | VErr _ => VOk i []
      | VFail e => VFail e
      | VFuel => VFuel
      | VOk r a =>
          if Nat.eqb (List.length r) (List.length i) then verr i KMany0
          else vbind (vmany0_fuel n' p r) (fun r' l => VOk r' (a :: l))
      end
  end.
Definition vmany0 {A} (p : vparser A) : vparser (list A) := fun i =>
  vmany0_fuel (S (List.length i)) p i.

(** [many1]: an error of the first element is marked with [Many1]; a later element that succeeds
    without consuming is an error of kind [Many1]. *)
Fixpoint vmany1_fuel {A} (n : nat) (p : vparser A) : vparser (list A) := fun i =>
  match n with
  | O => VFuel
  | S n' =>
      match p i with
      | VErr _ => VOk i []
      | VFail e => VFail e
      | VFuel => VFuel
      | VOk r a =>
          if Nat.eqb (List.length r) (List.length i) then verr i KMany1
          else vbind (vmany1_fuel n' p r) (fun r' l => VOk r' (a :: l))
      end
  end.
Definition vmany1 {A} (p : vparser A) : vparser (list A) := fun i =>
  match p i with
  | VErr e => VErr (e ++ [(i, VNom KMany1)])
  | VFail e => VFail e
  | VFuel => VFuel
  | VOk r a => vbind (vmany1_fuel (S (List.length r)) p r) (fun r' l => VOk r' (a :: l))
  end.

Fixpoint vsep_fuel {A B} (n : nat) (sep : vparser B) (p : vparser A) : vparser (list A) := fun i =>
  match n with
  | O => VFuel
  | S n' =>
      match sep i with
      | VErr _ => VOk i []
      | VFail e => VFail e
      | VFuel => VFuel
      | VOk r _ =>
          if Nat.eqb (List.length r) (List.length i) then verr r KSeparatedList
          else match p r with
               | VErr _ => VOk i []
               | VFail e => VFail e
               | VFuel => VFuel
               | VOk r' a => vbind (vsep_fuel n' sep p r') (fun r'' l => VOk r'' (a :: l))
               end
      end
  end.
Definition vseparated_list1 {A B} (sep : vparser B) (p : vparser A) : vparser (list A) := fun i =>
  vbind (p i) (fun r a =>
    vbind (vsep_fuel (S (List.length r)) sep p r) (fun r' l => VOk r' (a :: l))).
