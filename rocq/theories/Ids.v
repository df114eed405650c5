(** * Ids: style ids, /repo/packages/stylist/src/utils.rs and manager/key.rs. *)

From Coq Require Import String Ascii List NArith Bool Arith Decimal.
From Verif Require Import Str.
Import ListNotations.
Local Open Scope list_scope.

(** [Display for u64], as used by [format!] in utils.rs 16: decimal digits, no leading zero. *)
Fixpoint uint_digits (d : Decimal.uint) : str :=
  match d with
  | Decimal.Nil => []
  | Decimal.D0 d' => ch "0" :: uint_digits d'
  | Decimal.D1 d' => ch "1" :: uint_digits d'
  | Decimal.D2 d' => ch "2" :: uint_digits d'
  | Decimal.D3 d' => ch "3" :: uint_digits d'
  | Decimal.D4 d' => ch "4" :: uint_digits d'
  | Decimal.D5 d' => ch "5" :: uint_digits d'
  | Decimal.D6 d' => ch "6" :: uint_digits d'
  | Decimal.D7 d' => ch "7" :: uint_digits d'
  | Decimal.D8 d' => ch "8" :: uint_digits d'
  | Decimal.D9 d' => ch "9" :: uint_digits d'
  end.

Definition decimal (n : N) : str := uint_digits (N.to_uint n).

(** [get_next_style_id], utils.rs 9-17: the value returned by the [n]-th call in the process
    ([AtomicU64::fetch_add] wraps around at 2^64). *)
Definition counter_entropy (n : nat) : str :=
  lit "style-" ++ decimal (N.of_nat n mod 2 ^ 64)%N.

(** [get_rand_str], utils.rs 2-6: eight characters from [fastrand::alphanumeric].  The stream
    of drawn strings is a parameter of the model; this is all that is known of each. *)
Definition rand_entropy (e : str) : Prop :=
  List.length e = 8 /\ forallb is_ascii_alnum e = true.

(** [StyleId::new_scoped], key.rs 42-44, and [StyleId::new_global], key.rs 46-48, on the
    string returned by [get_entropy], utils.rs 19-26. *)
Definition new_scoped (prefix entropy : str) : str := prefix ++ lit "-" ++ entropy.
Definition new_global (prefix entropy : str) : str := prefix ++ lit "-global-" ++ entropy.

(** The choice between them, manager/mod.rs 163-166. *)
Definition new_id (is_global : bool) (prefix entropy : str) : str :=
  if is_global then new_global prefix entropy else new_scoped prefix entropy.
