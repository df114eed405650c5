(** * SheetCache: [impl FromStr for Sheet], /repo/packages/stylist-core/src/ast/sheet.rs 81-113.

    The process-wide [Mutex<HashMap<String, Sheet>>] is an association list; the lock is held
    for the whole call, so calls from any threads are a sequence of these steps.  A panic
    while the lock is held would poison it; [Parser::parse] does not panic in the model. *)

From Coq Require Import List NArith Bool.
From Verif Require Import Str Ast CssParser.
Import ListNotations.

Definition cache := list (str * sheet).

(** [HashMap::get] *)
Fixpoint cache_get (c : cache) (k : str) : option sheet :=
  match c with
  | [] => None
  | (k', v) :: c' => if str_eqb k' k then Some v else cache_get c' k
  end.

(** [HashMap::insert] *)
Fixpoint cache_insert (c : cache) (k : str) (v : sheet) : cache :=
  match c with
  | [] => [(k, v)]
  | (k', v') :: c' => if str_eqb k' k then (k', v) :: c' else (k', v') :: cache_insert c' k v
  end.

(** [Sheet::from_str], sheet.rs 95-111: the new cache and the result. *)
Definition from_str (c : cache) (s : str) : cache * parse_result :=
  match cache_get c s with
  | Some m => (c, Parsed m)
  | None =>
      match parse s with
      | Parsed m => (cache_insert c s m, Parsed m)
      | r => (c, r)
      end
  end.

(** A sequence of calls. *)
Fixpoint calls (c : cache) (l : list str) : cache * list parse_result :=
  match l with
  | [] => (c, [])
  | s :: l' =>
      let (c1, r) := from_str c s in
      let (c2, rs) := calls c1 l' in (c2, r :: rs)
  end.
