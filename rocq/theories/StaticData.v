(** * StaticData: [StyleData], a copy-on-write vector, and its markup,
    /repo/packages/stylist/src/manager/{mod,ssr}.rs.

    [StyleData] is an [Arc<Vec<StyleDataContent>>] (mod.rs 327).  The manager's own copy sits in
    a [Mutex]; reading it clones the [Arc], and recording a style goes through
    [Arc::make_mut]. *)

From Coq Require Import String Ascii List NArith Bool Arith.
From Verif Require Import Str Ast Manager.
Import ListNotations.
Local Open Scope list_scope.

(** An [Arc] cell: the vector and its strong count. *)
Record cell := mk_cell { v_value : list record; v_strong : nat }.

(** The heap, the cell the manager's [StyleData] points to, and the [StyleData] values user code
    holds ([None] once dropped). *)
Record store := mk_store { s_heap : list cell; s_cur : nat; s_snaps : list (option nat) }.

(** [StyleData::new], ssr.rs 76-80, inside [render_static], ssr.rs 34-45. *)
Definition new_store : store := mk_store [mk_cell [] 1] 0 [].

Definition set_count (n : nat) (c : cell) : cell := mk_cell (v_value c) n.
Definition push (r : record) (c : cell) : cell := mk_cell (v_value c ++ [r]) (v_strong c).

(** [style_data.as_vec_mut().push(..)], mod.rs 188-195 with ssr.rs 92-96: [Arc::make_mut] writes
    in place if the count is one, and otherwise clones the vector into a new cell. *)
Definition record_style (r : record) (s : store) : store :=
  match nth_error (s_heap s) (s_cur s) with
  | None => s
  | Some c =>
      if Nat.eqb (v_strong c) 1
      then mk_store (upd (s_heap s) (s_cur s) (push r)) (s_cur s) (s_snaps s)
      else mk_store
             (upd (s_heap s) (s_cur s) (set_count (Nat.pred (v_strong c)))
                ++ [mk_cell (v_value c ++ [r]) 1])
             (List.length (s_heap s)) (s_snaps s)
  end.

(** [m.clone()], ssr.rs 23 and yew/provider.rs 51. *)
Definition snapshot (s : store) : store :=
  mk_store (upd (s_heap s) (s_cur s) (fun c => set_count (S (v_strong c)) c)) (s_cur s)
    (s_snaps s ++ [Some (s_cur s)]).

(** [StyleData::clone], mod.rs 326. *)
Definition clone_snapshot (i : nat) (s : store) : store :=
  match handle_of (s_snaps s) i with
  | None => s
  | Some a =>
      mk_store (upd (s_heap s) a (fun c => set_count (S (v_strong c)) c)) (s_cur s)
        (s_snaps s ++ [Some a])
  end.

(** Dropping a [StyleData]. *)
Definition drop_snapshot (i : nat) (s : store) : store :=
  match handle_of (s_snaps s) i with
  | None => s
  | Some a =>
      mk_store (upd (s_heap s) a (fun c => set_count (Nat.pred (v_strong c)) c)) (s_cur s)
        (upd (s_snaps s) i (fun _ => None))
  end.

Inductive sop := SRecord (r : record) | SRead | SClone (i : nat) | SDrop (i : nat).

Definition sstep (s : store) (o : sop) : store :=
  match o with
  | SRecord r => record_style r s
  | SRead => snapshot s
  | SClone i => clone_snapshot i s
  | SDrop i => drop_snapshot i s
  end.
Definition srun (s : store) (l : list sop) : store := fold_left sstep l s.

(** What user code sees of a [StyleData] it holds. *)
Definition view (s : store) (i : nat) : option (list record) :=
  match handle_of (s_snaps s) i with
  | Some a => option_map v_value (nth_error (s_heap s) a)
  | None => None
  end.

(** [StyleData::write_static_markup], ssr.rs 47-63, on an infallible writer; [esc] is
    [html_escape::encode_style]. *)
Definition element_markup (esc : str -> str) (r : record) : str :=
  lit "<style data-style=""" ++ r_id r ++ lit """>" ++ esc (r_text r) ++ lit "</style>".
Definition static_markup (esc : str -> str) (d : list record) : str :=
  flat_map (element_markup esc) d.
