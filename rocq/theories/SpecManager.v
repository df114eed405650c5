(** * SpecManager: the words in which the manager properties are stated. *)

From Coq Require Import String Ascii List NArith Bool Arith.
From Verif Require Import Str Ast Ids Manager.
Import ListNotations.
Local Open Scope list_scope.

(** The first [n] entropy strings are told apart by any text ending in a dash and one of
    them. *)
Definition draws_apart (draw : nat -> str) (n : nat) : Prop :=
  forall i j, i < n -> j < n -> i <> j ->
  forall p q : str, p ++ lit "-" ++ draw i <> q ++ lit "-" ++ draw j.

(** [id] is none of the ids that the first [n] draws can make. *)
Definition not_drawn (draw : nat -> str) (n : nat) (id : str) : Prop :=
  forall i, i < n -> forall p : str, id <> p ++ lit "-" ++ draw i.

(** The ids of the style elements of a page. *)
Definition child_ids (l : list child) : list str :=
  flat_map (fun c => match c with EStyle i _ => [i] | EOther => [] end) l.
Definition page_ids (d : dom) : list str := flat_map (fun n => child_ids (n_children n)) d.

(** The ids a program passes to [load_style_data]. *)
Definition loaded_ids (l : list op) : list str :=
  flat_map (fun o => match o with OLoad _ d => map r_id d | _ => [] end) l.

(** No accidental collision of ids: the drawn entropy strings are told apart, and neither the
    page at the start nor loaded style data uses one of the ids drawn here. *)
Definition no_clash (e : env) (page : dom) (l : list op) (n : nat) : Prop :=
  draws_apart (e_draw e) n
  /\ (forall id, In id (page_ids page) -> not_drawn (e_draw e) n id)
  /\ (forall id, In id (loaded_ids l) -> not_drawn (e_draw e) n id).

(** The texts of the elements [<style data-style=id>] of the document, in document order. *)
Definition texts_in (id : str) (l : list child) : list str :=
  flat_map (fun c => match c with
                     | EStyle i t => if str_eqb i id then [t] else []
                     | EOther => []
                     end) l.
Definition texts_of (id : str) (d : dom) : list str :=
  flat_map (fun n => if n_in_document n then texts_in id (n_children n) else []) d.

(** A style is alive while user code holds a handle on it or a manager has it registered. *)
Definition held (w : world) (cid : nat) : Prop :=
  exists h, handle_of (w_handles w) h = Some cid.
Definition registered (w : world) (mi : nat) (k : key) (cid : nat) : Prop :=
  exists m, nth_error (w_mgrs w) mi = Some m /\ In (k, cid) (m_reg m).
Definition alive (w : world) (cid : nat) : Prop :=
  held w cid \/ exists mi k, registered w mi k cid.

(** The manager knows the style [k] under the id [id]. *)
Definition known_as (w : world) (mi : nat) (k : key) (id : str) : Prop :=
  exists cid c, registered w mi k cid /\ nth_error (w_contents w) cid = Some c /\ c_id c = id.

(** Data that contradict neither the manager nor themselves about the id of a style. *)
Definition data_fits (w : world) (mi : nat) (d : list record) : Prop :=
  (forall r id, In r d -> known_as w mi (r_key r) id -> id = r_id r)
  /\ (forall r1 r2, In r1 d -> In r2 d -> r_key r1 = r_key r2 -> r_id r1 = r_id r2).

(** A style made here (not hydrated) by a manager that mounts (not in static mode) into the
    container [k]. *)
Definition mounts_into (w : world) (c : content) (k : nat) : Prop :=
  c_hydrated c = false
  /\ exists m, nth_error (w_mgrs w) (c_mgr c) = Some m
               /\ m_data m = None /\ m_container m = Some k.

(** [k] is a container the document reaches. *)
Definition in_document (d : dom) (k : nat) : Prop :=
  exists n, nth_error d k = Some n /\ n_in_document n = true.

(** States a program can reach, with the history that leads there. *)
Definition reaches (e : env) (page : dom) (l : list op) (w : world) : Prop :=
  exists rs, run e (start page) l = (w, rs).

(** The manager an operation is called on, or whose style it is called on. *)
Definition op_manager (w : world) (o : op) : option nat :=
  match o with
  | OCloneManager h | ODropManager h | OCreate h _ | OLoad h _ | ORead h =>
      handle_of (w_mhandles w) h
  | OCloneStyle h | ODropStyle h | OUnregister h => option_map c_mgr (handle_content w h)
  | OBuild _ _ _ _ | OInsertOther _ _ | ORemoveOther _ _ => None
  end.
