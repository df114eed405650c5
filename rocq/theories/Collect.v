(** * Collect: reading the styles of a server from another thread.

    /repo/packages/stylist/src/manager/ssr.rs: [render_static] (36-45) gives a [StaticWriter], which
    goes into a manager (71-74), and a [StaticReader], which may be sent to another thread.  They
    share an [Arc<Mutex<StyleData>>].  The thread with the managers (they are [Rc]s and stay in it)
    runs a program of [Manager.v]; a creation that records a style, and a look at the data, are
    split here into the steps at which other threads can come between.  Any number of
    readers is allowed, each with the manager it reads (there is one for each writer in the
    code). *)

From Coq Require Import String Ascii List NArith Bool Arith.
From Verif Require Import Str Ast CssParser Ids Manager.
Import ListNotations.
Local Open Scope list_scope.

(** A style on its way into manager [p_mi]: mod.rs 163-184. *)
Record pend := mk_pend { p_mi : nat; p_key : key; p_id : str; p_text : str }.

(** Where the thread with the managers is. *)
Inductive wpc :=
| WIdle                                (* between two calls *)
| WLock (p : pend)                     (* mod.rs 188, [style_data()]: in [lock] (ssr.rs 88) *)
| WPush (p : pend)                     (* mod.rs 190, before [push] *)
| WRegister (p : pend)                 (* mod.rs 197, before [register] *)
| WUnlock (p : pend)                   (* mod.rs 199: the guard is about to be dropped *)
| WLook (mi : nat)                     (* yew/provider.rs 49, [style_data()]: in [lock] *)
| WCopy (mi : nat)                     (* 50, before [clone] *)
| WLooked (mi : nat) (d : list record). (* 50: the guard is about to be dropped *)

(** Where a reader is: [read_style_data], ssr.rs 20-25. *)
Inductive qpc :=
| QNew                        (* not called *)
| QLock                       (* 22, in [lock] *)
| QCopy                       (* 23, before [clone] *)
| QUnlock (d : list record)   (* 24: the guard is about to be dropped *)
| QDone (d : list record).

(** [q_begun] and [q_ended] are no data of the program: how many calls of the other thread had
    returned when the reader was called, and how many had begun when it returned. *)
Record rdr := mk_rdr { q_mi : nat; q_pc : qpc; q_begun : nat; q_ended : nat }.

Inductive who := Writer | Reader (j : nat).

(** [k_lock mi] is the holder of the lock of manager [mi], [k_poison mi] says that a thread has
    panicked holding it. *)
Record proc := mk_proc
  { k_world : world; k_pc : wpc; k_todo : list op; k_results : list Manager.res;
    k_lock : nat -> option who; k_poison : nat -> bool; k_readers : list rdr }.

Definition set1 {A} (f : nat -> A) (i : nat) (x : A) : nat -> A :=
  fun j => if Nat.eqb j i then x else f j.

(** What is in the data of manager [mi]; nothing before the manager is built. *)
Definition data_of (w : world) (mi : nat) : list record :=
  match nth_error (w_mgrs w) mi with
  | Some m => match m_data m with Some l => l | None => [] end
  | None => []
  end.

(** How the next call starts: with a record on its way, with a look at the data, or without
    touching them.  mod.rs 155-188: the registry is asked, the id is drawn and the text
    written, and in debug builds read again, before the lock is taken. *)
Inductive start_of := SNew (p : pend) | SLook (mi : nat) | SPlain.
Definition starts (e : env) (w : world) (o : op) : start_of :=
  match o with
  | OCreate h k =>
      match handle_of (w_mhandles w) h with
      | None => SPlain
      | Some mi =>
          match nth_error (w_mgrs w) mi with
          | None => SPlain
          | Some m =>
              match reg_get (m_reg m) k, m_data m with
              | None, Some _ =>
                  let id := new_id (k_global k) (k_prefix k) (e_draw e (w_draws w)) in
                  let text := style_text k id in
                  if e_debug e && negb (is_parsed (parse text)) then SPlain
                  else SNew (mk_pend mi k id text)
              | _, _ => SPlain
              end
          end
      end
  | ORead h =>
      match handle_of (w_mhandles w) h with
      | None => SPlain
      | Some mi =>
          match nth_error (w_mgrs w) mi with
          | Some m => match m_data m with Some _ => SLook mi | None => SPlain end
          | None => SPlain
          end
      end
  | _ => SPlain
  end.

(** [style_data.as_vec_mut().push(..)], mod.rs 190-194. *)
Definition push_record (p : pend) (w : world) : world :=
  with_mgrs w (upd (w_mgrs w) (p_mi p)
    (fun m => set_data (match m_data m with
                        | Some l => Some (l ++ [mk_record (p_key p) (p_id p) (p_text p)])
                        | None => None
                        end) m)).

(** [StyleRegistry::register] panics on an occupied key, registry.rs 13-17. *)
Definition occupied (p : pend) (w : world) : bool :=
  match nth_error (w_mgrs w) (p_mi p) with
  | Some m => match reg_get (m_reg m) (p_key p) with Some _ => true | None => false end
  | None => false
  end.

(** The thread with the managers goes to [pc], or returns [r] from the call it is in. *)
Definition wgo (k : proc) (w : world) (pc : wpc) : proc :=
  mk_proc w pc (k_todo k) (k_results k) (k_lock k) (k_poison k) (k_readers k).
Definition wreturn (k : proc) (w : world) (r : Manager.res) : proc :=
  mk_proc w WIdle (tl (k_todo k)) (k_results k ++ [r]) (k_lock k) (k_poison k) (k_readers k).
Definition relock (k : proc) (mi : nat) (h : option who) : proc :=
  mk_proc (k_world k) (k_pc k) (k_todo k) (k_results k) (set1 (k_lock k) mi h) (k_poison k) (k_readers k).
Definition poison (k : proc) (mi : nat) : proc :=
  mk_proc (k_world k) (k_pc k) (k_todo k) (k_results k) (k_lock k) (set1 (k_poison k) mi true) (k_readers k).

(** One step of the thread with the managers; [None] if it waits or has nothing to do.  A panic is
    caught around the call (the program goes on with the next one). *)
Definition wstep (e : env) (k : proc) : option proc :=
  let w := k_world k in
  match k_pc k with
  | WIdle =>
      match k_todo k with
      | [] => None
      | o :: _ =>
          match starts e w o with
          | SNew p => Some (wgo k (draw w) (WLock p))
          | SLook mi => Some (wgo k w (WLook mi))
          | SPlain => let (w1, r) := step e w o in Some (wreturn k w1 r)
          end
      end
  | WLock p =>
      match k_lock k (p_mi p) with
      | Some _ => None
      | None =>
          (* [expect("failed to lock style data")] *)
          if k_poison k (p_mi p) then Some (wreturn k w RPanic)
          else Some (wgo (relock k (p_mi p) (Some Writer)) w (WPush p))
      end
  | WPush p => Some (wgo k (push_record p w) (WRegister p))
  | WRegister p =>
      if occupied p w
      then Some (wreturn (poison (relock k (p_mi p) None) (p_mi p)) w RPanic)
      else Some (wgo k (admit_content (p_mi p) (p_key p) (p_id p) (p_text p) w) (WUnlock p))
  | WUnlock p =>
      Some (wreturn (relock k (p_mi p) None) w (RHandle (Nat.pred (List.length (w_handles w)))))
  | WLook mi =>
      match k_lock k mi with
      | Some _ => None
      | None =>
          if k_poison k mi then Some (wreturn k w RPanic)
          else Some (wgo (relock k mi (Some Writer)) w (WCopy mi))
      end
  | WCopy mi => Some (wgo k w (WLooked mi (data_of w mi)))
  | WLooked mi d => Some (wreturn (relock k mi None) w (RData d))
  end.

(** How many calls have begun. *)
Definition begun (k : proc) : nat :=
  List.length (k_results k) + match k_pc k with WIdle => 0 | _ => 1 end.

Definition rgo (k : proc) (j : nat) (q : rdr) : proc :=
  mk_proc (k_world k) (k_pc k) (k_todo k) (k_results k) (k_lock k) (k_poison k)
          (upd (k_readers k) j (fun _ => q)).

(** One step of reader [j]. *)
Definition rstep (k : proc) (j : nat) : option proc :=
  match nth_error (k_readers k) j with
  | None => None
  | Some q =>
      let mi := q_mi q in
      match q_pc q with
      | QNew => Some (rgo k j (mk_rdr mi QLock (List.length (k_results k)) 0))
      | QLock =>
          match k_lock k mi with
          | Some _ => None
          | None =>
              let k1 := relock k mi (Some (Reader j)) in
              (* [unwrap_or_else(|_| StyleData::new())] *)
              if k_poison k mi then Some (rgo k1 j (mk_rdr mi (QUnlock []) (q_begun q) 0))
              else Some (rgo k1 j (mk_rdr mi QCopy (q_begun q) 0))
          end
      | QCopy => Some (rgo k j (mk_rdr mi (QUnlock (data_of (k_world k) mi)) (q_begun q) 0))
      | QUnlock d => Some (rgo (relock k mi None) j (mk_rdr mi (QDone d) (q_begun q) (begun k)))
      | QDone _ => None
      end
  end.

Definition pstep (e : env) (k : proc) (t : who) : option proc :=
  match t with Writer => wstep e k | Reader j => rstep k j end.

(** A schedule says which thread is to go on; a thread that cannot stays where it is. *)
Fixpoint prun (e : env) (k : proc) (sched : list who) : proc :=
  match sched with
  | [] => k
  | t :: l => match pstep e k t with Some k1 => prun e k1 l | None => prun e k l end
  end.

(** The begin: a program, and readers of these managers. *)
Definition pbegin (page : dom) (prog : list op) (readers : list nat) : proc :=
  mk_proc (start page) WIdle prog [] (fun _ => None) (fun _ => false)
          (map (fun mi => mk_rdr mi QNew 0 0) readers).
