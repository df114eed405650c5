(** * Threads: what the threads of a process share.

    A server renders in several threads.  Managers and styles belong to one thread ([Rc]); shared
    are the cache of parsed sheets (/repo/packages/stylist-core/src/ast/sheet.rs 91), the counter
    of class names (/repo/packages/stylist/src/utils.rs 13) and the sheets of macros
    (/repo/packages/stylist-macros/src/output/sheet.rs 29).  One step here is one access to something
    shared; threads are interleaved in any way at these points.

    [Mutex::lock] waits while another thread has the lock, and the guard gives it back when it is
    dropped.  [once_cell::sync::Lazy] runs its initializer in the first thread that comes and lets the
    others wait.  [CTR] is itself a [Lazy], of zero.  A lock is poisoned only if a thread panics
    while it has it; [Parser::parse] does not panic in the model, so there are no poisoned locks. *)

From Coq Require Import String Ascii List NArith Bool Arith.
From Verif Require Import Str Ast CssParser SheetCache Ids Manager.
Import ListNotations.
Local Open Scope list_scope.

(** What a thread calls. *)
Inductive call :=
| KParse (s : str)      (* [Sheet::from_str] *)
| KDraw                 (* [get_next_style_id] *)
| KStatic (i : nat).    (* a macro call whose sheet is static number [i] *)
Inductive answer := ASheet (r : parse_result) | AId (s : str) | AStatic (s : sheet).

(** Where a thread is. *)
Inductive pc :=
| PIdle
| PLock (s : str)                      (* sheet.rs 100, in [lock] *)
| PGet (s : str)                       (* 102, before [get] *)
| PParse (s : str)                     (* 106, before [Parser::parse] *)
| PInsert (s : str) (m : sheet)        (* 108, before [insert] *)
| PReturn (s : str) (r : parse_result) (* 103, 106 or 110: the guard is about to be dropped *)
| PForce (i : nat)                     (* output/sheet.rs 33, [SHEET_REF.clone()] *)
| PInit (i : nat).                     (* output/sheet.rs 30, in the initializer *)

Record thread := mk_thread { t_todo : list call; t_pc : pc; t_done : list (call * answer) }.

(** The state of a [Lazy]. *)
Inductive cell := CEmpty | CBusy (t : nat) | CReady (v : sheet).

(** [m_parsed] and [m_built] are no data of the program: they tell which texts have been parsed
    and which sheets of macros have been built, the last one first. *)
Record machine := mk_machine
  { m_lock : option nat; m_cache : cache; m_counter : nat; m_cells : list cell;
    m_threads : list thread; m_parsed : list str; m_built : list nat }.

Definition set_thread (m : machine) (t : nat) (th : thread) : machine :=
  mk_machine (m_lock m) (m_cache m) (m_counter m) (m_cells m) (upd (m_threads m) t (fun _ => th))
             (m_parsed m) (m_built m).
Definition set_lock (m : machine) (l : option nat) : machine :=
  mk_machine l (m_cache m) (m_counter m) (m_cells m) (m_threads m) (m_parsed m) (m_built m).
Definition set_cell (m : machine) (i : nat) (c : cell) : machine :=
  mk_machine (m_lock m) (m_cache m) (m_counter m) (upd (m_cells m) i (fun _ => c)) (m_threads m)
             (m_parsed m) (m_built m).

Definition goto (th : thread) (p : pc) : thread := mk_thread (t_todo th) p (t_done th).
Definition finish (th : thread) (c : call) (a : answer) : thread :=
  mk_thread (tl (t_todo th)) PIdle (t_done th ++ [(c, a)]).

(** One step of thread [t]; [None] if it waits or has nothing to do.  [inits] are the sheets that the
    initializers of the statics make. *)
Definition tstep (inits : list sheet) (m : machine) (t : nat) : option machine :=
  match nth_error (m_threads m) t with
  | None => None
  | Some th =>
      match t_pc th with
      | PIdle =>
          match t_todo th with
          | [] => None
          | KParse s :: _ => Some (set_thread m t (goto th (PLock s)))
          | KDraw :: _ =>
              (* utils.rs 15-16 *)
              let m1 := mk_machine (m_lock m) (m_cache m) (S (m_counter m)) (m_cells m) (m_threads m)
                                   (m_parsed m) (m_built m) in
              Some (set_thread m1 t (finish th KDraw (AId (counter_entropy (m_counter m)))))
          | KStatic i :: _ => Some (set_thread m t (goto th (PForce i)))
          end
      | PLock s =>
          match m_lock m with
          | None => Some (set_thread (set_lock m (Some t)) t (goto th (PGet s)))
          | Some _ => None
          end
      | PGet s =>
          match cache_get (m_cache m) s with
          | Some v => Some (set_thread m t (goto th (PReturn s (Parsed v))))
          | None => Some (set_thread m t (goto th (PParse s)))
          end
      | PParse s =>
          let m1 := mk_machine (m_lock m) (m_cache m) (m_counter m) (m_cells m) (m_threads m)
                               (s :: m_parsed m) (m_built m) in
          match parse s with
          | Parsed v => Some (set_thread m1 t (goto th (PInsert s v)))
          | r => Some (set_thread m1 t (goto th (PReturn s r)))
          end
      | PInsert s v =>
          let m1 := mk_machine (m_lock m) (cache_insert (m_cache m) s v) (m_counter m) (m_cells m)
                               (m_threads m) (m_parsed m) (m_built m) in
          Some (set_thread m1 t (goto th (PReturn s (Parsed v))))
      | PReturn s r =>
          Some (set_thread (set_lock m None) t (finish th (KParse s) (ASheet r)))
      | PForce i =>
          match nth_error (m_cells m) i with
          | Some CEmpty => Some (set_thread (set_cell m i (CBusy t)) t (goto th (PInit i)))
          | Some (CBusy _) => None
          | Some (CReady v) => Some (set_thread m t (finish th (KStatic i) (AStatic v)))
          | None => None
          end
      | PInit i =>
          match nth_error inits i with
          | Some v =>
              let m1 := mk_machine (m_lock m) (m_cache m) (m_counter m) (m_cells m) (m_threads m)
                                   (m_parsed m) (i :: m_built m) in
              Some (set_thread (set_cell m1 i (CReady v)) t (goto th (PForce i)))
          | None => None
          end
      end
  end.

(** A schedule says which thread is to go on; a thread that cannot stays where it is. *)
Fixpoint trun (inits : list sheet) (m : machine) (sched : list nat) : machine :=
  match sched with
  | [] => m
  | t :: l => match tstep inits m t with Some m1 => trun inits m1 l | None => trun inits m l end
  end.

(** The begin: the threads with what they are to call. *)
Definition begin (inits : list sheet) (work : list (list call)) : machine :=
  mk_machine None [] 0 (map (fun _ => CEmpty) inits) (map (fun l => mk_thread l PIdle []) work) [] [].
