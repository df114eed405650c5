(** * SpecProgress: the words in which it is stated that creating styles succeeds. *)

From Coq Require Import String Ascii List NArith Bool Arith.
From Verif Require Import Str Ast CssParser Ids Manager Hooks.
Import ListNotations.
Local Open Scope list_scope.

(** The container [k] of the page takes style elements. *)
Definition takes_elements (page : dom) (k : nat) : Prop :=
  exists n, nth_error page k = Some n /\ n_accepts n = true.

(** The container a manager that is built gets: the given one, else the head of the document. *)
Definition given_container (e : env) (cont : option nat) : option nat :=
  match cont with
  | Some k => Some k
  | None => if e_document e then e_head e else None
  end.

(** Building is sane: outside of the browser it always is; in the browser there is a container,
    and if the manager does not only record (static mode), then it appends, there is a
    document, and the container takes elements. *)
Definition sane_build (e : env) (page : dom) (cont : option nat) (append static : bool) : Prop :=
  e_wasm e = true ->
  exists k, given_container e cont = Some k
            /\ (static = true
                \/ (append = true /\ e_document e = true /\ takes_elements page k)).

(** The check of debug builds passes: they parse the generated CSS again. *)
Definition rereads (e : env) (k : key) : Prop :=
  e_debug e = true ->
  forall n, exists s, parse (style_text k (new_id (k_global k) (k_prefix k) (e_draw e n))) = Parsed s.

Definition sane_op (e : env) (page : dom) (o : op) : Prop :=
  match o with
  | OBuild _ c a s => sane_build e page c a s
  | OCreate _ k => rereads e k
  | _ => True
  end.

(** ** Programs with components *)

(** The prefixes of the managers of a program; ["stylist"] is the default. *)
Definition prefixes (l : list aop) : list str :=
  lit "stylist"
  :: flat_map (fun o => match o with AOp (OBuild p _ _ _) => [p] | _ => [] end) l.

(** The default manager, if it may be needed, can be built. *)
Definition default_sane (e : env) (page : dom) (h : option nat) : Prop :=
  h = None -> sane_build e page None true false.

Definition sane_aop (e : env) (page : dom) (ps : list str) (o : aop) : Prop :=
  match o with
  | AOp o => sane_op e page o
  | AMount ctx src | ARender _ ctx src =>
      default_sane e page ctx
      /\ forall p, In p ps -> rereads e (mk_key true p (s_sheet src))
  | AUnmount _ => True
  | AClasses src =>
      default_sane e page (s_manager src)
      /\ forall p, In p ps -> rereads e (mk_key false p (s_sheet src))
  | AUseStyle ctx src =>
      default_sane e page ctx
      /\ forall p, In p ps -> rereads e (mk_key false p (s_sheet src))
  end.
Definition sane_program (e : env) (page : dom) (l : list aop) : Prop :=
  Forall (sane_aop e page (prefixes l)) l.

(** A handle of a manager, if any, is not dropped. *)
Definition not_dropped (a : app) (h : option nat) : Prop :=
  match h with Some h => exists mi, handle_of (w_mhandles (a_world a)) h = Some mi | None => True end.

(** What Rust's ownership lets a program do in the state [a]: user code acts on its own
    handles, only mounted components are rendered again or unmounted, and managers that are
    used are there.  Loading style data, which may fail, is excluded. *)
Definition allowed (a : app) (o : aop) : Prop :=
  match o with
  | AOp (OLoad _ _) => False
  | AOp o => (forall h, op_style o = Some h -> ~ In h (style_handles a))
             /\ (forall h, op_mhandle o = Some h -> ~ In h (manager_handles a))
  | AMount ctx src => not_dropped a ctx /\ not_dropped a (s_manager src)
  | ARender i ctx src =>
      not_dropped a ctx /\ not_dropped a (s_manager src)
      /\ exists g, nth_error (a_globals a) i = Some (Some g)
  | AUnmount i => exists g, nth_error (a_globals a) i = Some (Some g)
  | AClasses src =>
      not_dropped a (s_manager src)
      /\ forall h, s_manager src = Some h -> ~ In h (manager_handles a)
  | AUseStyle ctx src =>
      not_dropped a ctx /\ not_dropped a (s_manager src)
      /\ forall h, s_manager src = Some h -> ~ In h (manager_handles a)
  end.
