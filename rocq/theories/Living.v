(** * Living: an application in the browser, as it goes on: components are mounted, rendered again
    with the same or other properties, and destroyed, and providers get other managers.

    The order of all this is open: what is given is a list of events, each with the path of the
    node it happens to.  The tree is the one of [Tree.v]. *)

From Coq Require Import String Ascii List NArith Bool Arith.
From Verif Require Import Str Ast CssParser SheetCache Manager Hooks Create Component Provider Tree.
Import ListNotations.
Local Open Scope list_scope.

(** ** What is mounted *)

(** [NWait] and [NProvWait] wait for their first rendering.  [NComp]: a component rendered at
    least once, by its function and the classes it got last; it is not [fresh] if its context
    has changed since (yew will render it again, but something else may come first). *)
Inductive node :=
| NEnd
| NWait (body : list bop) (ch : view) (next : node)
| NComp (fresh : bool) (body : list bop) (cls : list (list str)) (ch next : node)
| NProvWait (k : nat) (data : option (list record)) (ch : view) (next : node)
| NProv (k : nat) (v : provider) (ch next : node).

(** New nodes before others. *)
Fixpoint waiting (v : view) (n : node) : node :=
  match v with
  | VEnd => n
  | VComp b ch nx => NWait b ch (waiting nx n)
  | VProv k d ch nx => NProvWait k d ch (waiting nx n)
  end.

(** The manager handles of mounted providers. *)
Fixpoint node_handles (n : node) : list nat :=
  match n with
  | NEnd => []
  | NWait _ _ nx | NProvWait _ _ _ nx => node_handles nx
  | NComp _ _ _ ch nx => node_handles ch ++ node_handles nx
  | NProv _ v ch nx => v_context v :: v_dep v :: node_handles ch ++ node_handles nx
  end.

(** The context has changed: all components that read it, up to further providers. *)
Fixpoint stale (n : node) : node :=
  match n with
  | NEnd => NEnd
  | NWait b ch nx => NWait b ch (stale nx)
  | NComp _ b cls ch nx => NComp false b cls (stale ch) (stale nx)
  | NProvWait k d ch nx => NProvWait k d ch (stale nx)
  | NProv k v ch nx => NProv k v ch (stale nx)
  end.

(** All nodes are destroyed.  [late]: a provider after its children. *)
Fixpoint destroy (e : env) (late : bool) (n : node) (p : prog) : prog :=
  match n with
  | NEnd => p
  | NWait _ _ nx | NProvWait _ _ _ nx => destroy e late nx p
  | NComp _ _ _ ch nx => destroy e late nx (destroy e late ch p)
  | NProv _ v ch nx =>
      let un p := mk_prog (unprovide e v (p_app p)) (p_cache p) in
      destroy e late nx (if late then un (destroy e late ch p) else destroy e late ch (un p))
  end.

(** ** Events *)

(** [NIdle]: the event can not happen now. *)
Inductive nres := NNext (p : prog) (n : node) | NPanic | NIdle.
Definition nmap (f : node -> node) (r : nres) : nres :=
  match r with NNext p n => NNext p (f n) | NPanic => NPanic | NIdle => NIdle end.

Inductive event :=
| ERender (path : list bool)                    (* rendered, for the first time or again *)
| EUpdate (path : list bool) (body : list bop)  (* rendered again with other properties *)
| EMount (path : list bool) (v : view)          (* new nodes before the one at the path *)
| EUnmount (path : list bool) (late : bool)     (* the node at the path is destroyed *)
| EManager (path : list bool) (k : nat)         (* the provider gets the manager number [k] *)
| EDo (o : pop).                                (* anything else in the program *)

(** At the node of the path: [true] goes to the children, [false] to the next sibling; below a
    provider its manager is the context. *)
Fixpoint at_path (act : option nat -> node -> prog -> nres) (ctx : option nat)
    (path : list bool) (n : node) (p : prog) : nres :=
  match path with
  | [] => act ctx n p
  | true :: rest =>
      match n with
      | NComp f b cls ch nx => nmap (fun c => NComp f b cls c nx) (at_path act ctx rest ch p)
      | NProv k v ch nx =>
          nmap (fun c => NProv k v c nx) (at_path act (Some (v_context v)) rest ch p)
      | _ => NIdle
      end
  | false :: rest =>
      match n with
      | NEnd => NIdle
      | NWait b ch nx => nmap (NWait b ch) (at_path act ctx rest nx p)
      | NComp f b cls ch nx => nmap (NComp f b cls ch) (at_path act ctx rest nx p)
      | NProvWait k d ch nx => nmap (NProvWait k d ch) (at_path act ctx rest nx p)
      | NProv k v ch nx => nmap (NProv k v ch) (at_path act ctx rest nx p)
      end
  end.

(** A component is rendered, styled_component_impl.rs 41-71, with its function [b'] from now
    on. *)
Definition rendered (y : yew) (e : env) (ctx : option nat) (b' : list bop) (ch nx : node)
    (p : prog) : nres :=
  match render_component y e ctx b' p with
  | Some (p1, cls, _) => NNext p1 (NComp true b' cls ch nx)
  | None => NPanic
  end.
(** A provider is rendered for the first time, yew/provider.rs 39-73.  A provider rendered again
    with the manager it has is [change_manager] with this manager. *)
Definition render_at (y : yew) (e : env) (ms : list nat) (ctx : option nat) (n : node)
    (p : prog) : nres :=
  match n with
  | NWait b ch nx => rendered y e ctx b (waiting ch NEnd) nx p
  | NComp _ b _ ch nx => rendered y e ctx b ch nx p
  | NProvWait k d ch nx =>
      match nth_error ms k with
      | Some h =>
          match provide e h d (p_app p) with
          | Some (a, v) => NNext (mk_prog a (p_cache p)) (NProv k v (waiting ch NEnd) nx)
          | None => NPanic
          end
      | None => NIdle (* there is no such manager *)
      end
  | _ => NIdle
  end.
Definition update_at (y : yew) (e : env) (b' : list bop) (ctx : option nat) (n : node)
    (p : prog) : nres :=
  match n with
  | NWait _ ch nx => NNext p (NWait b' ch nx)
  | NComp _ _ _ ch nx => rendered y e ctx b' ch nx p
  | _ => NIdle
  end.
Definition mount_at (v : view) (_ : option nat) (n : node) (p : prog) : nres :=
  NNext p (waiting v n).
Definition unmount_at (e : env) (late : bool) (_ : option nat) (n : node) (p : prog) : nres :=
  match n with
  | NEnd => NIdle
  | NWait _ _ nx | NProvWait _ _ _ nx => NNext p nx
  | NComp _ _ _ ch nx => NNext (destroy e late ch p) nx
  | NProv k v ch nx => NNext (destroy e late (NProv k v ch NEnd) p) nx
  end.
(** A provider is rendered with another manager, or with the same one, yew/provider.rs 41-73.
    yew tells the components that read a context if it is not equal to the one before, and two
    managers are equal if they are the same (manager/mod.rs 58-62). *)
Definition manager_at (y : yew) (e : env) (ms : list nat) (k' : nat) (_ : option nat) (n : node)
    (p : prog) : nres :=
  match nth_error ms k' with
  | None => NIdle
  | Some h =>
      match n with
      | NProvWait _ d ch nx => NNext p (NProvWait k' d ch nx)
      | NProv _ v ch nx =>
          match provide_again y e v h (p_app p) with
          | Some (a, v') =>
              NNext (mk_prog a (p_cache p))
                    (NProv k' v' (if same_manager (a_world (p_app p)) (v_context v) h
                                  then ch else stale ch) nx)
          | None => NPanic
          end
      | _ => NIdle
      end
  end.

(** One event.  Other parts of the program do not have the handles of providers (they can use
    them, as [Global] does below a provider, but not drop them). *)
Definition nstep (y : yew) (e : env) (ms : list nat) (ev : event) (n : node) (p : prog) : nres :=
  match ev with
  | ERender path => at_path (render_at y e ms) None path n p
  | EUpdate path b => at_path (update_at y e b) None path n p
  | EMount path v => at_path (mount_at v) None path n p
  | EUnmount path late => at_path (unmount_at e late) None path n p
  | EManager path k => at_path (manager_at y e ms k) None path n p
  | EDo o =>
      if forallb (fun h => negb (existsb (Nat.eqb h) (node_handles n))) (pop_takes o)
      then match pstep y e p o with Some p1 => NNext p1 n | None => NPanic end
      else NIdle
  end.
Fixpoint nrun (y : yew) (e : env) (ms : list nat) (evs : list event) (n : node) (p : prog) : nres :=
  match evs with
  | [] => NNext p n
  | ev :: rest =>
      match nstep y e ms ev n p with
      | NNext p1 n1 => nrun y e ms rest n1 p1
      | NPanic => NPanic
      | NIdle => nrun y e ms rest n p
      end
  end.
