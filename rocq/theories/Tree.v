(** * Tree: an application as a tree of components and providers, rendered on the server and
    hydrated in the browser.

    yew runs the function of a component before those of its children.  Otherwise the order is
    left open here: on the server siblings are rendered concurrently (one that is suspended lets
    the others go on), and the browser has a queue of its own.  What is given is only which node
    is taken next, by a path. *)

From Coq Require Import String Ascii List NArith Bool Arith.
From Verif Require Import Str Ast CssParser SheetCache Manager Hooks Create Component Provider.
Import ListNotations.
Local Open Scope list_scope.

(** ** What is to be rendered *)

(** Children and siblings: [VComp] is a component with the attribute [styled_component]
    (stylist-macros/src/styled_component_impl.rs) by what its function does, [VProv] a
    [ManagerProvider] (stylist/src/yew/provider.rs) with the manager number [k] of the
    application, and, if the page came from a server, the state that came with it.
    Simplification: elements without styles, and components that use none, are left out; a source
    handed on to a child is not followed further. *)
Inductive view :=
| VEnd
| VComp (body : list bop) (ch next : view)
| VProv (k : nat) (data : option (list record)) (ch next : view).

(** What there is so far.  [cls] are the classes the component got, [st] is the state of a
    provider that the server has finished. *)
Inductive live :=
| LEnd
| LCompWait (body : list bop) (ch : view) (next : live)
| LComp (body : list bop) (cls : list (list str)) (ch next : live)
| LProvWait (k : nat) (data : option (list record)) (ch : view) (next : live)
| LProv (k : nat) (v : provider) (ch next : live)
| LProvDone (k : nat) (st : list record) (ch next : live).

Fixpoint begin (v : view) : live :=
  match v with
  | VEnd => LEnd
  | VComp b ch nx => LCompWait b ch (begin nx)
  | VProv k d ch nx => LProvWait k d ch (begin nx)
  end.

(** The server has nothing left to do. *)
Fixpoint finished (l : live) : bool :=
  match l with
  | LEnd => true
  | LComp _ _ ch nx | LProvDone _ _ ch nx => finished ch && finished nx
  | LCompWait _ _ _ | LProvWait _ _ _ _ | LProv _ _ _ _ => false
  end.

(** ** One step *)

(** [LIdle]: the node can not be taken now. *)
Inductive lres := LNext (p : prog) (l : live) | LPanic | LIdle.
Definition lmap (f : live -> live) (r : lres) : lres :=
  match r with LNext p l => LNext p (f l) | LPanic => LPanic | LIdle => LIdle end.

(** The node at the path is taken: [true] goes to the children of a node, [false] to the next
    sibling.  [ms] are the managers of the application, [ctx] is the context.
    A component that waits is rendered (styled_component_impl.rs 41-71).
    A provider that waits is rendered, yew/provider.rs 39-73; its manager is the context of its
    children.
    On the server a provider whose children are finished is finished itself: its state is computed
    (provider.rs 48-54), then the component is destroyed. *)
Fixpoint lstep (y : yew) (e : env) (server : bool) (ms : list nat) (ctx : option nat)
    (path : list bool) (l : live) (p : prog) : lres :=
  match l, path with
  | LCompWait b ch nx, [] =>
      match render_component y e ctx b p with
      | Some (p1, cls, _) => LNext p1 (LComp b cls (begin ch) nx)
      | None => LPanic
      end
  | LProvWait k d ch nx, [] =>
      match nth_error ms k with
      | Some h =>
          match provide e h d (p_app p) with
          | Some (a, v) => LNext (mk_prog a (p_cache p)) (LProv k v (begin ch) nx)
          | None => LPanic
          end
      | None => LIdle (* there is no such manager *)
      end
  | LProv k v ch nx, [] =>
      if server && finished ch
      then LNext (mk_prog (unprovide e v (p_app p)) (p_cache p))
                 (LProvDone k (server_state e v (p_app p)) ch nx)
      else LIdle
  | LComp b cls ch nx, true :: path' =>
      lmap (fun c => LComp b cls c nx) (lstep y e server ms ctx path' ch p)
  | LProv k v ch nx, true :: path' =>
      lmap (fun c => LProv k v c nx) (lstep y e server ms (Some (v_context v)) path' ch p)
  | LCompWait b ch nx, false :: path' =>
      lmap (LCompWait b ch) (lstep y e server ms ctx path' nx p)
  | LComp b cls ch nx, false :: path' =>
      lmap (LComp b cls ch) (lstep y e server ms ctx path' nx p)
  | LProvWait k d ch nx, false :: path' =>
      lmap (LProvWait k d ch) (lstep y e server ms ctx path' nx p)
  | LProv k v ch nx, false :: path' =>
      lmap (LProv k v ch) (lstep y e server ms ctx path' nx p)
  | LProvDone k st ch nx, false :: path' =>
      lmap (LProvDone k st ch) (lstep y e server ms ctx path' nx p)
  | _, _ => LIdle
  end.

(** A schedule. *)
Fixpoint lrun (y : yew) (e : env) (server : bool) (ms : list nat) (ctx : option nat)
    (schedule : list (list bool)) (l : live) (p : prog) : lres :=
  match schedule with
  | [] => LNext p l
  | path :: rest =>
      match lstep y e server ms ctx path l p with
      | LNext p1 l1 => lrun y e server ms ctx rest l1 p1
      | LPanic => LPanic
      | LIdle => lrun y e server ms ctx rest l p
      end
  end.

(** ** From the server to the browser *)

(** The text of a record is not sent, manager/mod.rs 307-313 ([serde(skip)]). *)
Definition received (r : record) : record := mk_record (r_key r) (r_id r) [].
(** The same application in the browser, with the states of the providers. *)
Fixpoint sent (l : live) : view :=
  match l with
  | LComp b _ ch nx => VComp b (sent ch) (sent nx)
  | LProvDone k st ch nx => VProv k (Some (map received st)) (sent ch) (sent nx)
  | _ => VEnd
  end.
