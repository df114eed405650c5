(** * Provider: [ManagerProvider], /repo/packages/stylist/src/yew/provider.rs, on the server and
    when it is hydrated. *)

From Coq Require Import String Ascii List NArith Bool Arith.
From Verif Require Import Str Ast Manager Hooks.
Import ListNotations.
Local Open Scope list_scope.

(** A mounted provider: the manager it provides, yew/provider.rs 68-72 (a clone of the
    property), the style data that came with the page, 48-54 ([use_transitive_state!]; [None] if
    the component is not hydrated), and the manager the [use_memo] of 58-64 depends on.
    Simplification: the property itself, which the parent holds, is the parent's handle. *)
Record provider := mk_provider
  { v_context : nat; v_dep : nat; v_data : option (list record) }.

(** The function of the [use_memo], yew/provider.rs 60-64. *)
Definition load_state (e : env) (h : nat) (data : option (list record)) (w : world) : option world :=
  match data with
  | Some d => match step e w (OLoad h d) with
              | (w1, RDone) => Some w1
              | _ => None
              end
  | None => Some w
  end.

Definition clone_handle (e : env) (h : nat) (w : world) : option (world * nat) :=
  match step e w (OCloneManager h) with
  | (w1, RHandle h') => Some (w1, h')
  | _ => None
  end.

(** The first rendering, with the manager of the handle [h]: yew/provider.rs 41-73.  [None] is
    the panic of [load_style_data]. *)
Definition provide (e : env) (h : nat) (data : option (list record)) (a : app) :
    option (app * provider) :=
  match clone_handle e h (a_world a) with
  | None => None
  | Some (w1, c) =>
      match clone_handle e h w1 with
      | None => None
      | Some (w2, dep) =>
          match load_state e dep data w2 with
          | Some w3 => Some (with_world a w3, mk_provider c dep data)
          | None => None
          end
      end
  end.

(** Rendered again.  The memo runs again if the manager is another one; as in [Hooks.v] it drops
    what it has before or after. *)
Definition provide_again (y : yew) (e : env) (p : provider) (h : nat) (a : app) :
    option (app * provider) :=
  match clone_handle e h (a_world a) with
  | None => None
  | Some (w1, c) =>
      if same_manager w1 (v_dep p) h
      then Some (with_world a (fst (step e w1 (ODropManager (v_context p)))),
                 mk_provider c (v_dep p) (v_data p))
      else
        match clone_handle e h w1 with
        | None => None
        | Some (w2, dep) =>
            let w3 := if y_drop_first y then fst (step e w2 (ODropManager (v_dep p))) else w2 in
            match load_state e dep (v_data p) w3 with
            | None => None
            | Some w4 =>
                let w5 := if y_drop_first y then w4 else fst (step e w4 (ODropManager (v_dep p))) in
                Some (with_world a (fst (step e w5 (ODropManager (v_context p)))),
                      mk_provider c dep (v_data p))
            end
        end
  end.

(** Unmounted. *)
Definition unprovide (e : env) (p : provider) (a : app) : app :=
  with_world a (fst (step e (fst (step e (a_world a) (ODropManager (v_dep p))))
                            (ODropManager (v_context p)))).

(** The state computed on the server when the component has been rendered with its children,
    yew/provider.rs 48-54. *)
Definition server_state (e : env) (p : provider) (a : app) : list record :=
  match step e (a_world a) (ORead (v_context p)) with
  | (_, RData d) => d
  | _ => []
  end.
