(** * Component: one rendering of a function with the attribute [styled_component],
    /repo/packages/stylist-macros/src/{styled_component,styled_component_impl}.rs.

    yew runs the function of a component from begin to end and renders its children after that
    (yew 0.22); so what happens inside is a sequence of steps of the program of [Create.v] and of
    uses of the macro [css!] that the attribute puts into scope. *)

From Coq Require Import String Ascii List NArith Bool Arith.
From Verif Require Import Str Ast CssParser SheetCache Manager Hooks Create.
Import ListNotations.
Local Open Scope list_scope.

(** ** The function of a component *)

(** What the function does, in order.  The sources it makes are numbered. *)
Inductive bop :=
| BCss (loc : option str) (s : sheet)   (* [css!(..)], which evaluates to this sheet *)
| BClasses (i : nat)                    (* [class={source}]: made into [Classes] *)
| BPass (i : nat)                       (* handed on, as a property of a child say *)
| BDo (o : pop).                        (* everything else *)

(** The manager and the sources are local variables of the function. *)
Record frame := mk_frame
  { f_prog : prog; f_manager : nat; f_sources : list (option source);
    f_classes : list (list str); f_passed : list source }.

Definition sources_handles (l : list (option source)) : list nat :=
  flat_map (fun o => match o with Some src => source_handles src | None => [] end) l.
Definition frame_handles (f : frame) : list nat := f_manager f :: sources_handles (f_sources f).

(** The managers a step of a program mentions.  Rust's ownership, and the hygiene of the name of
    the manager (styled_component_impl.rs 46), keep those of the function out of other code. *)
Definition option_list (o : option nat) : list nat := match o with Some h => [h] | None => [] end.
Definition pop_handles (o : pop) : list nat :=
  match o with
  | PApp (AOp o) => option_list (op_mhandle o)
  | PApp (AMount ctx src) | PApp (ARender _ ctx src) | PApp (AUseStyle ctx src) =>
      option_list ctx ++ source_handles src
  | PApp (AUnmount _) => []
  | PApp (AClasses src) => source_handles src
  | PCall _ c => option_list (call_handle c) ++ option_list (css_manager (call_css c))
  | PParse _ => []
  end.

(** Those it consumes. *)
Definition pop_takes (o : pop) : list nat :=
  match o with
  | PApp (AOp (ODropManager h)) => [h]
  | PApp (AClasses src) | PApp (AUseStyle _ src) => source_handles src
  | PCall _ c => option_list (call_handle c) ++ option_list (css_manager (call_css c))
  | _ => []
  end.

(** A step; [None] is a panic, or what ownership excludes.  [css!], styled_component_impl.rs
    47-57: [::stylist::css!(..)], which is [StyleSource::from] the sheet (css.rs 4-8), with a
    clone of the manager. *)
Definition bstep (y : yew) (e : env) (f : frame) (o : bop) : option frame :=
  let p := f_prog f in
  let a := p_app p in
  match o with
  | BCss loc s =>
      match step e (a_world a) (OCloneManager (f_manager f)) with
      | (w, RHandle h) =>
          let (w1, src) := with_manager e (from_sheet loc s) h w in
          Some (mk_frame (mk_prog (with_world a w1) (p_cache p)) (f_manager f)
                         (f_sources f ++ [Some src]) (f_classes f) (f_passed f))
      | _ => None
      end
  | BClasses i =>
      match nth_error (f_sources f) i with
      | Some (Some src) =>
          match into_classes e src a with
          | Some (a1, cl) =>
              Some (mk_frame (mk_prog a1 (p_cache p)) (f_manager f)
                             (upd (f_sources f) i (fun _ => None)) (f_classes f ++ [cl]) (f_passed f))
          | None => None
          end
      | _ => None
      end
  | BPass i =>
      match nth_error (f_sources f) i with
      | Some (Some src) =>
          Some (mk_frame p (f_manager f) (upd (f_sources f) i (fun _ => None)) (f_classes f)
                         (f_passed f ++ [src]))
      | _ => None
      end
  | BDo o =>
      if forallb (fun h => negb (existsb (Nat.eqb h) (frame_handles f))) (pop_handles o)
      then match pstep y e p o with
           | Some p1 => Some (mk_frame p1 (f_manager f) (f_sources f) (f_classes f) (f_passed f))
           | None => None
           end
      else None
  end.
Fixpoint brun (y : yew) (e : env) (f : frame) (l : list bop) : option frame :=
  match l with
  | [] => Some f
  | o :: l' => match bstep y e f o with Some f1 => brun y e f1 l' | None => None end
  end.

(** The end of the function: the sources that are left are dropped, the last one first, then the
    manager. *)
Definition drop_sources (e : env) (l : list (option source)) (w : world) : world :=
  fold_left (fun w o => match o with Some src => drop_source e src w | None => w end) (rev l) w.
Definition leave (e : env) (f : frame) : prog :=
  let w := drop_sources e (f_sources f) (a_world (p_app (f_prog f))) in
  mk_prog (with_world (p_app (f_prog f)) (fst (step e w (ODropManager (f_manager f)))))
          (p_cache (f_prog f)).

(** One rendering, styled_component_impl.rs 59-69: the manager of the context is taken first.
    The classes are in the order in which they are made; the sources handed on are someone
    else's now. *)
Definition render_component (y : yew) (e : env) (ctx : option nat) (body : list bop) (p : prog)
  : option (prog * list (list str) * list source) :=
  match context_manager e ctx (p_app p) with
  | None => None
  | Some (a, h) =>
      match brun y e (mk_frame (mk_prog a (p_cache p)) h [] [] []) body with
      | None => None
      | Some f => Some (leave e f, f_classes f, f_passed f)
      end
  end.

(** Programs with components. *)
Inductive cop :=
| CDo (o : pop)
| CRender (ctx : option nat) (body : list bop).
Definition cstep (y : yew) (e : env) (p : prog) (o : cop) : option prog :=
  match o with
  | CDo o => pstep y e p o
  | CRender ctx body =>
      match render_component y e ctx body p with Some (p1, _, _) => Some p1 | None => None end
  end.
Fixpoint crun (y : yew) (e : env) (p : prog) (l : list cop) : option prog :=
  match l with
  | [] => Some p
  | o :: l' => match cstep y e p o with Some p1 => crun y e p1 l' | None => None end
  end.
