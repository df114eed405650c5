(** * Hooks: style sources and the yew integration,
    /repo/packages/stylist/src/{style_src.rs,yew/*.rs,yew/hooks/*.rs} and
    /repo/packages/stylist-macros/src/{styled_component_impl,use_style}.rs.

    Components are machines over the managers and the document of [Manager.v]: everything they
    do to styles and managers is an [op].  The parts of yew they rest on ([use_memo],
    [use_context], [use_state_eq], [use_effect_with]) are written down here as their
    documentation and sources (yew 0.22) have them; where an order is not documented it is a
    parameter, [yew]. *)

From Coq Require Import String Ascii List NArith Bool Arith.
From Verif Require Import Str Ast Manager.
Import ListNotations.
Local Open Scope list_scope.

(** ** Style sources *)

(** [StyleSource], style_src.rs 23-30: the sheet, the manager (a handle), and the location with
    the feature [debug_style_locations] ([None] without). *)
Record source := mk_source
  { s_sheet : sheet; s_manager : option nat; s_location : option str }.

(** [From<Sheet>], style_src.rs 64-74. *)
Definition from_sheet (loc : option str) (s : sheet) : source := mk_source s None loc.

(** [with_manager], style_src.rs 57-62; the manager it had is dropped. *)
Definition drop_source (e : env) (src : source) (w : world) : world :=
  match s_manager src with
  | Some h => fst (step e w (ODropManager h))
  | None => w
  end.
Definition with_manager (e : env) (src : source) (h : nat) (w : world) : world * source :=
  (drop_source e src w, mk_source (s_sheet src) (Some h) (s_location src)).

(** [Clone], derived: style_src.rs 22.  [None] if the source has no valid handle, which Rust
    excludes. *)
Definition clone_source (e : env) (src : source) (w : world) : option (world * source) :=
  match s_manager src with
  | Some h =>
      match step e w (OCloneManager h) with
      | (w1, RHandle h') => Some (w1, mk_source (s_sheet src) (Some h') (s_location src))
      | _ => None
      end
  | None => Some (w, src)
  end.

(** [PartialEq for StyleManager], manager/mod.rs 58-62, and of [StyleSource], derived. *)
Definition same_manager (w : world) (h h' : nat) : bool :=
  match handle_of (w_mhandles w) h, handle_of (w_mhandles w) h' with
  | Some a, Some b => Nat.eqb a b
  | _, _ => false
  end.
Definition source_eqb (w : world) (a b : source) : bool :=
  sheet_eqb (s_sheet a) (s_sheet b)
  && match s_manager a, s_manager b with
     | Some h, Some h' => same_manager w h h'
     | None, None => true
     | _, _ => false
     end
  && match s_location a, s_location b with
     | Some x, Some y => str_eqb x y
     | None, None => true
     | _, _ => false
     end.

(** ** The program *)

(** What a mounted [Global] keeps in its [use_memo]: the manager and the source it depends on,
    and the [GlobalStyleGuard], yew/global.rs 44-57. *)
Record guard := mk_guard { g_manager : nat; g_source : source; g_style : nat }.

(** [a_default] is the handle in the thread local of [StyleManager::default], manager/mod.rs
    289-297, once used; [a_globals] are the [Global] components, [None] once unmounted. *)
Record app := mk_app
  { a_world : world; a_default : option nat; a_globals : list (option guard) }.

(** [use_memo] with changed dependencies drops what it has before it computes the new value, or
    after; and drops the dependencies before the value, or after. *)
Record yew := mk_yew { y_drop_first : bool; y_key_first : bool }.

Definition with_world (a : app) (w : world) : app := mk_app w (a_default a) (a_globals a).
Definition with_globals (a : app) (l : list (option guard)) : app :=
  mk_app (a_world a) (a_default a) l.

(** [StyleManager::default], manager/mod.rs 289-297, with the defaults of mod.rs 46-57: a clone
    of the one of the thread.  [None] is the panic. *)
Definition default_manager (e : env) (a : app) : option (app * nat) :=
  match a_default a with
  | Some h =>
      match step e (a_world a) (OCloneManager h) with
      | (w, RHandle h') => Some (with_world a w, h')
      | _ => None
      end
  | None =>
      match step e (a_world a) (OBuild (lit "stylist") None true false) with
      | (w, RHandle h) =>
          match step e w (OCloneManager h) with
          | (w1, RHandle h') => Some (mk_app w1 (Some h) (a_globals a), h')
          | _ => None
          end
      | _ => None
      end
  end.

(** [use_context::<StyleManager>().unwrap_or_default()], yew/global.rs 42,
    hooks/use_style.rs 30, styled_component_impl.rs 62: a clone of the manager of the innermost
    [ManagerProvider] around the component (yew/provider.rs 68-72), if there is one. *)
Definition context_manager (e : env) (ctx : option nat) (a : app) : option (app * nat) :=
  match ctx with
  | Some h =>
      match step e (a_world a) (OCloneManager h) with
      | (w, RHandle h') => Some (with_world a w, h')
      | _ => None
      end
  | None => default_manager e a
  end.

Definition manager_of (w : world) (h : nat) : option mgr :=
  match handle_of (w_mhandles w) h with
  | Some mi => nth_error (w_mgrs w) mi
  | None => None
  end.

(** ** Classes and [use_style] *)

(** [Style::new_with_manager], style.rs 141-150 and 83-101, on a manager.  The clones of the
    manager made on the way are dropped again. *)
Definition new_style (e : env) (h : nat) (s : sheet) (w : world) : world * res :=
  match manager_of w h with
  | Some m => step e w (OCreate h (style_key (m_prefix m) s))
  | None => (w, RInvalid)
  end.

(** [From<StyleSource> for Classes], yew/mod.rs 123-134, with [into_style], style_src.rs 51-55:
    the classes; the style and the manager are dropped.  [None] is the panic. *)
Definition into_classes (e : env) (src : source) (a : app) : option (app * list str) :=
  match (match s_manager src with
         | Some h => Some (a, h)
         | None => default_manager e a
         end) with
  | None => None
  | Some (a1, h) =>
      match new_style e h (s_sheet src) (a_world a1) with
      | (w2, RHandle x) =>
          let w3 := fst (step e w2 (ODropManager h)) in
          match get_id w3 x with
          | None => None
          | Some class =>
              Some (with_world a1 (fst (step e w3 (ODropStyle x))),
                    class :: match s_location src with Some l => [l] | None => [] end)
          end
      | _ => None
      end
  end.

(** [use_style], hooks/use_style.rs 25-34: in the manager of the context; the source is
    consumed.  The handle of the style is the caller's. *)
Definition use_style (e : env) (ctx : option nat) (src : source) (a : app) : option (app * nat) :=
  match context_manager e ctx a with
  | None => None
  | Some (a1, h) =>
      let w1 := drop_source e src (a_world a1) in
      match new_style e h (s_sheet src) w1 with
      | (w2, RHandle x) => Some (with_world a1 (fst (step e w2 (ODropManager h))), x)
      | _ => None
      end
  end.

(** The macro [css!] of a [styled_component], styled_component_impl.rs 46-66: the manager of
    the context, taken when the component is rendered, is attached to every source. *)
Definition component_css (e : env) (ctx : option nat) (loc : option str) (s : sheet) (a : app) :
    option (app * source) :=
  match context_manager e ctx a with
  | None => None
  | Some (a1, h) =>
      let (w, src) := with_manager e (from_sheet loc s) h (a_world a1) in
      Some (with_world a1 w, src)
  end.

(** ** [Global] *)

(** [GlobalStyleGuard], yew/global.rs 54-57, with [GlobalStyle::new_with_manager],
    global_style.rs 20-36, 55-63.  [None] is the panic of [expect_display]. *)
Definition new_guard (e : env) (h : nat) (src : source) (w : world) : option (world * guard) :=
  match manager_of w h with
  | Some m =>
      match step e w (OCreate h (global_key m (s_sheet src))) with
      | (w1, RHandle x) => Some (w1, mk_guard h src x)
      | _ => None
      end
  | None => None
  end.

(** Dropping the state of the [use_memo]: the guard unregisters its style and drops it,
    yew/global.rs 48-52; the dependencies are dropped. *)
Definition drop_value (e : env) (g : guard) (w : world) : world :=
  fst (step e (fst (step e w (OUnregister (g_style g)))) (ODropStyle (g_style g))).
Definition drop_deps (e : env) (g : guard) (w : world) : world :=
  drop_source e (g_source g) (fst (step e w (ODropManager (g_manager g)))).
Definition drop_guard (y : yew) (e : env) (g : guard) (w : world) : world :=
  if y_key_first y then drop_value e g (drop_deps e g w) else drop_deps e g (drop_value e g w).

(** [use_memo((mgr, css), ..)], yew/global.rs 54: nothing happens if the dependencies are
    equal to those of the last time. *)
Definition memo (y : yew) (e : env) (old : option guard) (h : nat) (src : source) (w : world) :
    option (world * guard) :=
  match old with
  | None => new_guard e h src w
  | Some g =>
      if same_manager w (g_manager g) h && source_eqb w (g_source g) src
      then Some (drop_source e src (fst (step e w (ODropManager h))), g)
      else if y_drop_first y then new_guard e h src (drop_guard y e g w)
      else match new_guard e h src w with
           | Some (w1, g1) => Some (drop_guard y e g w1, g1)
           | None => None
           end
  end.

(** One rendering of [Global], yew/global.rs 40-60. *)
Definition render_global (y : yew) (e : env) (old : option guard) (ctx : option nat)
    (src : source) (a : app) : option (app * guard) :=
  match context_manager e ctx a with
  | None => None
  | Some (a1, h) =>
      match clone_source e src (a_world a1) with
      | Some (w1, src1) =>
          match memo y e old h src1 w1 with
          | Some (w2, g) => Some (with_world a1 w2, g)
          | None => None
          end
      | None => None
      end
  end.

(** ** Programs *)

Definition op_style (o : op) : option nat :=
  match o with OCloneStyle h | ODropStyle h | OUnregister h => Some h | _ => None end.
Definition op_mhandle (o : op) : option nat :=
  match o with
  | OCloneManager h | ODropManager h | OCreate h _ | OLoad h _ | ORead h => Some h
  | _ => None
  end.

Definition guards (a : app) : list guard :=
  flat_map (fun o => match o with Some g => [g] | None => [] end) (a_globals a).
(** The handles that are not the user's: components and the thread local own them. *)
Definition style_handles (a : app) : list nat := map g_style (guards a).
Definition source_handles (src : source) : list nat :=
  match s_manager src with Some h => [h] | None => [] end.
Definition manager_handles (a : app) : list nat :=
  (match a_default a with Some h => [h] | None => [] end)
  ++ flat_map (fun g => g_manager g :: source_handles (g_source g)) (guards a).
Definition free (l : list nat) (o : option nat) : bool :=
  match o with Some h => negb (existsb (Nat.eqb h) l) | None => true end.

(** A source that is the user's. *)
Definition user_source (a : app) (src : source) : bool :=
  free (manager_handles a) (s_manager src)
  && match s_manager src with
     | Some h => match handle_of (w_mhandles (a_world a)) h with Some _ => true | None => false end
     | None => true
     end.

(** What happens in a program: user code acts on its own handles, components are mounted,
    rendered again and unmounted, sources are made into classes. *)
Inductive aop :=
| AOp (o : op)
| AMount (ctx : option nat) (src : source)
| ARender (i : nat) (ctx : option nat) (src : source)
| AUnmount (i : nat)
| AClasses (src : source)
| AUseStyle (ctx : option nat) (src : source).

(** A step; [None] if the program panics, or does what Rust's ownership excludes. *)
Definition astep (y : yew) (e : env) (a : app) (o : aop) : option app :=
  match o with
  | AOp o =>
      if free (style_handles a) (op_style o) && free (manager_handles a) (op_mhandle o)
      then match step e (a_world a) o with
           | (_, RPanic) => None
           | (w, _) => Some (with_world a w)
           end
      else None
  | AMount ctx src =>
      match render_global y e None ctx src a with
      | Some (a1, g) => Some (with_globals a1 (a_globals a1 ++ [Some g]))
      | None => None
      end
  | ARender i ctx src =>
      match nth_error (a_globals a) i with
      | Some (Some g) =>
          match render_global y e (Some g) ctx src a with
          | Some (a1, g1) => Some (with_globals a1 (upd (a_globals a1) i (fun _ => Some g1)))
          | None => None
          end
      | _ => None
      end
  | AUnmount i =>
      match nth_error (a_globals a) i with
      | Some (Some g) =>
          Some (with_globals (with_world a (drop_guard y e g (a_world a)))
                             (upd (a_globals a) i (fun _ => None)))
      | _ => None
      end
  | AClasses src =>
      if user_source a src then option_map fst (into_classes e src a) else None
  | AUseStyle ctx src =>
      if user_source a src then option_map fst (use_style e ctx src a) else None
  end.

Fixpoint arun (y : yew) (e : env) (a : app) (l : list aop) : option app :=
  match l with
  | [] => Some a
  | o :: l' => match astep y e a o with Some a1 => arun y e a1 l' | None => None end
  end.

Definition app_start (page : dom) : app := mk_app (start page) None [].

(** ** Media queries *)

(** The browser: which queries match at the moment. *)
Definition media := str -> bool.

(** A component with the hook: the value of the [use_state_eq], the query of the last
    rendering, and the query that the listener of the [use_effect_with] is for, once the
    effect has run. *)
Record hook := mk_hook { h_state : bool; h_query : str; h_listens : option str }.

(** What happens: the component is rendered with a query, the effects of the last rendering
    run, the media change.  A change event reaches the listener when the media change.
    Simplification: of the browser's event loop only this order is kept. *)
Inductive mop :=
| MRender (q : str)
| MEffects
| MMedia (m : media).

(** The two hooks, hooks/use_media_query.rs 19-50 and 66-112, told apart by [prepared]: at the
    first rendering the state is [initial], if it is prepared by the server, or what the query
    says; the effect runs if the query is another one than the last time it ran, and the
    prepared hook sets the state then (100).  The handle of the state that the listener holds
    sets the state of the component whenever it was made. *)
Definition mstep (prepared : bool) (initial : option bool) (st : media * option hook) (o : mop) :
    media * option hook :=
  let (m, oh) := st in
  match o, oh with
  | MRender q, None =>
      let v := match (if prepared then initial else None) with Some b => b | None => m q end in
      (m, Some (mk_hook v q None))
  | MRender q, Some h => (m, Some (mk_hook (h_state h) q (h_listens h)))
  | MEffects, Some h =>
      if match h_listens h with Some q => str_eqb q (h_query h) | None => false end then (m, oh)
      else (m, Some (mk_hook (if prepared then m (h_query h) else h_state h) (h_query h)
                             (Some (h_query h))))
  | MEffects, None => (m, None)
  | MMedia m', Some h =>
      match h_listens h with
      | Some q => (m', Some (mk_hook (if Bool.eqb (m q) (m' q) then h_state h else m' q)
                                     (h_query h) (h_listens h)))
      | None => (m', oh)
      end
  | MMedia m', None => (m', None)
  end.

Definition mrun (prepared : bool) (initial : option bool) (m : media) (l : list mop) :
    media * option hook :=
  fold_left (mstep prepared initial) l (m, None).

(** What the hook returns when the component is rendered: the state; a change of the state
    renders it again. *)
Definition returned (h : hook) : bool := h_state h.
