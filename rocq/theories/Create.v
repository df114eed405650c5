(** * Create: the public constructors of styles,
    /repo/packages/stylist/src/{style,global_style,style_src}.rs, from what the user hands over
    (text, a sheet, a source) to the style.

    The code generated by [style!] and [global_style!] calls [Style::new] and [GlobalStyle::new]
    with a sheet (stylist-macros/src/style.rs 4-8, global_style.rs 4-8); [css!] is
    [StyleSource::from] of a sheet (css.rs 4-8) and [use_style!] is [use_style] of a [css!]
    (use_style.rs 4-6). *)

From Coq Require Import String Ascii List NArith Bool Arith.
From Verif Require Import Str Ast CssParser SheetCache Manager Hooks.
Import ListNotations.
Local Open Scope list_scope.

(** [Css: TryInto<StyleSource>]: [String], [&str] or [Cow<str>] (style_src.rs 82-128), a [Sheet]
    (64-74) or a [StyleSource].  [loc] is the caller's location, as in [Hooks.v]. *)
Inductive css :=
| CText (s : str)
| CSheet (s : sheet)
| CSource (src : source).

(** [css.try_into()], style_src.rs 64-128, with the parse cache of [Sheet::from_str]; [None] is
    [Err(Error::Parse { .. })].  [OutOfFuel] never arises (C09). *)
Definition try_into (loc : option str) (c : css) (k : cache) : cache * option source :=
  match c with
  | CText s =>
      match from_str k s with
      | (k1, Parsed m) => (k1, Some (from_sheet loc m))
      | (k1, _) => (k1, None)
      end
  | CSheet s => (k, Some (from_sheet loc s))
  | CSource src => (k, Some src)
  end.

(** The program: its managers, styles and components, and the parse cache.  Simplification: the
    debug re-parse (manager/mod.rs 173-176) goes through the cache as well, which is not recorded;
    by C17 nobody can tell. *)
Record prog := mk_prog { p_app : app; p_cache : cache }.

(** What a constructor returns: [Ok] with the handle, an [Err], or a panic. *)
Inductive outcome :=
| Created (x : nat)
| ParseError
| WebError
| Panicked.
Definition outcome_of (r : res) : outcome :=
  match r with
  | RHandle x => Created x
  | RErr => WebError
  | _ => Panicked
  end.

(** [Style::create_impl], style.rs 83-101 ([Some prefix]), and [GlobalStyle::create_impl],
    global_style.rs 20-36 ([None]): the source is consumed, and so is the manager. *)
Definition create_impl (e : env) (prefix : option str) (src : source) (h : nat) (w : world)
  : world * outcome :=
  let w1 := drop_source e src w in
  match manager_of w1 h with
  | None => (w1, Panicked) (* excluded by ownership *)
  | Some m =>
      let k := match prefix with
               | Some p => style_key p (s_sheet src)
               | None => global_key m (s_sheet src)
               end in
      let (w2, r) := step e w1 (OCreate h k) in
      (fst (step e w2 (ODropManager h)), outcome_of r)
  end.

(** [Style::create_with_manager], style.rs 154-162, and [GlobalStyle::new_with_manager],
    global_style.rs 55-63: [css.try_into()?] before anything is registered; on an error the
    manager is dropped. *)
Definition create_with_manager (e : env) (loc : option str) (prefix : option str) (c : css)
    (h : nat) (p : prog) : prog * outcome :=
  let a := p_app p in
  match try_into loc c (p_cache p) with
  | (k, None) => (mk_prog (with_world a (fst (step e (a_world a) (ODropManager h)))) k, ParseError)
  | (k, Some src) =>
      let (w, r) := create_impl e prefix src h (a_world a) in
      (mk_prog (with_world a w) k, r)
  end.

(** [Style::new_with_manager], style.rs 141-150: the prefix of the manager; a clone of the manager
    is passed on and the manager dropped afterwards. *)
Definition new_with_manager (e : env) (loc : option str) (c : css) (h : nat) (p : prog)
  : prog * outcome :=
  let a := p_app p in
  match manager_of (a_world a) h, step e (a_world a) (OCloneManager h) with
  | Some m, (w1, RHandle h') =>
      let (p1, r) :=
        create_with_manager e loc (Some (m_prefix m)) c h' (mk_prog (with_world a w1) (p_cache p)) in
      (mk_prog (with_world (p_app p1) (fst (step e (a_world (p_app p1)) (ODropManager h))))
               (p_cache p1), r)
  | _, _ => (p, Panicked) (* excluded by ownership *)
  end.

(** [Style::create], style.rs 130-137, and [GlobalStyle::new], global_style.rs 46-52: in the
    default manager, which is made first. *)
Definition create_default (e : env) (loc : option str) (prefix : option str) (c : css) (p : prog)
  : prog * outcome :=
  match default_manager e (p_app p) with
  | None => (p, Panicked)
  | Some (a1, h) => create_with_manager e loc prefix c h (mk_prog a1 (p_cache p))
  end.

(** [Style::new], style.rs 112-118: the prefix is that of the default manager; the temporary is
    dropped at the end. *)
Definition new_default (e : env) (loc : option str) (c : css) (p : prog) : prog * outcome :=
  match default_manager e (p_app p) with
  | None => (p, Panicked)
  | Some (a1, h) =>
      match manager_of (a_world a1) h with
      | None => (mk_prog a1 (p_cache p), Panicked) (* excluded by ownership *)
      | Some m =>
          let (p1, r) := create_default e loc (Some (m_prefix m)) c (mk_prog a1 (p_cache p)) in
          (mk_prog (with_world (p_app p1) (fst (step e (a_world (p_app p1)) (ODropManager h))))
                   (p_cache p1), r)
      end
  end.

(** The constructors, as the user calls them. *)
Inductive call :=
| SNew (c : css)                                   (* [Style::new], [style!] *)
| SCreate (prefix : str) (c : css)                 (* [Style::create] *)
| SNewWith (c : css) (h : nat)                     (* [Style::new_with_manager] *)
| SCreateWith (prefix : str) (c : css) (h : nat)   (* [Style::create_with_manager] *)
| GNew (c : css)                                   (* [GlobalStyle::new], [global_style!] *)
| GNewWith (c : css) (h : nat).                    (* [GlobalStyle::new_with_manager] *)

Definition call_css (c : call) : css :=
  match c with
  | SNew c | SCreate _ c | SNewWith c _ | SCreateWith _ c _ | GNew c | GNewWith c _ => c
  end.
Definition call_handle (c : call) : option nat :=
  match c with SNewWith _ h | SCreateWith _ _ h | GNewWith _ h => Some h | _ => None end.

Definition perform (e : env) (loc : option str) (c : call) (p : prog) : prog * outcome :=
  match c with
  | SNew c => new_default e loc c p
  | SCreate prefix c => create_default e loc (Some prefix) c p
  | SNewWith c h => new_with_manager e loc c h p
  | SCreateWith prefix c h => create_with_manager e loc (Some prefix) c h p
  | GNew c => create_default e loc None c p
  | GNewWith c h => create_with_manager e loc None c h p
  end.

(** What Rust's ownership lets the user hand over: a manager and a source of their own, which
    are two values. *)
Definition user_handle (a : app) (h : nat) : bool :=
  free (manager_handles a) (Some h)
  && match handle_of (w_mhandles (a_world a)) h with Some _ => true | None => false end.
Definition css_manager (c : css) : option nat :=
  match c with CSource src => s_manager src | _ => None end.
Definition user_call (a : app) (c : call) : bool :=
  match call_handle c with Some h => user_handle a h | None => true end
  && match css_manager (call_css c) with Some h => user_handle a h | None => true end
  && match call_handle c, css_manager (call_css c) with
     | Some h, Some h' => negb (Nat.eqb h h')
     | _, _ => true
     end.

(** Programs: what [Hooks.v] has, constructors, and [Sheet::from_str]. *)
Inductive pop :=
| PApp (o : aop)
| PCall (loc : option str) (c : call)
| PParse (s : str).

(** [None] if the program panics, or does what ownership excludes. *)
Definition pstep (y : yew) (e : env) (p : prog) (o : pop) : option prog :=
  match o with
  | PApp o => match astep y e (p_app p) o with
              | Some a => Some (mk_prog a (p_cache p))
              | None => None
              end
  | PCall loc c =>
      if user_call (p_app p) c then
        match perform e loc c p with
        | (_, Panicked) => None
        | (p1, _) => Some p1
        end
      else None
  | PParse s => Some (mk_prog (p_app p) (fst (from_str (p_cache p) s)))
  end.
Fixpoint prun (y : yew) (e : env) (p : prog) (l : list pop) : option prog :=
  match l with
  | [] => Some p
  | o :: l' => match pstep y e p o with Some p1 => prun y e p1 l' | None => None end
  end.
Definition prog_start (page : dom) : prog := mk_prog (app_start page) [].
