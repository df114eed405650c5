(** * PropValue: CSS as properties, /repo/packages/stylist/src/yew/{mod,global}.rs and
    hooks/use_style.rs: [<Global css={..} />] and [use_style(..)] with text, a sheet or a source,
    and [class={style}]. *)

From Coq Require Import String Ascii List NArith Bool Arith.
From Verif Require Import Str Ast CssParser SheetCache Manager Hooks Create Component.
Import ListNotations.
Local Open Scope list_scope.

(** [IntoPropValue<StyleSource>] of [String], [&str] and [Cow<str>], yew/mod.rs 157-182, and of
    [Sheet], 148-152; a [StyleSource] is passed as it is.  [None] is the panic of
    [expect_display]. *)
Definition prop_value (loc : option str) (c : css) (k : cache) : cache * option source :=
  try_into loc c k.

(** [<Global css={..} />], yew/global.rs 39-62, with the conversion of the property before it:
    mounted ([None]) or rendered again. *)
Definition global_element (y : yew) (e : env) (loc : option str) (at_ : option nat)
    (ctx : option nat) (c : css) (p : prog) : option prog :=
  match prop_value loc c (p_cache p) with
  | (_, None) => None
  | (k, Some src) =>
      match astep y e (p_app p)
              (match at_ with Some i => ARender i ctx src | None => AMount ctx src end) with
      | Some a => Some (mk_prog a k)
      | None => None
      end
  end.

(** [use_style(css)], hooks/use_style.rs 25-34, with [Style::new_with_manager], which converts
    (style.rs 141-162); [None] is the panic.  Simplification: the conversion comes before the
    manager is taken, not after; neither sees the other. *)
Definition use_css (e : env) (loc : option str) (ctx : option nat) (c : css) (p : prog)
  : option (prog * nat) :=
  match try_into loc c (p_cache p) with
  | (_, None) => None
  | (k, Some src) =>
      if user_source (p_app p) src then
        match use_style e ctx src (p_app p) with
        | Some (a, x) => Some (mk_prog a k, x)
        | None => None
        end
      else None
  end.

(** [class={style}], yew/mod.rs 114-120 and 136-140: the class; the style is dropped.  [None] is
    excluded by ownership. *)
Definition style_class (e : env) (x : nat) (p : prog) : option (prog * list str) :=
  let a := p_app p in
  if free (style_handles a) (Some x) then
    match get_id (a_world a) x with
    | Some class =>
        Some (mk_prog (with_world a (fst (step e (a_world a) (ODropStyle x)))) (p_cache p), [class])
    | None => None
    end
  else None.

(** Programs with these. *)
Inductive elem :=
| EDo (o : cop)
| EGlobal (loc : option str) (at_ : option nat) (ctx : option nat) (c : css)
| EUse (loc : option str) (ctx : option nat) (c : css)
| EClass (x : nat).
Definition estep (y : yew) (e : env) (p : prog) (o : elem) : option prog :=
  match o with
  | EDo o => cstep y e p o
  | EGlobal loc i ctx c => global_element y e loc i ctx c p
  | EUse loc ctx c => option_map fst (use_css e loc ctx c p)
  | EClass x => option_map fst (style_class e x p)
  end.
Fixpoint erun (y : yew) (e : env) (p : prog) (l : list elem) : option prog :=
  match l with
  | [] => Some p
  | o :: l' => match estep y e p o with Some p1 => erun y e p1 l' | None => None end
  end.
