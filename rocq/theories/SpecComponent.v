(** * SpecComponent: the words in which the properties of styled components are stated. *)

From Coq Require Import String Ascii List NArith Bool Arith.
From Verif Require Import Str Ast Manager SpecManager SpecProgress Hooks SpecHooks Create SpecCreate Component.
Import ListNotations.
Local Open Scope list_scope.

(** The CSS a function asks classes for: for each source it makes into classes, in this order,
    the location and the sheet of the [css!] that made the source.  [made] are the uses of [css!]
    before. *)
Fixpoint asks (made : list (option str * sheet)) (body : list bop) : list (option str * sheet) :=
  match body with
  | [] => []
  | BCss loc s :: b => asks (made ++ [(loc, s)]) b
  | BClasses i :: b =>
      match nth_error made i with Some x => [x] | None => [] end ++ asks made b
  | _ :: b => asks made b
  end.
(** The same for the sources it hands on. *)
Fixpoint hands (made : list (option str * sheet)) (body : list bop) : list (option str * sheet) :=
  match body with
  | [] => []
  | BCss loc s :: b => hands (made ++ [(loc, s)]) b
  | BPass i :: b =>
      match nth_error made i with Some x => [x] | None => [] end ++ hands made b
  | _ :: b => hands made b
  end.

(** A function that only uses [css!] and its sources, each source at most once: [left] tells
    which ones there still are. *)
Fixpoint plain_body (left : list bool) (body : list bop) : Prop :=
  match body with
  | [] => True
  | BCss _ _ :: b => plain_body (left ++ [true]) b
  | BClasses i :: b | BPass i :: b =>
      nth_error left i = Some true /\ plain_body (upd left i (fun _ => false)) b
  | BDo _ :: _ => False
  end.

(** User code in the function unregisters a style. *)
Definition bunregisters (o : bop) : bool := match o with BDo o => punregisters o | _ => false end.
Definition cunregisters (o : cop) : bool :=
  match o with CDo o => punregisters o | CRender _ body => existsb bunregisters body end.
(** The ids of styles loaded. *)
Definition bloaded (l : list bop) : list str :=
  flat_map (fun o => match o with BDo o => ploaded [o] | _ => [] end) l.
Definition cloaded (l : list cop) : list str :=
  flat_map (fun o => match o with CDo o => ploaded [o] | CRender _ body => bloaded body end) l.

(** [cl] are the classes of the style with the sheet [s] in the manager [mi]: its id, and the
    location if there is one. *)
Definition classes_in (w : world) (mi : nat) (x : option str * sheet) (cl : list str) : Prop :=
  exists m cid c, nth_error (w_mgrs w) mi = Some m
    /\ registered w mi (mk_key false (m_prefix m) (snd x)) cid
    /\ nth_error (w_contents w) cid = Some c
    /\ cl = c_id c :: match fst x with Some l => [l] | None => [] end.

(** The owners of managers: handles that are not dropped. *)
Definition owns (w : world) (h mi : nat) : Prop := handle_of (w_mhandles w) h = Some mi.

(** The manager of the context can put styles somewhere; [prefix] is its prefix. *)
Definition can_style (e : env) (page : dom) (p : prog) (ctx : option nat) (prefix : str) : Prop :=
  match ctx with
  | Some h => exists mi m, owns (a_world (p_app p)) h mi /\ nth_error (w_mgrs (a_world (p_app p))) mi = Some m
                /\ settles e page m /\ m_prefix m = prefix
  | None => (e_wasm e = false
             \/ e_document e = true /\ exists k, e_head e = Some k /\ takes_elements page k)
            /\ prefix = lit "stylist"
  end.
