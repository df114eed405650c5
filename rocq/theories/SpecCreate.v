(** * SpecCreate: the words in which the properties of the constructors are stated. *)

From Coq Require Import String Ascii List NArith Bool Arith.
From Verif Require Import Str Ast CssParser Manager SpecManager SpecProgress Hooks SpecHooks Create.
Import ListNotations.
Local Open Scope list_scope.

(** The sheet that is handed over: what the text says, if it is CSS. *)
Definition css_sheet (c : css) : option sheet :=
  match c with
  | CText s => match parse s with Parsed m => Some m | _ => None end
  | CSheet s => Some s
  | CSource src => Some (s_sheet src)
  end.

(** The managers handed over with a call: the argument, and the one attached to a source. *)
Definition given (c : call) : list nat :=
  match call_handle c with Some h => [h] | None => [] end
  ++ match css_manager (call_css c) with Some h => [h] | None => [] end.

(** What the documentation says a call makes, in a manager [m]: a scoped style with the prefix
    given or else the manager's, or a global style. *)
Definition wanted (c : call) (m : mgr) (s : sheet) : key :=
  match c with
  | SNew _ | SNewWith _ _ => mk_key false (m_prefix m) s
  | SCreate prefix _ | SCreateWith prefix _ _ => mk_key false prefix s
  | GNew _ | GNewWith _ _ => mk_key true (m_prefix m) s
  end.

(** The manager of a call, made in [p], after it in [p1]: the argument, or the default one. *)
Definition call_manager_is (p p1 : prog) (c : call) (mi : nat) : Prop :=
  context_is (p_app p) (p_app p1) (call_handle c) mi.

(** Everything the program and the document can tell is the same: the styles, the elements,
    the handles of styles, and what is registered. *)
Definition same_styles (w w' : world) : Prop :=
  w_dom w' = w_dom w /\ w_contents w' = w_contents w /\ w_handles w' = w_handles w
  /\ forall mi k cid, registered w' mi k cid <-> registered w mi k cid.

(** No style is made, no element written or removed, nothing registered or unregistered. *)
Definition nothing_new (w w' : world) : Prop :=
  w_dom w' = w_dom w /\ List.length (w_contents w') = List.length (w_contents w)
  /\ forall mi k cid, registered w' mi k cid <-> registered w mi k cid.

(** User code unregisters a style. *)
Definition punregisters (o : pop) : bool :=
  match o with PApp o => unregisters o | _ => false end.
(** The ids loaded by a program. *)
Definition ploaded (l : list pop) : list str :=
  flat_map (fun o => match o with PApp (AOp (OLoad _ d)) => map r_id d | _ => [] end) l.

(** The default manager is what the documentation says: its class names start with
    ["stylist"], it is not a static one and appends to [document.head]. *)
Definition default_as_documented (e : env) (a : app) : Prop :=
  forall d, a_default a = Some d ->
  exists mi m, handle_of (w_mhandles (a_world a)) d = Some mi /\ nth_error (w_mgrs (a_world a)) mi = Some m
    /\ m_prefix m = lit "stylist" /\ m_data m = None /\ m_append m = true
    /\ m_container m = if e_wasm e then e_head e else None.

(** A manager that can put a style somewhere: in its data, nowhere (outside of the browser), or
    at the end of a container that takes elements. *)
Definition settles (e : env) (page : dom) (m : mgr) : Prop :=
  m_data m <> None
  \/ e_wasm e = false
  \/ (e_document e = true /\ m_append m = true
      /\ exists k, m_container m = Some k /\ takes_elements page k).

(** There is a default manager, or it can be made. *)
Definition has_default (e : env) (p : prog) : Prop :=
  a_default (p_app p) <> None \/ e_wasm e = false \/ (e_document e = true /\ e_head e <> None).
