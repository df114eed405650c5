(** * SpecPage: the words in which the properties from CSS text to the page are stated. *)

From Coq Require Import String Ascii List NArith Bool Arith.
From Verif Require Import Str Ast Ids Manager SpecManager SpecHooks SpecProgress Hooks Create SpecCreate SpecRender.
Import ListNotations.
Local Open Scope list_scope.

(** The program runs in a browser whose document has a head that takes elements. *)
Definition in_browser (e : env) (page : dom) : Prop :=
  e_wasm e = true /\ e_document e = true
  /\ exists k, e_head e = Some k /\ in_document page k /\ takes_elements page k.

(** Class names are made from the counter or from random letters and digits, as in the library,
    and none of the first [n] is used twice or by the page itself. *)
Definition names_fresh (e : env) (page : dom) (n : nat) : Prop :=
  (forall i, e_draw e i = counter_entropy i \/ rand_entropy (e_draw e i)) /\ ids_apart e page n.

(** Prefixes of class names: identifiers of ASCII letters, digits, dashes and underscores. *)
Definition plain_prefix (p : str) : Prop :=
  plain_ident p = true /\ Forall (fun c => (c < 128)%N) p.
Definition plain_call (c : call) : Prop :=
  match c with
  | SCreate p _ | SCreateWith p _ _ => plain_prefix p
  | _ => True
  end.

(** The class that scopes what a call makes. *)
Definition scope_of (c : call) (id : str) : option str :=
  match c with GNew _ | GNewWith _ _ => None | _ => Some id end.

(** The page has one style element for [id], and a CSS reader that looks at its text finds these
    declarations, in this order, under these conditions and selectors. *)
Definition page_says (w : world) (id : str) (ds : list item) : Prop :=
  exists text items,
    texts_of id (w_dom w) = [text] /\ read_css text = Some items /\ decls items = map trim_item ds.
