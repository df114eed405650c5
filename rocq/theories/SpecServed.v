(** * SpecServed: the words in which the properties of pages made on a server are stated. *)

From Coq Require Import String Ascii List NArith Bool Arith.
From Verif Require Import Str Ast Manager SpecManager StaticData SpecHydrate.
Import ListNotations.
Local Open Scope list_scope.

(** The elements [<style data-style=...>] of a page, with their texts. *)
Definition page_styles (page : dom) : list (str * str) :=
  flat_map (fun n => flat_map (fun c => match c with EStyle i t => [(i, t)] | EOther => [] end)
                              (n_children n)) page.

(** A browser shows a page into which [markup] was written: an HTML parser reads [markup] as these
    elements; the page has no others, and has them in the document. *)
Definition page_of (markup : str) (page : dom) : Prop :=
  reads_as markup (page_styles page)
  /\ forall n, In n page -> n_in_document n = false -> child_ids (n_children n) = [].

(** What the markup can carry: ids without double quotes, and texts that need no escaping. *)
Definition markup_safe (esc : str -> str) (d : list record) : Prop :=
  forall r, In r d -> ~ In (ch """") (r_id r) /\ no_end_tag (r_text r) /\ esc (r_text r) = r_text r.
