(** * SpecHydrate: what a value of style data is meant to be, and how static markup is read. *)

From Coq Require Import String Ascii List NArith Bool Arith.
From Verif Require Import Str Ast Manager StaticData.
Import ListNotations.
Local Open Scope list_scope.

(** ** Style data as plain values: no sharing, no heap *)

Record plain := mk_plain { p_cur : list record; p_snaps : list (option (list record)) }.

Definition get_plain (l : list (option (list record))) (i : nat) : option (list record) :=
  match nth_error l i with Some (Some x) => Some x | _ => None end.

Definition plain_step (p : plain) (o : sop) : plain :=
  match o with
  | SRecord r => mk_plain (p_cur p ++ [r]) (p_snaps p)
  | SRead => mk_plain (p_cur p) (p_snaps p ++ [Some (p_cur p)])
  | SClone i => match get_plain (p_snaps p) i with
                | Some x => mk_plain (p_cur p) (p_snaps p ++ [Some x])
                | None => p
                end
  | SDrop i => match get_plain (p_snaps p) i with
               | Some x => mk_plain (p_cur p) (upd (p_snaps p) i (fun _ => None))
               | None => p
               end
  end.
Definition plain_run (l : list sop) : plain := fold_left plain_step l (mk_plain [] []).

(** ** Reading markup: a sequence of [<style data-style="...">...</style>] elements *)

(** [s] split at the first occurrence of [stop]. *)
Inductive cut_at (stop : str) : str -> str -> str -> Prop :=
| cut_here s : cut_at stop (stop ++ s) [] s
| cut_later c s a b : ~ (exists t, c :: s = stop ++ t) -> cut_at stop s a b ->
    cut_at stop (c :: s) (c :: a) b.

(** How an HTML parser reads it: the attribute ends at the first quote, the raw text at the
    first end tag. *)
Inductive reads_as : str -> list (str * str) -> Prop :=
| reads_nil : reads_as [] []
| reads_cons s s1 s2 id text l :
    cut_at (lit """") s id (lit ">" ++ s1) -> cut_at (lit "</style") s1 text (lit ">" ++ s2) ->
    reads_as s2 l ->
    reads_as (lit "<style data-style=""" ++ s) ((id, text) :: l).

(** [s] does not end a style element. *)
Definition no_end_tag (s : str) : Prop := ~ exists a b, s = a ++ lit "</style" ++ b.
