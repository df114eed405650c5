(** * RenderLoop: the literal [while] loop of context.rs 40-47 computes
    [close_until_common_parent] and always terminates. *)

From Coq Require Import String Ascii List NArith Bool Arith Lia.
From Verif Require Import Str Ast Render.
Import ListNotations.
Local Open Scope list_scope.

(** context.rs 45, [m.finish(w)] for the nearest open parent [m]. *)
Fixpoint finish_nearest (ps : chain) : chain * str :=
  match ps with
  | [] => ([], [])
  | m :: ps' =>
      if f_open m then let (m', w) := finish m ps' in (m' :: ps', w)
      else let (ps'', w) := finish_nearest ps' in (m :: ps'', w)
  end.

(** context.rs 41-46; [None] when the fuel runs out. *)
Fixpoint close_loop (fuel : nat) (self : frame) (ps : chain) : option (chain * str) :=
  match fuel with
  | O => None
  | S n =>
      match open_parent ps with
      | None => Some (ps, [])
      | Some _ =>
          match differ_conditions self ps with
          | [] => Some (ps, [])
          | _ :: _ =>
              let (ps1, w1) := finish_nearest ps in
              match close_loop n self ps1 with
              | Some (ps2, w2) => Some (ps2, w1 ++ w2)
              | None => None
              end
          end
      end
  end.

Lemma close_loop_closed_head n self m ps :
  f_open m = false ->
  close_loop n self (m :: ps) =
  match close_loop n self ps with Some (ps', w) => Some (m :: ps', w) | None => None end.
Proof.
  intros Hm. revert m ps Hm; induction n as [|n IH]; intros m ps Hm; [easy|]. cbn [close_loop].
  assert (E1 : open_parent (m :: ps) = open_parent ps) by (cbn; now rewrite Hm).
  assert (E2 : differ_conditions self (m :: ps) = differ_conditions self ps).
  { unfold differ_conditions, common_count, parent_conditions. now rewrite E1. }
  rewrite E1, E2. destruct (open_parent ps); [|easy]. destruct (differ_conditions self ps); [easy|].
  cbn [finish_nearest]. rewrite Hm. destruct (finish_nearest ps) as [ps1 w1].
  rewrite IH by easy. destruct (close_loop n self ps1) as [[ps2 w2]|]; easy.
Qed.

Lemma close_until_is_loop self ps : forall fuel,
  List.length ps < fuel -> close_loop fuel self ps = Some (close_until_common_parent self ps).
Proof.
  induction ps as [|m ps IH]; intros fuel L.
  - destruct fuel; [easy|reflexivity].
  - destruct fuel as [|n]; [easy|]. cbn [List.length] in L.
    destruct (f_open m) eqn:Em.
    + cbn [close_loop close_until_common_parent]. cbn [open_parent]. rewrite Em.
      destruct (differ_conditions self (m :: ps)); [easy|].
      cbn [finish_nearest]. rewrite Em. unfold finish. rewrite close_loop_closed_head by easy.
      rewrite IH by lia. destruct (close_until_common_parent self ps) as [ps2 w2]. easy.
    + rewrite close_loop_closed_head by easy. rewrite IH by lia.
      cbn [close_until_common_parent]. rewrite Em.
      destruct (close_until_common_parent self ps) as [ps2 w2]. easy.
Qed.
