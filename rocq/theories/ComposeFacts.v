(** * ComposeFacts: the items at the top of a sheet are written one after the other. *)

From Coq Require Import String Ascii List NArith Bool Arith Lia.
From Verif Require Import Str StrFacts Ast Render.
Import ListNotations.
Local Open Scope list_scope.

Section Root.
  Variable root : frame.
  Hypothesis closed : f_open root = false.

  (** The outermost context is not written. *)
  Definition over (ps qs : chain) : Prop := exists qs', qs = qs' ++ [root] /\ List.length qs' = List.length ps.

  Lemma over_finish f ps : exists f' w, finish f ps = (f', w).
  Proof. unfold finish. eauto. Qed.
  Lemma over_close self ps : over ps (fst (close_until_common_parent self (ps ++ [root]))).
  Proof.
    induction ps as [|m ps IH].
    - cbn. rewrite closed. now exists [].
    - cbn [app close_until_common_parent]. destruct (close_until_common_parent self (ps ++ [root])) as [qs w]. cbn in IH.
      destruct IH as (qs' & -> & L). destruct (f_open m).
      + destruct (differ_conditions self (m :: ps ++ [root])).
        * now exists (m :: ps).
        * unfold finish. exists (set_open false m :: qs'). cbn. now rewrite L.
      + exists (m :: qs'). cbn. now rewrite L.
  Qed.
  Lemma over_start self ps : over ps (snd (fst (start self (ps ++ [root])))).
  Proof.
    unfold start. destruct (f_open self); [now exists ps|]. pose proof (over_close self ps) as H.
    destruct (close_until_common_parent self (ps ++ [root])). exact H.
  Qed.

  Definition stays class (x : rbc) : Prop :=
    forall self ps, over ps (snd (fst (write_rbc class x self (ps ++ [root])))).
  Lemma over_all class l : Forall (stays class) l ->
    forall self ps, over ps (snd (fst (write_all (write_rbc class) l self (ps ++ [root])))).
  Proof.
    induction 1 as [|x l Hx _ IH]; intros self ps; [now exists ps|]. cbn [write_all].
    specialize (Hx self ps). destruct (write_rbc class x self (ps ++ [root])) as [[s1 ps1] w1]. cbn in Hx.
    destruct Hx as (ps' & -> & L). specialize (IH s1 ps').
    destruct (write_all (write_rbc class) l s1 (ps' ++ [root])) as [[s2 ps2] w2]. cbn in *. destruct IH as (q & -> & L').
    exists q. split; [reflexivity|congruence].
  Qed.
  Lemma over_end (f : frame) ps qs self ps0 u :
    over ps qs -> ps <> [] ->
    over (tl ps) (snd (fst (let (_, w) := finish f qs in match qs with s :: p => (s, p, u ++ w) | [] => (self, ps0, u ++ w) end))).
  Proof.
    intros (q & -> & L) N. unfold finish. destruct q as [|x q]; [destruct ps; [contradiction|discriminate]|].
    cbn. exists q. split; [reflexivity|]. destruct ps; cbn in *; lia.
  Qed.
  Lemma stays_all class l : Forall (stays class) l.
  Proof.
    apply (rbcs_ind2 (stays class) (Forall (stays class))); auto.
    - intros a self ps. cbn. unfold write_attr. pose proof (over_start self ps) as H.
      now destruct (start self (ps ++ [root])) as [[s p] w].
    - intros cond content IH self ps. cbn [write_rbc].
      assert (K : over (self :: ps) (snd (fst (if starts_with (lit "@keyframes") (List.concat cond)
                  then start (with_rule_condition self (List.concat cond)) (self :: ps ++ [root])
                  else (with_rule_condition self (List.concat cond), self :: ps ++ [root], []))))).
      { destruct (starts_with _ _); [exact (over_start (with_rule_condition self (List.concat cond)) (self :: ps))|now exists (self :: ps)]. }
      destruct (if starts_with (lit "@keyframes") (List.concat cond) then _ else _) as [[s0 ps0] w0]. cbn in K.
      destruct K as (q & -> & L). pose proof (over_all class content IH s0 q) as H.
      destruct (write_all (write_rbc class) content s0 (q ++ [root])) as [[s1 ps1] w1]. cbn in H.
      assert (H' : over (self :: ps) ps1) by (destruct H as (q' & -> & L'); exists q'; split; [reflexivity|congruence]).
      pose proof (over_end s1 (self :: ps) ps1 self (ps ++ [root]) (w0 ++ w1) H') as E.
      destruct (finish s1 ps1) as [s2 w2]. cbn in E. specialize (E ltac:(discriminate)).
      destruct ps1; cbn in *; exact E.
    - intros cond content IH self ps. cbn [write_rbc].
      set (b := with_block_condition class self (cond_str class cond)).
      pose proof (over_all class content IH b (self :: ps)) as H. cbn [app] in H.
      destruct (write_all (write_rbc class) content b (self :: ps ++ [root])) as [[s1 ps1] w1]. cbn in H.
      pose proof (over_end s1 (self :: ps) ps1 self (ps ++ [root]) w1 H) as E.
      destruct (finish s1 ps1) as [s2 w2]. cbn in E. specialize (E ltac:(discriminate)).
      destruct ps1; cbn in *; exact E.
  Qed.

  (** An item at the top leaves the context as it was. *)
  Lemma top_item class x : fst (write_rbc class (rbc_of_scope x) root []) = (root, []).
  Proof.
    destruct x as [cond content|cond content]; cbn [rbc_of_scope write_rbc].
    - set (b := with_block_condition class root (cond_str class cond)).
      pose proof (over_all class content (stays_all class content) b []) as H. cbn [app] in H.
      destruct (write_all (write_rbc class) content b [root]) as [[s1 ps1] w1]. cbn in H.
      destruct H as (q & -> & L). destruct q; [|discriminate]. reflexivity.
    - assert (K : over [] (snd (fst (if starts_with (lit "@keyframes") (List.concat cond)
                  then start (with_rule_condition root (List.concat cond)) [root]
                  else (with_rule_condition root (List.concat cond), [root], []))))).
      { destruct (starts_with _ _); [exact (over_start (with_rule_condition root (List.concat cond)) [])|now exists []]. }
      destruct (if starts_with (lit "@keyframes") (List.concat cond) then _ else _) as [[s0 ps0] w0]. cbn in K.
      destruct K as (q & -> & L). destruct q; [|discriminate].
      pose proof (over_all class content (stays_all class content) s0 []) as H. cbn [app] in H |- *.
      destruct (write_all (write_rbc class) content s0 [root]) as [[s1 ps1] w1]. cbn in H.
      destruct H as (q & -> & L'). destruct q; [|discriminate]. reflexivity.
  Qed.
End Root.

(** ast/sheet.rs 73-79: each item is written on its own. *)
Lemma to_style_str_items class s : to_style_str class s = flat_map (fun x => to_style_str class [x]) s.
Proof.
  assert (K : forall s, exists w, write_sheet class s new_frame [] = (new_frame, [], w)
              /\ w = flat_map (fun x => to_style_str class [x]) s).
  { clear s. induction s as [|x s (w & E & ->)]; [eexists; split; reflexivity|].
    pose proof (top_item new_frame eq_refl class x) as T. unfold write_sheet in *. cbn [map write_all flat_map].
    unfold to_style_str at 1, write_sheet. cbn [map write_all].
    destruct (write_rbc class (rbc_of_scope x) new_frame []) as [[f p] u]. cbn in T. injection T as -> ->.
    rewrite E. eexists. split; [reflexivity|]. now rewrite app_nil_r. }
  unfold to_style_str at 1. destruct (K s) as (w & -> & ->). reflexivity.
Qed.
