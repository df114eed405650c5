(** * PropsExact2: exactly when neighbours in inline stylesheets are written apart (C54), and
    exactly when the media query hook is right (C48). *)

From Coq Require Import String Ascii List NArith Bool Arith Lia.
From Verif Require Import Str StrFacts Ast Tok Output Inline SpecInline PropsInline.
Import ListNotations.
Local Open Scope list_scope.

(** ** C54 *)

(** What a space may follow: everything but expressions and operators other than [&] and [*]. *)
Definition space_after (c : cval) : Prop :=
  match c with
  | CExpr _ => False
  | CToken (PPunct p _) => p = ch "&" \/ p = ch "*"
  | _ => True
  end.
(** What a space may precede: identifiers, literals, functions and the operators [*] and [#]. *)
Definition space_before (c : cval) : Prop :=
  match c with
  | CExpr _ | CBlk _ _ => False
  | CToken (PPunct p _) => p = ch "*" \/ p = ch "#"
  | _ => True
  end.

Lemma among2 a b c : among (String a (String b EmptyString)) c = true <-> c = ch a \/ c = ch b.
Proof.
  change (((c =? ch a)%N || ((c =? ch b)%N || false)) = true <-> c = ch a \/ c = ch b).
  rewrite orb_false_r, orb_true_iff, !N.eqb_eq. reflexivity.
Qed.

(** Two neighbours are written one after the other, with a space between them exactly if the first
    admits one behind it and the second one in front of it. *)
Theorem inline_words_apart_iff : forall rho before x y after,
  (space_after x /\ space_before y /\
   text rho (before ++ x :: y :: after) = text rho (before ++ [x]) ++ lit " " ++ text rho (y :: after))
  \/ (~ (space_after x /\ space_before y) /\
   text rho (before ++ x :: y :: after) = text rho (before ++ [x]) ++ text rho (y :: after)).
Proof.
  intros rho before x y after. unfold text. rewrite !flat_map_app.
  assert (Ex : exists a p, pieces rho x = a ++ [p] /\ (p_ends p = true <-> space_after x)).
  { destruct x as [i args|[c j|t|i]|d cs|e]; cbn [space_after].
    - exists (mk_piece true true (ident_text i) :: opens Paren :: flat_map (pieces rho) args), (closes Paren).
      split; [reflexivity|]. split; [easy|reflexivity].
    - exists [], (token_piece (PPunct c j)). split; [reflexivity|]. apply among2.
    - exists [], (token_piece (PLiteral t)). split; [reflexivity|]. split; [easy|reflexivity].
    - exists [], (token_piece (PIdent i)). split; [reflexivity|]. split; [easy|reflexivity].
    - exists (opens d :: flat_map (pieces rho) cs), (closes d). split; [reflexivity|]. split; [easy|reflexivity].
    - exists [], (mk_piece false false (expr_text rho e)). split; [reflexivity|]. split; [discriminate|easy]. }
  assert (Ey : exists q b, pieces rho y = q :: b /\ (p_starts q = true <-> space_before y)).
  { destruct y as [i args|[c j|t|i]|d cs|e]; cbn [space_before].
    - eexists _, _. split; [reflexivity|]. split; [easy|reflexivity].
    - eexists _, _. split; [reflexivity|]. apply among2.
    - eexists _, _. split; [reflexivity|]. split; [easy|reflexivity].
    - eexists _, _. split; [reflexivity|]. split; [easy|reflexivity].
    - eexists _, _. split; [reflexivity|]. split; [discriminate|easy].
    - eexists _, _. split; [reflexivity|]. split; [discriminate|easy]. }
  destruct Ex as (a & p & Ex & Hp). destruct Ey as (q & b & Ey & Hq).
  cbn [flat_map]. rewrite Ex, Ey, <- !app_assoc. cbn [app].
  rewrite (app_assoc (flat_map _ _) a), spell_app. rewrite <- Hp, <- Hq.
  destruct (p_ends p), (p_starts q); cbn [andb]; [left|right; (split; [easy|]); cbn [app]; now rewrite !app_assoc..].
  split; [reflexivity|]. split; [reflexivity|]. now rewrite !app_assoc.
Qed.
Print Assumptions inline_words_apart_iff.

(** [a b], [${x} b], [1px - 2px], [f(x) * #c] *)
Example inline_words_apart_iff_ex : forall rho e,
  text rho [CToken (PIdent [IPIdent (lit "a")]); CToken (PIdent [IPIdent (lit "b")])] = lit "a b"
  /\ text rho [CExpr e; CToken (PIdent [IPIdent (lit "b")])] = expr_text rho e ++ lit "b"
  /\ text rho [CToken (PLiteral (lit "1px")); CToken (PPunct (ch "-") false); CToken (PLiteral (lit "2px"))] = lit "1px-2px"
  /\ text rho [CFunction [IPIdent (lit "f")] [CExpr e]; CToken (PPunct (ch "*") false); CToken (PPunct (ch "#") false)]
     = lit "f(" ++ expr_text rho e ++ lit ") * #".
Proof. intros rho e. repeat split; unfold text; cbn; now rewrite <- ?app_assoc. Qed.

(** ** C48 *)
From Verif Require Import Hooks SpecHooks PropsHooks.

Lemma media_now_app a : forall b n, media_now n (a ++ b) = media_now (media_now n a) b.
Proof. induction a as [|[| |] a IH]; intros; cbn; auto. Qed.

Lemma stale_iff q l : forall m h, h_query h = q -> h_listens h = Some q -> Forall no_render l ->
  exists h', fold_left (mstep false None) l (m, Some h) = (media_now m l, Some h')
    /\ (returned h' = media_now m l q <->
        returned h = m q \/ exists a b, l = a ++ b /\ media_now m a q <> m q).
Proof.
  induction l as [|o l IH]; intros m h Q L F.
  - exists h. split; [reflexivity|]. split; [now left|]. intros [H|(a & b & E & N)]; [exact H|].
    symmetry in E. apply app_eq_nil in E as [-> ->]. now elim N.
  - inversion_clear F as [|? ? F1 F2]. cbn [fold_left media_now]. destruct o as [q'| |m'].
    + destruct F1.
    + cbn [mstep]. rewrite L, Q, str_eqb_refl. destruct (IH m h Q L F2) as (h' & E & I1). exists h'. split; [exact E|].
      rewrite I1. split; (intros [H|(a & b & Ea & N)]; [now left|right]).
      * exists (MEffects :: a), b. split; [now rewrite Ea|exact N].
      * destruct a as [|x a]; [now elim N|]. injection Ea as <- ->. exists a, b. split; [reflexivity|exact N].
    + cbn [mstep]. rewrite L.
      set (h1 := mk_hook (if Bool.eqb (m q) (m' q) then h_state h else m' q) (h_query h) (Some q)).
      destruct (IH m' h1 Q eq_refl F2) as (h' & E & I1).
      exists h'. split; [exact E|]. rewrite I1. unfold returned, h1. cbn [h_state].
      destruct (Bool.eqb (m q) (m' q)) eqn:B.
      * apply eqb_prop in B. rewrite B. split; (intros [H|(a & b & Ea & N)]; [now left|right]).
        -- exists (MMedia m' :: a), b. split; [now rewrite Ea|]. exact N.
        -- destruct a as [|x a]; [elim N; exact B|]. injection Ea as <- ->. exists a, b. split; [reflexivity|exact N].
      * apply eqb_false_iff in B. split; [|now left]. intros _. right. exists [MMedia m'], l. split; [reflexivity|].
        cbn. congruence.
Qed.

(** The plain hook after the latest rendering, with query [q], and the effects that follow it: what
    it returns is right exactly if it was right by the time the effects ran, or the answer to [q]
    has been another one since. *)
Theorem media_query_current_iff : forall m l1 q l2 l3,
  Forall no_render l2 -> ~ In MEffects l2 -> Forall no_render l3 ->
  let m2 := media_now m (l1 ++ MRender q :: l2) in
  let now := media_now m2 l3 in
  exists h2 h,
    mrun false None m (l1 ++ MRender q :: l2) = (m2, Some h2)
    /\ mrun false None m (l1 ++ MRender q :: l2 ++ MEffects :: l3) = (now, Some h)
    /\ (returned h = now q <->
        returned h2 = m2 q \/ exists a b, l3 = a ++ b /\ media_now m2 a q <> m2 q).
Proof.
  intros m l1 q l2 l3 F2 N2 F3 m2 now.
  assert (K : exists h2, mrun false None m (l1 ++ MRender q :: l2) = (m2, Some h2) /\ h_query h2 = q).
  { unfold mrun. rewrite (surjective_pairing (fold_left _ _ _)), mrun_media. fold m2.
    rewrite fold_left_app. destruct (fold_left (mstep false None) l1 (m, None)) as [m1 oh]. cbn [fold_left].
    assert (E : exists h, mstep false None (m1, oh) (MRender q) = (m1, Some h) /\ h_query h = q).
    { destruct oh as [h|]; cbn; eexists; split; reflexivity. }
    destruct E as (h & -> & Eq). destruct (query_kept false None l2 m1 h F2) as (h' & A & B & _).
    exists h'. rewrite A. split; [reflexivity|congruence]. }
  destruct K as (h2 & K1 & K2).
  assert (E : exists h3, mstep false None (m2, Some h2) MEffects = (m2, Some h3)
                /\ h_query h3 = q /\ h_listens h3 = Some q /\ returned h3 = returned h2).
  { cbn [mstep]. destruct (match h_listens h2 with Some q0 => str_eqb q0 (h_query h2) | None => false end) eqn:L.
    - exists h2. split; [reflexivity|]. split; [exact K2|]. split; [|reflexivity].
      destruct (h_listens h2); [|discriminate]. apply str_eqb_eq in L. congruence.
    - eexists. split; [reflexivity|]. cbn. split; [exact K2|]. split; [congruence|reflexivity]. }
  destruct E as (h3 & E & Q3 & L3 & R3). destruct (stale_iff q l3 m2 h3 Q3 L3 F3) as (h & E4 & I4).
  exists h2, h. split; [exact K1|]. split; [|now rewrite <- R3].
  replace (l1 ++ MRender q :: l2 ++ MEffects :: l3) with ((l1 ++ MRender q :: l2) ++ MEffects :: l3)
    by (now rewrite <- app_assoc).
  unfold mrun in *. rewrite fold_left_app, K1. cbn [fold_left]. rewrite E. exact E4.
Qed.
Print Assumptions media_query_current_iff.

(** Stale after a change of the query, right again after the answer has changed twice. *)
Example media_query_current_iff_ex :
  let q := lit "(min-width: 900px)" in
  let l := [MRender (lit "print"); MEffects; MRender q; MEffects] in
  (exists h, mrun false None wide l = (wide, Some h) /\ returned h <> wide q)
  /\ (exists h, mrun false None wide (l ++ [MMedia (fun _ => false); MMedia wide]) = (wide, Some h) /\ returned h = wide q).
Proof. split; eexists; (split; [vm_compute; reflexivity|]); [discriminate|reflexivity]. Qed.
