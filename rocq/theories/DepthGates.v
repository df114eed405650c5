(** * DepthGates: rejected texts that need room for every opening brace (C90). *)

From Coq Require Import String Ascii List NArith Bool Arith Lia.
From Verif Require Import Str StrFacts Ast Nom CssParser SpecSays NomFacts ParserSound ParserTotal SpecGrammar ParserLex ParserTokens ParserSel ParserGrammar ParserComplete SpecDepth DepthFacts.
Import ListNotations.
Local Open Scope list_scope.

Lemma gates_opens n : opens (gates n) = n.
Proof. induction n as [|n IH]; auto. cbn [gates]. now rewrite opens_app, IH. Qed.
Lemma gates_dsp n : dsp (gates n) = gates n.
Proof. apply dsp_solid. destruct n; [exact I|]. split; [cbn; intuition discriminate|]. intros E. discriminate. Qed.
Lemma gate_condition n : group_condition (gates (S n)) = ROk (ch "{" :: gates n) [lit "@media "; lit "a"].
Proof.
  unfold group_condition.
  change (gates (S n)) with ([] ++ lit "@media" ++ lit " " ++ [] ++ lit "a" ++ [] ++ ch "{" :: gates n).
  apply (at_condition_ok _ [] (lit "@media") [] (lit "a") []).
  - intros i. reflexivity.
  - eexists. reflexivity.
  - constructor.
  - constructor.
  - constructor.
  - left. constructor; [|constructor]. cbn. intuition discriminate.
  - split; [discriminate|reflexivity].
Qed.

Lemma gate_at contents n :
  at_rule_with contents (gates (S n)) =
  bind (terminated contents (tag (lit "}")) (gates n))
       (fun r l => ROk (dsp r) (SRule [lit "@media "; lit "a"] (map rbc_of_scope l))).
Proof.
  unfold at_rule_with. rewrite trimmed_eq, gates_dsp. fold group_condition.
  pose proof (gate_condition n) as E. remember (gates (S n)) as G eqn:EG.
  assert (NE : forall A (p : parser A), expect_non_empty p G = p G) by (intros; subst G; reflexivity).
  rewrite NE. unfold map_p, separated_pair, pair_p, preceded. rewrite E. cbn [bind].
  rewrite tag_open. cbn [bind]. destruct (terminated contents _ _); reflexivity.
Qed.

Lemma gate_elem d n :
  scope_elem d (gates (S n)) =
  match at_rule_with (scope_contents d) (gates (S n)) with RErr => RErr | x => x end.
Proof.
  unfold scope_elem. rewrite (alt_err_cons dangling_block), (alt_err_cons (block d)).
  - cbn [alt]. rewrite keyframes_err; [reflexivity|]. now rewrite gates_dsp.
  - apply block_err. rewrite gates_dsp. cbn. tauto.
  - apply dangling_err, attributes_err. rewrite gates_dsp. cbn. tauto.
Qed.

Lemma gates_contents d n :
  scope_contents (S d) (gates (S n)) = 
  bind (many0 (scope_elem d) (gates (S n))) (fun r l => ROk (dsp r) l).
Proof. cbn [scope_contents]. rewrite trimmed_eq, gates_dsp. reflexivity. Qed.

Lemma gates_no_room d : forall n, d <= n -> scope_contents d (gates n) = RFuel.
Proof.
  induction d as [|d IH]; intros n H; [reflexivity|]. destruct n as [|n]; [lia|].
  rewrite gates_contents. unfold many0. cbn [many0_fuel]. rewrite gate_elem, gate_at.
  unfold terminated. rewrite IH by lia. reflexivity.
Qed.

Lemma gates_within d n : 1 <= n -> d <= n -> parse_within d (gates n) = OutOfFuel.
Proof.
  intros H1 H. destruct n as [|n]; [lia|].
  assert (E : scope d (gates (S n)) = RFuel).
  { unfold scope. rewrite trimmed_eq, gates_dsp. pose proof (gates_no_room d (S n) H) as E.
    remember (gates (S n)) as G eqn:EG.
    assert (NE : expect_non_empty (scope_contents d) G = scope_contents d G) by (subst G; reflexivity).
    now rewrite NE, E. }
  unfold parse_within, sheet_p. rewrite trimmed_eq, gates_dsp. unfold map_p, many0. cbn [many0_fuel].
  rewrite E. reflexivity.
Qed.

Lemma gates_elem_err d : forall n, n < d -> scope_elem d (gates (S n)) = RErr.
Proof.
  induction d as [|d IH]; intros n H; [lia|]. rewrite gate_elem, gate_at.
  unfold terminated. destruct n as [|n].
  - reflexivity.
  - rewrite gates_contents. rewrite many0_stop_at by (apply IH; lia). cbn [bind]. now rewrite gates_dsp.
Qed.

Lemma gates_rejected n : parse (gates (S n)) = Rejected.
Proof.
  pose proof (within_opens (S (S (S n))) (gates (S n))) as W. rewrite gates_opens in W.
  rewrite <- (within_parse (S (S (S n)))) by (apply W; lia).
  unfold parse_within, sheet_p. rewrite trimmed_eq, gates_dsp. unfold map_p, many0. cbn [many0_fuel].
  assert (E : scope (S (S (S n))) (gates (S n)) = ROk (gates (S n)) []).
  { unfold scope. rewrite trimmed_eq, gates_dsp.
    assert (C : scope_contents (S (S (S n))) (gates (S n)) = ROk (gates (S n)) []).
    { rewrite gates_contents, many0_stop_at by (apply gates_elem_err; lia). cbn [bind]. now rewrite gates_dsp. }
    remember (gates (S n)) as G eqn:EG.
    assert (NE : expect_non_empty (scope_contents (S (S (S n)))) G = scope_contents (S (S (S n))) G) by (subst G; reflexivity).
    rewrite NE, C. cbn [bind]. subst G. now rewrite gates_dsp. }
  rewrite E, Nat.eqb_refl. reflexivity.
Qed.
