(** * PropsEmpty: exactly which empty braces may hold blank space (C16). *)

From Coq Require Import String Ascii List NArith Bool Arith Lia.
From Verif Require Import Str StrFacts Ast Nom CssParser SpecSays SpecGrammar ParserTotal ParserSel ParserComplete ParserEmpty PropsParser.
Import ListNotations.
Local Open Scope list_scope.

(** For every blank space [w] between the empty braces of a keyframes rule, of a frame of a
    keyframes rule and of a rule nested in a block, whatever their names, conditions and
    selectors: the text is accepted exactly when [w] is empty. *)
Theorem blank_in_empty_braces_iff : forall w, blank w ->
  (forall name, cond_text name -> tight name ->
     (exists s, parse (lit "@keyframes " ++ name ++ lit "{" ++ w ++ lit "}") = Parsed s) <-> w = [])
  /\ (forall name w0 frame, cond_text name -> tight name -> blank w0 ->
     sel_text frame -> tight frame -> hd_error frame <> Some (ch "/") ->
     (exists s, parse (lit "@keyframes " ++ name ++ lit "{" ++ w0 ++ frame ++ lit "{" ++ w ++ lit "}}")
                = Parsed s) <-> w = [])
  /\ (forall sel w0 at_name cond, sel_text sel -> tight sel -> blank w0 ->
     In at_name group_names -> cond_text cond -> tight cond ->
     (exists s, parse (sel ++ lit "{" ++ w0 ++ at_name ++ lit " " ++ cond ++ lit "{" ++ w ++ lit "}}")
                = Parsed s) <-> w = []).
Proof.
  intros w Hw.
  assert (K : forall name, cond_text name -> tight name ->
    writes_at [lit "@keyframes"] (lit "@keyframes " ++ name) [lit "@keyframes "; name]).
  { intros name Hc Ht. exists [], (lit "@keyframes"), [], name, [].
    rewrite !app_nil_r. splits; auto; try constructor; auto; apply Ht. }
  assert (G : forall at_name cond, In at_name group_names -> cond_text cond -> tight cond ->
    writes_at group_names (at_name ++ lit " " ++ cond) [at_name ++ lit " "; cond]).
  { intros n cond Hn Hc Ht. exists [], n, [], cond, [].
    rewrite !app_nil_r. splits; auto; try constructor; apply Ht. }
  assert (D : forall u : str, u = [] \/ u <> []) by (intros [|]; [now left|right; discriminate]).
  split; [|split].
  - intros name Hc Ht. split.
    + intros [s E]. destruct (D w) as [->|Hn]; auto.
      assert (R := blank_keyframes_rejected _ _ w [] (K name Hc Ht) Hw Hn).
      rewrite app_nil_r, <- !app_assoc in R. congruence.
    + intros ->. exists [SRule [lit "@keyframes "; name] []]. apply parse_complete.
      exists [], ((lit "@keyframes " ++ name) ++ lit "{" ++ [] ++ lit "}" ++ [] ++ []).
      split; [now rewrite !app_nil_r, <- !app_assoc|]. split; [constructor|].
      apply wsc_keyframes; auto; constructor.
  - intros name w0 fr Hc Ht Hw0 Hs Hf Hh. split.
    + intros [s E]. destruct (D w) as [->|Hn]; auto.
      assert (S : writes_sels (fr ++ []) [[fr]]) by (apply (wsel_one [] fr []); auto; constructor).
      assert (R := blank_in_frame_rejected _ _ w0 fr _ [] w (lit "}") (K name Hc Ht) Hw0 S Hf Hh
                     ltac:(constructor) Hw Hn).
      cbn [app] in R. rewrite <- !app_assoc in R. cbn [app lit list_ascii_of_string map] in R, E. congruence.
    + intros ->. exists [SRule [lit "@keyframes "; name] [CRule [fr] []]]. apply parse_complete.
      exists [], ((lit "@keyframes " ++ name) ++ lit "{" ++ ((w0 ++ fr ++ [] ++ lit "{" ++ [] ++ lit "}" ++ []) ++ []) ++ lit "}" ++ [] ++ []).
      split; [now rewrite ?app_nil_r, <- !app_assoc|]. split; [constructor|].
      apply wsc_keyframes; auto; try constructor; [|constructor].
      exists w0, fr, [[fr]], [], [], [], []. splits; auto; try constructor; try apply Hf.
      apply (wsel_one [] fr []); auto; constructor.
  - intros sel w0 n cond Hs Ht Hw0 Hin Hc Htc. split.
    + intros [s E]. destruct (D w) as [->|Hn]; auto.
      assert (S : writes_sels sel [[sel]]).
      { assert (S := wsel_one [] sel [] ltac:(constructor) Hs Ht ltac:(constructor)).
        now rewrite app_nil_r in S. }
      assert (R := blank_in_nested_rejected _ _ w0 _ _ w (lit "}") S Hw0 (G n cond Hin Hc Htc) Hw Hn).
      rewrite <- !app_assoc in R. cbn [app lit list_ascii_of_string map] in R, E. congruence.
    + intros ->. exists [SBlock [[sel]] [CRule [n ++ lit " "; cond] []]]. apply parse_complete.
      exists [], (([] ++ sel ++ []) ++ lit "{" ++ w0 ++ ((n ++ lit " " ++ cond) ++ lit "{" ++ [] ++ lit "}" ++ [] ++ []) ++ lit "}" ++ [] ++ []).
      split; [now rewrite ?app_nil_r, <- !app_assoc|]. split; [constructor|].
      apply wsc_block; auto; try constructor; auto; try constructor; try discriminate; auto; constructor.
Qed.
Print Assumptions blank_in_empty_braces_iff.

(** Whatever text follows, the style sheet is then rejected as a whole: styles written after
    the blank empty rule are lost with it. *)
Theorem blank_in_empty_keyframes_rejects_all : forall w name rest,
  blank w -> w <> [] -> cond_text name -> tight name ->
  parse (lit "@keyframes " ++ name ++ lit "{" ++ w ++ lit "}" ++ rest) = Rejected.
Proof.
  intros w name rest Hw Hn Hc Ht.
  assert (K : writes_at [lit "@keyframes"] (lit "@keyframes " ++ name) [lit "@keyframes "; name]).
  { exists [], (lit "@keyframes"), [], name, [].
    rewrite !app_nil_r. splits; auto; try constructor; auto; apply Ht. }
  assert (R := blank_keyframes_rejected _ _ w rest K Hw Hn). now rewrite <- !app_assoc in R.
Qed.
Print Assumptions blank_in_empty_keyframes_rejects_all.

Example blank_in_empty_braces_iff_ex :
  blank (lit " /* later */ ") /\ cond_text (lit "spin") /\ tight (lit "spin")
  /\ sel_text (lit "from") /\ hd_error (lit "from") <> Some (ch "/")
  /\ cond_text (lit "(max-width: 500px)") /\ tight (lit "(max-width: 500px)").
Proof.
  assert (P : forall t, forallb (fun c => negb (mem c (lit "${"))) t = true -> cond_text t).
  { intros t H. left. apply Forall_forall. intros c Hc Hin. rewrite forallb_forall in H.
    specialize (H c Hc). apply negb_true_iff in H. apply mem_In in Hin. congruence. }
  splits.
  - apply blank_ws; [cbn; tauto|].
    apply (blank_comment (lit " later ") (lit " ")); [|apply blank_ws; [cbn; tauto|constructor]].
    intros (a & b & E). assert (H : In (ch "*") (lit " later ")) by (rewrite E; apply in_or_app; right; left; reflexivity).
    vm_compute in H. intuition discriminate.
  - apply (P (lit "spin")). reflexivity.
  - split; [discriminate|reflexivity].
  - plain_sel.
  - discriminate.
  - apply (P (lit "(max-width: 500px)")). reflexivity.
  - split; [discriminate|reflexivity].
Qed.
