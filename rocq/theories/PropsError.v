(** * PropsError: the error of a text that is no CSS says where reading stopped (C87). *)

From Coq Require Import String Ascii List NArith Bool Arith Lia.
From Verif Require Import Str StrFacts Ids Ast Nom CssParser VNom VParser SpecSays SpecError NomFacts ParserSound ParserTotal VFacts.
Import ListNotations.
Local Open Scope list_scope.

(** The parser with errors accepts the same texts, with the same sheets, as the parser of the other
    theorems. *)
Theorem errors_change_nothing : forall css,
  (forall s, v_parse css = VParsed s <-> parse css = Parsed s)
  /\ ((exists reason e, v_parse css = VRejected reason e) <-> parse css = Rejected).
Proof.
  intros css. pose proof (v_parse_parse css) as H. split; [intros s|]; destruct (v_parse css) as [s'|r e|];
    split; try congruence; try discriminate; eauto; intros (r' & e' & E); congruence.
Qed.
Print Assumptions errors_change_nothing.

(** The first place of an error: what comes before is CSS, what comes after starts neither with white
    space nor with an item that can be read: by itself it is rejected at its very beginning. *)
Theorem error_is_where_reading_stopped : forall css reason e,
  v_parse css = VRejected reason e ->
  exists a b s reason_b,
    css = a ++ b /\ hd_error e = Some (b, VNom KMany0)
    /\ says_sheet a s
    /\ b <> [] /\ (forall c, hd_error b = Some c -> ~ In c css_ws)
    /\ exists e', v_parse b = VRejected reason_b e' /\ hd_error e' = Some (b, VNom KMany0).
Proof.
  intros css reason e H. destruct (v_parse_error _ _ _ H) as (a & b & s & -> & -> & _ & Sa & Hb & Si & Nb).
  exists a, b, s, (convert_error b (error_at b b)). repeat split; auto.
  - intros c Hc Ic. destruct b as [|c0 b]; [discriminate|]. injection Hc as ->.
    unfold sp_item in Si. cbn [alt] in Si. unfold take_while1 in Si. cbn [span] in Si.
    assert (M : mem c sp_chars = true).
    { unfold mem. apply existsb_exists. exists c. split; [exact Ic|]. apply N.eqb_refl. }
    rewrite M in Si. destruct (span (fun c => mem c sp_chars) b). discriminate.
  - exists (error_at b b). split; auto.
Qed.
Print Assumptions error_is_where_reading_stopped.

#[local] Arguments char_eqb : simpl never.

Lemma newline_nl c : char_eqb newline c = true <-> c = nl.
Proof. unfold char_eqb, newline, nl. rewrite N.eqb_eq. split; congruence. Qed.

Lemma no_newline s : existsb (char_eqb newline) s = false <-> ~ In nl s.
Proof.
  split.
  - intros H I. assert (existsb (char_eqb newline) s = true) by (apply existsb_exists; exists nl; split; auto).
    congruence.
  - intros N. apply not_true_iff_false. intros H. apply existsb_exists in H as (c & I & E).
    apply newline_nl in E. now subst.
Qed.

Lemma last_line_spec s : exists pre, s = pre ++ last_line s /\ ~ In nl (last_line s)
  /\ (pre = [] \/ exists p, pre = p ++ [nl]).
Proof.
  induction s as [|c s (pre & E & N & P)]; [exists []; cbn; auto|]. cbn.
  destruct (existsb (char_eqb newline) s) eqn:X.
  - exists (c :: pre). split; [cbn; now f_equal|]. split; auto. right.
    destruct P as [->|(p & ->)]; [|now exists (c :: p)]. cbn in E. exfalso.
    assert (existsb (char_eqb newline) s = false) by (rewrite E; now apply no_newline). congruence.
  - destruct (char_eqb newline c) eqn:C.
    + apply newline_nl in C. subst. exists [nl]. split; [reflexivity|]. split; [now apply no_newline|]. right. now exists [].
    + exists []. split; [reflexivity|]. split; [|now left]. intros [I|I]; [subst; rewrite (proj2 (newline_nl nl) eq_refl) in C; discriminate|].
      revert I. now apply no_newline.
Qed.

Lemma first_line_spec s : exists post, s = first_line s ++ post /\ ~ In nl (first_line s)
  /\ (post = [] \/ exists p, post = nl :: p).
Proof.
  unfold first_line. induction s as [|c s (post & E & N & P)]; cbn; [exists []; auto|].
  destruct (char_eqb newline c) eqn:C; cbn.
  - apply newline_nl in C. subst. exists (nl :: s). split; auto. split; auto. right. now exists s.
  - destruct (span _ s) as [x y] eqn:Sp. cbn in *. exists post. split; [now f_equal|]. split; auto.
    intros [I|I]; auto. subst. rewrite (proj2 (newline_nl nl) eq_refl) in C. discriminate.
Qed.

Lemma first_line_app u s : ~ In nl u -> first_line (u ++ s) = u ++ first_line s.
Proof.
  intros N. unfold first_line. induction u as [|c u IH]; cbn; auto.
  assert (C : char_eqb newline c = false).
  { apply not_true_iff_false. intros E. apply newline_nl in E. subst. apply N. now left. }
  rewrite C. cbn. rewrite <- IH by (intros I; apply N; now right).
  now destruct (span _ (u ++ s)).
Qed.

Lemma count_filter s : List.length (filter (char_eqb newline) s) = count_occ N.eq_dec s nl.
Proof.
  induction s as [|c s IH]; cbn; auto. destruct (N.eq_dec c nl) as [->|N].
  - rewrite (proj2 (newline_nl nl) eq_refl). cbn. now rewrite IH.
  - destruct (char_eqb newline c) eqn:E; auto. apply newline_nl in E. congruence.
Qed.

Lemma count_none s : ~ In nl s -> count_occ N.eq_dec s nl = 0.
Proof. apply count_occ_not_In. Qed.

Lemma size_bytes s : byte_len s = utf8_size s.
Proof. unfold byte_len, list_sum. induction s as [|c s IH]; cbn; auto. Qed.

Lemma prefix_of {A} (a b : list A) : firstn (List.length (a ++ b) - List.length b) (a ++ b) = a.
Proof.
  rewrite app_length. replace (List.length a + List.length b - List.length b) with (List.length a + 0) by lia.
  rewrite firstn_app_2. cbn. now rewrite app_nil_r.
Qed.

Lemma meets a b : exists n, meet_in_line a b (last_line a) (first_line b) n
  /\ List.length (filter (char_eqb newline) a) = n.
Proof.
  destruct (last_line_spec a) as (pre & Ea & Na & Pa). destruct (first_line_spec b) as (post & Eb & Nb & Pb).
  exists (count_occ N.eq_dec pre nl). split.
  - exists pre, post. repeat split; auto.
  - rewrite count_filter. rewrite Ea at 1. rewrite count_occ_app, (count_none _ Na). lia.
Qed.

Lemma meet_unique a b cur l n cur' l' n' :
  meet_in_line a b cur l n -> meet_in_line a b cur' l' n' -> cur = cur' /\ l = l' /\ n = n'.
Proof.
  intros (pre & post & Ea & Eb & N1 & N2 & P1 & P2 & ->) (pre' & post' & Ea' & Eb' & N1' & N2' & P1' & P2' & ->).
  assert (F : forall x p y q, ~ In nl x -> ~ In nl y -> (p = [] \/ exists z, p = nl :: z) -> (q = [] \/ exists z, q = nl :: z) ->
              x ++ p = y ++ q -> x = y /\ p = q).
  { induction x as [|c x IH]; intros p y q Nx Ny Hp Hq E.
    - destruct y as [|c y]; auto. cbn in E. destruct Hp as [->|(z & ->)]; [discriminate|].
      injection E as <- _. exfalso. apply Ny. now left.
    - destruct y as [|c' y].
      + cbn in E. destruct Hq as [->|(z & ->)]; [discriminate|]. injection E as -> _. exfalso. apply Nx. now left.
      + injection E as -> E. destruct (IH p y q) as [-> ->]; auto; intros I; [apply Nx|apply Ny]; now right. }
  assert (L : l = l' /\ post = post') by (apply F; auto; congruence).
  assert (C : rev cur = rev cur' /\ rev pre = rev pre').
  { apply F.
    - now rewrite <- in_rev.
    - now rewrite <- in_rev.
    - destruct P1 as [->|(p & ->)]; auto. right. exists (rev p). now rewrite rev_app_distr.
    - destruct P1' as [->|(p & ->)]; auto. right. exists (rev p). now rewrite rev_app_distr.
    - rewrite <- !rev_app_distr. congruence. }
  destruct C as [C1 C2]. apply (f_equal (@rev _)) in C1. apply (f_equal (@rev _)) in C2. rewrite !rev_involutive in C1, C2.
  destruct L as [-> _]. subst. auto.
Qed.

Lemma convert_entry a b cur l n k kind :
  a ++ b <> [] -> meet_in_line a b cur l n -> (forall c, kind <> VChar c) ->
  convert_one (a ++ b) k (b, kind)
  = entry k n (match kind with VContext s => s | VNom x => kind_name x | VChar _ => [] end) cur l.
Proof.
  intros Ne M Nc. destruct (meets a b) as (n' & M' & C). destruct (meet_unique _ _ _ _ _ _ _ _ M M') as (-> & -> & ->).
  unfold convert_one, entry. rewrite prefix_of, C, <- size_bytes.
  destruct (last_line_spec a) as (_ & _ & Na & _). rewrite (first_line_app _ _ Na).
  destruct (a ++ b) as [|c0 r0] eqn:E0; [now destruct Ne|].
  cbn [Nat.sub]. rewrite Nat.sub_0_r.
  destruct kind as [s|c|x]; [|now destruct (Nc c)|]; unfold newline, nl; repeat rewrite <- app_assoc; cbn [app]; reflexivity.
Qed.

(** What the message says: the line of that place with a caret, and the contexts, both at the first line. *)
Theorem error_message_says : forall css reason e,
  v_parse css = VRejected reason e ->
  exists a b cur l n first,
    css = a ++ b /\ hd_error e = Some (b, VNom KMany0)
    /\ meet_in_line a b cur l n /\ meet_in_line [] css [] first 0
    /\ reason = entry 0 n (lit "Many0") cur l ++ entry 1 0 (lit "Trimmed") [] first
                ++ entry 2 0 (lit "StyleSheet") [] first.
Proof.
  intros css reason e H. destruct (v_parse_error _ _ _ H) as (a & b & s & -> & -> & -> & _ & _ & _ & Nb).
  destruct (meets a b) as (n & M & _). destruct (meets [] (a ++ b)) as (n0 & M0 & C0). cbn in C0. subst n0.
  exists a, b, (last_line a), (first_line b), n, (first_line (a ++ b)). repeat split; auto.
  assert (Ne : a ++ b <> []) by (destruct a; [exact Nb|discriminate]).
  unfold convert_error, error_at. cbn [convert_from].
  rewrite (convert_entry a b _ _ _ _ _ Ne M) by discriminate.
  rewrite (convert_entry [] (a ++ b) _ _ _ _ _ Ne M0) by discriminate.
  rewrite (convert_entry [] (a ++ b) _ _ _ _ _ Ne M0) by discriminate.
  rewrite app_nil_r. reflexivity.
Qed.
Print Assumptions error_message_says.

(** [unwrap_display] and [expect_display] give the sheet, or panic with that message and nothing else. *)
Theorem unwrap_display_says : forall css msg,
  (forall s, parse css = Parsed s ->
     unwrap_display (v_parse css) = Some (Value s) /\ expect_display (v_parse css) msg = Some (Value s))
  /\ (parse css = Rejected -> exists reason e, v_parse css = VRejected reason e
     /\ unwrap_display (v_parse css) = Some (Panic (lit "Failed to Parse CSS, due to:" ++ [nl] ++ reason))
     /\ expect_display (v_parse css) msg = Some (Panic (msg ++ lit ": Failed to Parse CSS, due to:" ++ [nl] ++ reason))).
Proof.
  intros css msg. pose proof (v_parse_parse css) as H. split.
  - intros s E. destruct (v_parse css) as [s'|r e|]; cbn; split; congruence.
  - intros E. destruct (v_parse css) as [s'|r e|]; try congruence. exists r, e. repeat split; reflexivity.
Qed.
Print Assumptions unwrap_display_says.

(** ** Examples *)

Example error_ex :
  v_parse (lit "a { b: c; }" ++ [nl] ++ lit "  d { e: f" ++ [nl] ++ lit "}}")
  = VRejected (lit "0: at line 3, in Many0:" ++ [nl] ++ lit "}}" ++ [nl] ++ lit " ^" ++ [nl; nl]
               ++ lit "1: at line 1, in Trimmed:" ++ [nl] ++ lit "a { b: c; }" ++ [nl] ++ lit "^" ++ [nl; nl]
               ++ lit "2: at line 1, in StyleSheet:" ++ [nl] ++ lit "a { b: c; }" ++ [nl] ++ lit "^" ++ [nl; nl])
              [(lit "}", VNom KMany0);
               (lit "a { b: c; }" ++ [nl] ++ lit "  d { e: f" ++ [nl] ++ lit "}}", VContext (lit "Trimmed"));
               (lit "a { b: c; }" ++ [nl] ++ lit "  d { e: f" ++ [nl] ++ lit "}}", VContext (lit "StyleSheet"))].
Proof. vm_compute. reflexivity. Qed.

(** The caret counts bytes: after a char outside ASCII it is not below the place. *)
Example caret_counts_bytes :
  exists reason e, v_parse ([233%N] ++ lit "{} }") = VRejected reason e
  /\ firstn 37 reason = lit "0: at line 1, in Many0:" ++ [nl] ++ [233%N] ++ lit "{} }" ++ [nl] ++ repeat 32%N 5 ++ lit "^" ++ [nl].
Proof. eexists _, _. split; vm_compute; reflexivity. Qed.

(** The place is where the first item starts that is not read, not the char at fault in it: declarations outside
    braces are one item, and so is a block. *)
Example place_is_of_the_item :
  (exists r e, v_parse (lit "color: red; margin: 0") = VRejected r e /\ hd_error e = Some (lit "color: red; margin: 0", VNom KMany0))
  /\ (exists r e, v_parse (lit "a { } b { color: red; margin }") = VRejected r e
      /\ hd_error e = Some (lit "b { color: red; margin }", VNom KMany0)).
Proof. split; eexists _, _; split; vm_compute; reflexivity. Qed.
