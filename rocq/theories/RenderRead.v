(** * RenderRead: reading the rendered text back; balance; emptiness; scoping. *)

From Coq Require Import String Ascii List NArith Bool Arith Lia.
From Verif Require Import Str StrFacts Ast Render SpecRender RenderFacts.
Import ListNotations.
Local Open Scope list_scope.

(** ** Reading closed lines *)

Lemma mem_struct c :
  mem c (lit "{};") = char_eqb c (ch "{") || (char_eqb c (ch "}") || (char_eqb c (ch ";") || false)).
Proof. reflexivity. Qed.

Lemma read_scan m s m' buf st rest :
  scan m s = Some m' -> read m buf st (s ++ rest) = read m' (buf ++ s) st rest.
Proof.
  revert m buf; induction s as [|c s IH]; intros m buf H; cbn [scan app read] in *.
  - injection H as ->. now rewrite app_nil_r.
  - rewrite mem_struct in H. destruct (structural m) eqn:Es; cbn [andb] in *.
    + destruct (char_eqb c (ch "{")) eqn:E1; [easy|].
      destruct (char_eqb c (ch "}")) eqn:E2; [easy|].
      destruct (char_eqb c (ch ";")) eqn:E3; [easy|].
      cbn [orb] in H. rewrite (IH _ _ H). now rewrite <- app_assoc.
    + rewrite (IH _ _ H). now rewrite <- app_assoc.
Qed.

Lemma scan_app m a b m' : scan m a = Some m' -> scan m (a ++ b) = scan m' b.
Proof.
  revert m; induction a as [|c a IH]; intros m H; cbn in *.
  - now injection H as ->.
  - destruct (structural m && _); [easy|auto].
Qed.

Lemma closed_app a b : closed a -> closed b -> closed (a ++ b).
Proof. unfold closed. intros H1 H2. now rewrite (scan_app _ _ _ _ H1). Qed.

Lemma closed_spaces n : closed (spaces n).
Proof. unfold closed. induction n; cbn; auto. Qed.

Lemma split_colon_none_app k v : ~ In (ch ":") k -> split_colon (k ++ ch ":" :: v) = Some (k, v).
Proof.
  induction k as [|c k IH]; cbn [app split_colon]; intros H.
  - now rewrite char_eqb_refl.
  - destruct (char_eqb c (ch ":")) eqn:E.
    + apply char_eqb_eq in E. subst. exfalso. apply H. now left.
    + rewrite IH; [easy|]. intros X. apply H. now right.
Qed.

Lemma colon_not_ws s : forallb is_uni_ws s = true -> ~ In (ch ":") s.
Proof.
  intros H Hin. rewrite forallb_forall in H. specialize (H _ Hin). discriminate.
Qed.

Definition line_closed : line -> Prop :=
  line_ok closed (fun k v => closed k /\ ~ In (ch ":") k /\ closed v).

Lemma map_removelast {A B} (f : A -> B) l : map f (removelast l) = removelast (map f l).
Proof. induction l as [|x [|y l] IH]; cbn in *; [easy|easy|]. now f_equal. Qed.

Lemma read_layout ls : forall depth w st items,
  Forall line_closed ls -> forallb is_uni_ws w = true -> scan MPlain w = Some MPlain ->
  run st ls = Some ([], items) ->
  read MPlain w (map trim st) (layout depth ls) = Some (map trim_item items).
Proof.
  induction ls as [|l ls IH]; intros depth w st items HF Hw Hs Hr.
  - cbn in *. injection Hr as -> <-. cbn. now rewrite trim_all_ws.
  - inversion_clear HF as [|? ? H1 H2].
    assert (Hsp := spaces_ws (4 * depth)). assert (Hsp' := spaces_ws (4 * (depth - 1))).
    assert (Hc := closed_spaces (4 * depth)). assert (Hc' := closed_spaces (4 * (depth - 1))).
    destruct l as [c| |k v]; cbn [layout run] in *.
    + destruct (run (st ++ [c]) ls) as [[st1 i1]|] eqn:E; [|easy].
      injection Hr as -> <-. cbn in H1.
      rewrite (read_scan MPlain (spaces (4 * depth)) MPlain) by exact Hc.
      rewrite (read_scan MPlain c MPlain) by exact H1.
      change (lit " {" ++ nl ++ layout (S depth) ls)
        with (lit " " ++ ch "{" :: nl ++ layout (S depth) ls).
      rewrite (read_scan MPlain (lit " ") MPlain) by easy.
      cbn [read structural andb]. change (char_eqb (ch "{") (ch "{")) with true. cbn iota.
      assert (Et : trim (((w ++ spaces (4 * depth)) ++ c) ++ lit " ") = trim c).
      { rewrite trim_ws_r by easy. rewrite trim_ws_l; [easy|]. rewrite forallb_app, Hw. exact Hsp. }
      rewrite Et.
      rewrite (read_scan MPlain nl MPlain) by easy. cbn [app].
      replace (map trim st ++ [trim c]) with (map trim (st ++ [c])) by now rewrite map_app.
      rewrite (IH _ nl _ _ H2 eq_refl eq_refl E). cbn. now rewrite map_app.
    + destruct st as [|x st]; [easy|].
      rewrite (read_scan MPlain (spaces (4 * (depth - 1))) MPlain) by exact Hc'.
      change (lit "}" ++ nl ++ layout (depth - 1) ls)
        with (ch "}" :: nl ++ layout (depth - 1) ls).
      cbn [read structural andb].
      change (char_eqb (ch "}") (ch "{")) with false. change (char_eqb (ch "}") (ch "}")) with true.
      cbn iota. rewrite trim_all_ws by (rewrite forallb_app, Hw; exact Hsp').
      rewrite (read_scan MPlain nl MPlain) by easy. cbn [app].
      cbn [map]. change (trim x :: map trim st) with (map trim (x :: st)).
      rewrite <- map_removelast. apply IH; easy.
    + destruct (run st ls) as [[st1 i1]|] eqn:E; [|easy].
      injection Hr as -> <-. cbn in H1. destruct H1 as (Hk & Hcol & Hv).
      rewrite (read_scan MPlain (spaces (4 * depth)) MPlain) by exact Hc.
      rewrite (read_scan MPlain k MPlain) by exact Hk.
      rewrite (read_scan MPlain (lit ": ") MPlain) by easy.
      rewrite (read_scan MPlain v MPlain) by exact Hv.
      change (lit ";" ++ nl ++ layout depth ls) with (ch ";" :: nl ++ layout depth ls).
      cbn [read structural andb].
      change (char_eqb (ch ";") (ch "{")) with false. change (char_eqb (ch ";") (ch "}")) with false.
      change (char_eqb (ch ";") (ch ";")) with true. cbn iota.
      replace ((((w ++ spaces (4 * depth)) ++ k) ++ lit ": ") ++ v)
        with (((w ++ spaces (4 * depth)) ++ k) ++ ch ":" :: (lit " " ++ v))
        by (rewrite <- !app_assoc; reflexivity).
      rewrite split_colon_none_app.
      2:{ rewrite <- app_assoc. intros X. apply in_app_or in X as [X|X]; [now apply colon_not_ws in X|].
          apply in_app_or in X as [X|X]; [now apply colon_not_ws in X|easy]. }
      rewrite (read_scan MPlain nl MPlain) by easy. cbn [app].
      rewrite (IH _ nl _ _ H2 eq_refl eq_refl E). cbn [option_map map trim_item].
      rewrite trim_ws_l by (rewrite forallb_app, Hw; exact Hsp).
      change (32%N :: v) with (lit " " ++ v). now rewrite trim_ws_l.
Qed.

Lemma decls_trim items : decls (map trim_item items) = map trim_item (decls items).
Proof. induction items as [|[p|p k v] items IH]; cbn; [easy|exact IH|]. now f_equal. Qed.

(** ** Closedness is preserved by scoping *)

Lemma boring_spec c :
  boring c = true ->
  c <> backslash /\ mem c quote_chars = false /\ c <> ch "/" /\ c <> ch "*" /\ mem c (lit "{};") = false.
Proof.
  unfold boring. intros H. apply negb_true_iff, mem_not_In in H.
  repeat split; try (intros ->; apply H; cbn; tauto);
    apply mem_not_In; intros X; apply H; cbn in *; tauto.
Qed.

(** The mode after a boring char does not depend on the char. *)
Definition bstep (m : mode) : mode := step m (ch "a").

(** Modes reached by scanning: strings are delimited by quote chars. *)
Definition real_mode (m : mode) : Prop :=
  match m with MStr q | MStrEsc q => mem q quote_chars = true | _ => True end.

Lemma step_real m c : real_mode m -> real_mode (step m c).
Proof.
  assert (P : real_mode (step_plain c)).
  { unfold step_plain. destruct (char_eqb c backslash); [easy|].
    destruct (mem c quote_chars) eqn:E; [exact E|]. now destruct (char_eqb c (ch "/")). }
  destruct m; cbn [step]; intros H; try exact P; try easy;
    repeat match goal with |- context [if ?x then _ else _] => destruct x end; easy.
Qed.

Lemma boring_step m c : real_mode m -> boring c = true -> step m c = bstep m.
Proof.
  intros R H. apply boring_spec in H as (H1 & H2 & H3 & H4 & H5).
  apply char_eqb_neq in H1, H3, H4.
  destruct m; unfold bstep; cbn [step]; unfold step_plain; rewrite ?H1, ?H2, ?H3, ?H4; try reflexivity.
  change (char_eqb (ch "a") backslash) with false. cbn iota. cbn [real_mode] in R.
  assert (E : forall x, mem x quote_chars = false -> char_eqb x q = false).
  { intros x Hx. apply char_eqb_neq. intros ->. congruence. }
  now rewrite (E c H2), (E (ch "a") eq_refl).
Qed.

Lemma bstep_idem m : real_mode m -> bstep (bstep m) = bstep m.
Proof.
  unfold bstep. destruct m; try easy; intros R; cbn [real_mode] in R.
  - assert (E : char_eqb (ch "a") q = false).
    { apply char_eqb_neq. intros <-. discriminate. }
    cbn [step]. change (char_eqb (ch "a") backslash) with false. cbn iota.
    rewrite E. cbn [step]. change (char_eqb (ch "a") backslash) with false. cbn iota. now rewrite E.
  - assert (E : char_eqb (ch "a") q = false).
    { apply char_eqb_neq. intros <-. discriminate. }
    cbn [step]. change (char_eqb (ch "a") backslash) with false. cbn iota. now rewrite E.
Qed.

Lemma scan_boring m r : real_mode m -> r <> [] -> forallb boring r = true -> scan m r = Some (bstep m).
Proof.
  revert m; induction r as [|c r IH]; intros m R Hr Hb; [easy|]. cbn in Hb. apply andb_true_iff in Hb as [Hc Hb].
  cbn [scan]. assert (Hc' := boring_spec c Hc). destruct Hc' as (_ & _ & _ & _ & Hm). rewrite Hm, andb_false_r.
  rewrite boring_step by easy. destruct r as [|c' r']; [easy|].
  rewrite IH; [|now apply step_real|easy|easy]. f_equal. now apply bstep_idem.
Qed.

(** Replacing a boring run by a boring run keeps the mode. *)
Lemma scan_replace_char c r s : forall m m',
  boring c = true -> r <> [] -> forallb boring r = true -> real_mode m ->
  scan m s = Some m' -> scan m (replace_char c r s) = Some m'.
Proof.
  induction s as [|x s IH]; intros m m' Hc Hr Hb R H; [easy|].
  change (replace_char c r (x :: s)) with ((if char_eqb x c then r else [x]) ++ replace_char c r s).
  cbn [scan] in H. destruct (structural m && mem x (lit "{};")) eqn:E1; [easy|].
  destruct (char_eqb x c) eqn:E.
  - apply char_eqb_eq in E. subst x. rewrite boring_step in H by easy.
    rewrite (scan_app m r _ (bstep m)) by now apply scan_boring.
    apply IH; auto. now apply step_real.
  - cbn [app scan]. rewrite E1. apply IH; auto. now apply step_real.
Qed.

Lemma starts_with_cons_inv x p s : starts_with (x :: p) s = true -> exists s', s = x :: s' /\ starts_with p s' = true.
Proof.
  destruct s; cbn; [easy|]. intros [H1 H2]%andb_true_iff. apply char_eqb_eq in H1. subst. eauto.
Qed.

Lemma replace_aux_skip p r k s : replace_aux p r s k = replace_aux p r (skipn k s) 0.
Proof.
  revert s; induction k; intros [|x s]; cbn; auto.
Qed.

Lemma scan_real m s m' : real_mode m -> scan m s = Some m' -> real_mode m'.
Proof.
  revert m; induction s as [|c s IH]; cbn; intros m R H; [now injection H as <-|].
  destruct (structural m && _); [easy|]. eapply IH; [|exact H]. now apply step_real.
Qed.

Lemma scan_replace_str p r n : forall s m m',
  List.length s <= n ->
  p <> [] -> forallb boring p = true -> r <> [] -> forallb boring r = true -> real_mode m ->
  scan m s = Some m' -> scan m (replace_aux p r s 0) = Some m'.
Proof.
  induction n as [|n IH]; intros s m m' L Hp Hbp Hr Hb R H.
  - destruct s; [exact H|cbn in L; lia].
  - destruct s as [|x s]; [exact H|]. cbn [replace_aux].
    destruct (starts_with p (x :: s)) eqn:E.
    + apply starts_with_spec in E as [t Ht]. 
      rewrite replace_aux_skip.
      assert (Es : skipn (List.length p - 1) s = t).
      { destruct p as [|y p]; [easy|]. cbn in Ht. injection Ht as -> ->. cbn. rewrite Nat.sub_0_r.
        apply skipn_prefix. }
      rewrite Es. rewrite Ht in H. rewrite (scan_app m p t (bstep m)) in H by now apply scan_boring.
      rewrite (scan_app m r _ (bstep m)) by now apply scan_boring.
      apply IH; auto.
      * apply (f_equal (@List.length _)) in Ht. rewrite app_length in Ht.
        destruct p; [easy|]. cbn in *. lia.
      * now apply step_real.
    + cbn [scan] in *. destruct (structural m && mem x (lit "{};")); [easy|].
      apply IH; auto; [cbn in L; lia|]. now apply step_real.
Qed.

Lemma closed_scoped class sel :
  boring_class class -> closed sel -> closed (scoped class sel).
Proof.
  unfold closed, scoped. intros Hb H. destruct class as [c|].
  - assert (Hd : forallb boring (lit "." ++ c) = true) by exact Hb.
    destruct (_ || _).
    + apply (scan_replace_str _ _ _ _ _ _ (Nat.le_refl _)); auto; try easy.
      apply scan_replace_char; auto; easy.
    + assert (Hs : scan MPlain (lit "." ++ c) = Some MPlain) by (apply (scan_boring MPlain); easy).
      destruct (starts_with _ _).
      * rewrite app_assoc. now rewrite (scan_app _ _ _ _ Hs).
      * rewrite app_assoc. rewrite (scan_app _ _ _ _ Hs).
        now rewrite (scan_app MPlain (lit " ") sel MPlain).
  - apply scan_replace_char; auto; easy.
Qed.

Lemma closed_join l : Forall closed l -> closed (join (lit ", ") l).
Proof.
  induction l as [|x [|y l] IH]; intros H; inversion_clear H as [|? ? H1 H2].
  - easy.
  - exact H1.
  - cbn [join]. apply closed_app; [exact H1|]. apply closed_app; [easy|]. now apply IH.
Qed.

Lemma closed_block_sel class sel cond :
  boring_class class -> Forall closed (opt_list sel) ->
  Forall (fun s => closed (List.concat s)) cond -> closed (block_sel class sel cond).
Proof.
  intros Hb Hs Hc. unfold block_sel. destruct cond as [|s cond].
  - destruct sel as [s|]; [now inversion_clear Hs|].
    unfold self_selector. destruct class as [c|]; [|easy].
    apply (scan_boring MPlain); easy.
  - apply closed_join. apply Forall_map. eapply Forall_impl; [|exact Hc].
    intros. now apply closed_scoped.
Qed.

Lemma closed_pieces class c : boring_class class -> forall sel,
  Forall closed (opt_list sel) -> closed_rbc c ->
  pieces_ok closed (fun k v => closed k /\ ~ In (ch ":") k /\ closed v) class sel c.
Proof.
  intros Hb. induction c as [a|cond content IH|cond content IH| |c l IHc IHl] using rbc_ind2 with
    (Q := fun l => forall sel, Forall closed (opt_list sel) -> Forall closed_rbc l ->
            Forall (pieces_ok closed (fun k v => closed k /\ ~ In (ch ":") k /\ closed v) class sel) l).
  - intros sel Hs H. exact H.
  - intros sel Hs [H1 H2]. apply all_Forall in H2. split; [exact H1|]. apply all_Forall. now apply IH.
  - intros sel Hs [H1 H2]. apply all_Forall in H2.
    assert (closed (block_sel class sel cond)) by now apply closed_block_sel.
    split; [easy|]. apply all_Forall. apply IH; [|easy]. constructor; [easy|constructor].
  - constructor.
  - intros sel Hs H. inversion_clear H. constructor; auto.
Qed.

Lemma closed_sheet_pieces class s : boring_class class -> closed_sheet s ->
  sheet_pieces_ok closed (fun k v => closed k /\ ~ In (ch ":") k /\ closed v) class s.
Proof.
  intros Hb H. unfold sheet_pieces_ok. eapply Forall_impl; [|exact H]. intros c Hc.
  apply closed_pieces; auto. constructor.
Qed.

(** C01 *)
Lemma read_to_style_str class s :
  boring_class class -> closed_sheet s ->
  exists items, read_css (to_style_str class s) = Some items
                /\ decls items = map trim_item (sheet_decls class s)
                /\ (forall p, In p (flat_map (fun c => top_keyframes [] (rbc_of_scope c)) s) ->
                              In (IOpen (map trim p)) items).
Proof.
  intros Hb Hc.
  destruct (to_style_str_emits _ _ class s (closed_sheet_pieces class s Hb Hc))
    as (items & (ls & H1 & H2 & H3 & _) & H4 & H5).
  exists (map trim_item items). split; [|split].
  - unfold read_css. rewrite H1. now apply (read_layout ls _ [] []).
  - now rewrite decls_trim, H4.
  - intros p Hp. exact (in_map trim_item _ _ (H5 p Hp)).
Qed.

(** ** Balance *)

Lemma brace_depth_app d a b d' :
  brace_depth d a = Some d' -> brace_depth d (a ++ b) = brace_depth d' b.
Proof.
  revert d; induction a as [|c a IH]; intros d H; cbn [brace_depth app] in *.
  - now injection H as ->.
  - destruct (char_eqb c (ch "{")); [auto|]. destruct (char_eqb c (ch "}")); [|auto].
    destruct d; [easy|auto].
Qed.

Lemma brace_depth_free d s : brace_free s -> brace_depth d s = Some d.
Proof.
  intros [H1 H2]. induction s as [|c s IH]; [easy|]. cbn [brace_depth].
  destruct (char_eqb c (ch "{")) eqn:E1.
  { apply char_eqb_eq in E1. subst. exfalso. apply H1. now left. }
  destruct (char_eqb c (ch "}")) eqn:E2.
  { apply char_eqb_eq in E2. subst. exfalso. apply H2. now left. }
  apply IH; intros X; [apply H1|apply H2]; now right.
Qed.

Lemma brace_free_spaces n : brace_free (spaces n).
Proof. split; intros H; unfold spaces in H; apply repeat_spec in H; discriminate. Qed.

Lemma brace_depth_layout ls : forall depth st st' items,
  Forall (line_ok brace_free (fun k v => brace_free k /\ brace_free v)) ls ->
  run st ls = Some (st', items) ->
  brace_depth (List.length st) (layout depth ls) = Some (List.length st').
Proof.
  induction ls as [|l ls IH]; intros depth st st' items HF Hr.
  - cbn in *. now injection Hr as -> <-.
  - inversion_clear HF as [|? ? H1 H2].
    assert (Hs := brace_free_spaces (4 * depth)). assert (Hs' := brace_free_spaces (4 * (depth - 1))).
    destruct l as [c| |k v]; cbn [layout run] in *.
    + destruct (run (st ++ [c]) ls) as [[st1 i1]|] eqn:E; [|easy]. injection Hr as -> <-.
      rewrite (brace_depth_app _ (spaces (4 * depth)) _ _ (brace_depth_free _ _ Hs)).
      rewrite (brace_depth_app _ c _ _ (brace_depth_free _ _ H1)).
      rewrite (brace_depth_app (List.length st) (lit " {") _ (S (List.length st)) eq_refl).
      rewrite (brace_depth_app _ nl _ (S (List.length st)) eq_refl).
      rewrite <- (IH (S depth) _ _ _ H2 E). rewrite app_length. cbn [List.length]. now rewrite Nat.add_1_r.
    + destruct st as [|x st]; [easy|].
      rewrite (brace_depth_app _ (spaces (4 * (depth - 1))) _ _ (brace_depth_free _ _ Hs')).
      rewrite (brace_depth_app (List.length (x :: st)) (lit "}") _ (List.length st) eq_refl).
      rewrite (brace_depth_app _ nl _ (List.length st) eq_refl).
      rewrite <- (IH (depth - 1) _ _ _ H2 Hr). rewrite length_removelast. cbn [List.length].
      now rewrite Nat.sub_succ, Nat.sub_0_r.
    + destruct (run st ls) as [[st1 i1]|] eqn:E; [|easy]. injection Hr as -> <-.
      destruct H1 as [Hk Hv].
      rewrite (brace_depth_app _ (spaces (4 * depth)) _ _ (brace_depth_free _ _ Hs)).
      rewrite (brace_depth_app _ k _ _ (brace_depth_free _ _ Hk)).
      rewrite (brace_depth_app _ (lit ": ") _ (List.length st) eq_refl).
      rewrite (brace_depth_app _ v _ _ (brace_depth_free _ _ Hv)).
      rewrite (brace_depth_app _ (lit ";") _ (List.length st) eq_refl).
      rewrite (brace_depth_app _ nl _ (List.length st) eq_refl). eauto.
Qed.

Lemma brace_free_app a b : brace_free a -> brace_free b -> brace_free (a ++ b).
Proof.
  intros [A1 A2] [B1 B2]; split; intros H; apply in_app_or in H as [H|H]; auto.
Qed.

Lemma brace_free_concat l : Forall brace_free l -> brace_free (List.concat l).
Proof. induction 1; cbn; [split; auto|]. now apply brace_free_app. Qed.

Lemma brace_free_replace_char c r s : brace_free r -> brace_free s -> brace_free (replace_char c r s).
Proof.
  intros Hr [H1 H2]. induction s as [|x s IH]; cbn; [split; auto|].
  apply brace_free_app.
  - destruct (char_eqb x c); [easy|]. split; intros [->|[]]; [apply H1|apply H2]; now left.
  - apply IH; intros X; [apply H1|apply H2]; now right.
Qed.

Lemma brace_free_replace_str p r s k : brace_free r -> brace_free s -> brace_free (replace_aux p r s k).
Proof.
  intros Hr. revert k; induction s as [|x s IH]; intros k Hs; cbn; [easy|].
  assert (Hs' : brace_free s) by (split; intros X; [apply (proj1 Hs)|apply (proj2 Hs)]; now right).
  destruct k; [|now apply IH]. destruct (starts_with p (x :: s)).
  - apply brace_free_app; auto.
  - apply (brace_free_app [x]); auto.
    split; intros [->|[]]; [apply (proj1 Hs)|apply (proj2 Hs)]; now left.
Qed.

Lemma brace_free_lit s : existsb (fun c => char_eqb c (ch "{") || char_eqb c (ch "}")) s = false -> brace_free s.
Proof.
  intros H. split; intros X.
  - assert (existsb (fun c => char_eqb c (ch "{") || char_eqb c (ch "}")) s = true); [|congruence].
    apply existsb_exists. now exists (ch "{").
  - assert (existsb (fun c => char_eqb c (ch "{") || char_eqb c (ch "}")) s = true); [|congruence].
    apply existsb_exists. now exists (ch "}").
Qed.

Lemma brace_free_scoped class s : brace_free_class class -> brace_free s -> brace_free (scoped class s).
Proof.
  intros Hc Hs. unfold scoped. destruct class as [c|].
  - assert (Hd : brace_free (lit "." ++ c)) by (apply brace_free_app; [now apply brace_free_lit|easy]).
    destruct (_ || _).
    + apply brace_free_replace_str; [easy|]. now apply brace_free_replace_char.
    + destruct (starts_with _ _); rewrite app_assoc; apply brace_free_app; auto.
      apply brace_free_app; [now apply brace_free_lit|easy].
  - apply brace_free_replace_char; [now apply brace_free_lit|easy].
Qed.

Lemma brace_free_join sep l : brace_free sep -> Forall brace_free l -> brace_free (join sep l).
Proof.
  intros Hs. induction l as [|x [|y l] IH]; intros H; inversion_clear H as [|? ? H1 H2].
  - now apply brace_free_lit.
  - exact H1.
  - cbn [join]. apply brace_free_app; [exact H1|]. apply brace_free_app; [easy|]. now apply IH.
Qed.

Lemma brace_free_pieces class c : brace_free_class class -> forall sel,
  Forall brace_free (opt_list sel) -> brace_free_rbc c ->
  pieces_ok brace_free (fun k v => brace_free k /\ brace_free v) class sel c.
Proof.
  intros Hb. induction c as [a|cond content IH|cond content IH| |c l IHc IHl] using rbc_ind2 with
    (Q := fun l => forall sel, Forall brace_free (opt_list sel) -> Forall brace_free_rbc l ->
            Forall (pieces_ok brace_free (fun k v => brace_free k /\ brace_free v) class sel) l).
  - intros sel Hs [H1 H2]. split; [easy|]. now apply brace_free_concat.
  - intros sel Hs [H1 H2]. apply all_Forall in H2. split; [now apply brace_free_concat|].
    apply all_Forall. now apply IH.
  - intros sel Hs [H1 H2]. apply all_Forall in H2.
    assert (brace_free (block_sel class sel cond)).
    { unfold block_sel. destruct cond as [|s cond].
      - destruct sel as [s|]; [now inversion_clear Hs|]. unfold self_selector.
        destruct class as [cl|]; [|now apply brace_free_lit].
        apply brace_free_app; [now apply brace_free_lit|easy].
      - apply brace_free_join; [now apply brace_free_lit|]. apply Forall_map.
        eapply Forall_impl; [|exact H1]. intros. apply brace_free_scoped; [easy|].
        now apply brace_free_concat. }
    split; [easy|]. apply all_Forall. apply IH; [|easy]. constructor; [easy|constructor].
  - constructor.
  - intros sel Hs H. inversion_clear H. constructor; auto.
Qed.

(** C02 *)
Lemma balanced_to_style_str class s :
  brace_free_class class -> brace_free_sheet s -> balanced (to_style_str class s).
Proof.
  intros Hb Hs.
  assert (HO : sheet_pieces_ok brace_free (fun k v => brace_free k /\ brace_free v) class s).
  { eapply Forall_impl; [|exact Hs]. intros. apply brace_free_pieces; auto. constructor. }
  destruct (to_style_str_emits _ _ class s HO) as (items & (ls & H1 & H2 & H3 & _) & _).
  unfold balanced. rewrite H1. exact (brace_depth_layout ls 0 [] [] items H3 H2).
Qed.

(** ** Silence *)

Lemma silent_write class c : forall self ps, silent c = true -> write_rbc class c self ps = (self, ps, []).
Proof.
  assert (WA : forall cs, Forall (fun c => forall self ps, silent c = true -> write_rbc class c self ps = (self, ps, [])) cs ->
     forall self ps, forallb silent cs = true -> write_all (write_rbc class) cs self ps = (self, ps, [])).
  { induction cs as [|c' cs IH]; intros F self ps Hs; cbn [write_all]; [easy|].
    inversion_clear F as [|? ? F1 F2]. cbn in Hs. apply andb_true_iff in Hs as [S1 S2].
    rewrite F1 by easy. rewrite IH by easy. easy. }
  induction c as [a|cond content IH|cond content IH| |c l IHc IHl] using rbc_ind2 with
    (Q := fun l => Forall (fun c => forall self ps, silent c = true -> write_rbc class c self ps = (self, ps, [])) l).
  - easy.
  - intros self ps H. cbn [silent] in H. apply andb_true_iff in H as [H1 H2].
    apply negb_true_iff in H1. cbn [write_rbc]. rewrite H1, (WA content IH _ _ H2). easy.
  - intros self ps H. cbn [silent] in H. cbn [write_rbc]. rewrite (WA content IH _ _ H). easy.
  - constructor.
  - now constructor.
Qed.

Lemma silent_to_style_str class s : silent_sheet s = true -> to_style_str class s = [].
Proof.
  intros H. unfold to_style_str, write_sheet.
  assert (E : forall self ps, write_all (write_rbc class) (map rbc_of_scope s) self ps = (self, ps, [])).
  { induction s as [|c s IH]; intros self ps; [easy|]. cbn in H. apply andb_true_iff in H as [H1 H2].
    cbn [map write_all]. rewrite silent_write by easy. now rewrite IH. }
  now rewrite E.
Qed.

(** Conversely a sheet with a declaration is not rendered to the empty text. *)
Lemma not_silent_nonempty class s : sheet_decls class s <> [] -> to_style_str class s <> [].
Proof.
  intros H E.
  destruct (to_style_str_emits (fun _ => True) (fun _ _ => True) class s) as (items & (ls & H1 & H2 & _) & H3 & _).
  { clear. unfold sheet_pieces_ok. apply Forall_forall. intros c _. generalize (@None str) as sel. generalize (rbc_of_scope c) as d.
    intros d. induction d as [a|cond content IH|cond content IH| |c' l IHc IHl] using rbc_ind2 with
      (Q := fun l => forall sel, Forall (pieces_ok (fun _ => True) (fun _ _ => True) class sel) l); intros sel.
    - exact I.
    - split; [exact I|]. now apply all_Forall.
    - split; [exact I|]. now apply all_Forall.
    - constructor.
    - constructor; auto. }
  rewrite E in H1. apply H. rewrite <- H3. destruct ls as [|l ls].
  - cbn in H2. now injection H2 as <-.
  - exfalso. destruct l; cbn [layout] in H1; symmetry in H1; apply app_eq_nil in H1 as [_ H1];
      repeat (apply app_eq_nil in H1 as [? H1]); easy.
Qed.

Lemma always_pieces class s : sheet_pieces_ok (fun _ => True) (fun _ _ => True) class s.
Proof.
  unfold sheet_pieces_ok. apply Forall_forall. intros c _. generalize (@None str) as sel. generalize (rbc_of_scope c) as d.
  intros d. induction d as [a|cond content IH|cond content IH| |c' l IHc IHl] using rbc_ind2 with
    (Q := fun l => forall sel, Forall (pieces_ok (fun _ => True) (fun _ _ => True) class sel) l); intros sel.
  - exact I.
  - split; [exact I|]. now apply all_Forall.
  - split; [exact I|]. now apply all_Forall.
  - constructor.
  - constructor; auto.
Qed.

(** C03 *)
Lemma to_style_str_layout class s :
  exists ls items, to_style_str class s = layout 0 ls /\ run [] ls = Some ([], items)
                   /\ decls items = sheet_decls class s
                   /\ (forall p, In p (flat_map (fun c => top_keyframes [] (rbc_of_scope c)) s) -> In (IOpen p) items).
Proof.
  destruct (to_style_str_emits _ _ class s (always_pieces class s)) as (items & (ls & H1 & H2 & _) & H3 & H4).
  now exists ls, items.
Qed.
