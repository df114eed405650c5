(** * PropsMacro: macros called with a string literal (C35-C41). *)

From Coq Require Import String Ascii List NArith Bool Arith Lia.
From Verif Require Import Str StrFacts Ast Render CssParser ParserTotal Owned Tok Fstring Output LitMacro
  SpecMacro SpecOutput FstringFacts OutputFacts MacroFacts MacroPlain.
Import ListNotations.
Local Open Scope list_scope.
Local Opaque parse.

(** ** What a successful expansion went through *)

Lemma all_used_iff a u : all_used a u = true <-> forall n, In n (map fst a) -> In n u.
Proof.
  unfold all_used. rewrite forallb_forall. split.
  - intros H n Hn. apply in_map_iff in Hn. destruct Hn as ([m c] & <- & Hin). specialize (H _ Hin).
    apply existsb_exists in H. destruct H as (x & Hx & E). apply str_eqb_eq in E. now subst x.
  - intros H [m c] Hin. apply existsb_exists. exists m. split; [|apply str_eqb_refl].
    apply H. now apply (in_map fst) in Hin.
Qed.

Section Macro.
  Variable lit_value : rtok -> option str.

  Lemma expands_inv input g : lit_macro lit_value input = Expands g ->
    exists first rest css sh l out u,
      input = first :: rest /\ lit_value first = Some css /\ parse css = Parsed sh
      /\ after_literal rest l /\ NoDup (map fst l)
      /\ sheet_to_output (rev l) sh [] = Some (out, u) /\ all_used (rev l) u = true /\ g = expand out.
  Proof.
    intros E. unfold lit_macro in E. destruct input as [|first rest]; [discriminate|].
    destruct (lit_value first) as [css|] eqn:El; [|discriminate].
    destruct (parse css) as [sh| |] eqn:Ep; try discriminate.
    destruct (parse_args_spec rest) as (x & Ea & Hx). rewrite Ea in E.
    destruct x as [a|]; [|discriminate]. destruct Hx as (l & H1 & H2 & ->).
    destruct (sheet_to_output (rev l) sh []) as [[out u]|] eqn:Eo; [|discriminate].
    destruct (all_used (rev l) u) eqn:Eu; [|discriminate]. injection E as <-.
    exists first, rest, css, sh, l, out, u. now repeat split.
  Qed.

  (** Exactly one of these three. *)
  Lemma expands_or_error input : lit_macro lit_value input <> MacroFuel.
  Proof.
    unfold lit_macro. destruct input as [|first rest]; [discriminate|].
    destruct (lit_value first) as [css|]; [|discriminate].
    pose proof (parse_total css) as Hp. destruct (parse css) as [sh| |]; try discriminate; [|now elim Hp].
    destruct (parse_args_spec rest) as (x & -> & _). destruct x as [a|]; [|discriminate].
    destruct (sheet_to_output a sh []) as [[out u]|]; [|discriminate]. now destruct (all_used a u).
  Qed.
End Macro.

(** The argument list after a literal is determined by the tokens. *)
Lemma arg_list_fun r l l' : arg_list r l -> arg_list r l' -> l = l'.
Proof.
  intros H. revert l'. induction H as [|n j c Hc|n j c j' rest l Hc _ IH]; intros m M.
  - now inversion M.
  - remember (RIdent n :: RPunct (ch "=") j :: c) as L eqn:EL.
    destruct M as [|n1 j1 c1 Hc1|n1 j1 c1 j2 rest1 l1 Hc1 M]; [discriminate|congruence|].
    exfalso. assert (Q : c = c1 ++ RPunct (ch ",") j2 :: rest1) by congruence.
    apply (Hc j2). rewrite Q. apply in_or_app. right. now left.
  - remember (RIdent n :: RPunct (ch "=") j :: c ++ RPunct (ch ",") j' :: rest) as L eqn:EL.
    destruct M as [|n1 j1 c1 Hc1|n1 j1 c1 j2 rest1 l1 Hc1 M]; [discriminate| |].
    + exfalso. assert (Q : c1 = c ++ RPunct (ch ",") j' :: rest) by congruence.
      apply (Hc1 j'). rewrite Q. apply in_or_app. right. now left.
    + assert (Q : c1 ++ RPunct (ch ",") j2 :: rest1 = c ++ RPunct (ch ",") j' :: rest) by congruence.
      assert (Hn : n1 = n) by congruence. apply (f_equal arg_tokens) in Q.
      rewrite !arg_tokens_more in Q by assumption. injection Q as -> ->. f_equal; [congruence|auto].
Qed.
Lemma after_literal_fun r l l' : after_literal r l -> after_literal r l' -> l = l'.
Proof.
  intros H M. destruct H as [|j rest l H]; inversion M; subst; auto. eapply arg_list_fun; eauto.
Qed.

(** ** C35: the arguments replace the placeholders

    The expansion of [css!("...", a = .., b = ..)], evaluated any number of times: the [k]-th
    sheet prints like the parsed literal in which every [${name}] is replaced by the text of
    argument [name] at that time and every [$${] by [${].  Such a sheet exists and is unique. *)
Theorem literal_macro_substitutes : forall lit_value first rest css sh args g,
  lit_value first = Some css -> parse css = Parsed sh -> after_literal rest args ->
  lit_macro lit_value (first :: rest) = Expands g ->
  forall envs, exists vs, evaluate_all None envs g = Some vs
    /\ Forall2 (fun rho v =>
         exists sh', sheet_fills (argument args rho) sh sh'
           /\ (forall sh'', sheet_fills (argument args rho) sh sh'' -> sh'' = sh')
           /\ forall class, to_style_str class (erase_sheet v) = to_style_str class sh') envs vs.
Proof.
  intros lv first rest css sh args g Hl Hp Ha E envs.
  apply expands_inv in E.
  destruct E as (first' & rest' & css' & sh' & l & out & u & [= <- <-] & Hl' & Hp' & Ha' & Hd & Eo & _ & ->).
  rewrite Hl in Hl'. injection Hl' as <-. rewrite Hp in Hp'. injection Hp' as <-.
  rewrite (after_literal_fun _ _ _ Ha' Ha) in *. clear l Ha'.
  pose proof (sheet_outputs (rev args) sh []) as K. rewrite Eo in K. destruct K as ((Hk & K) & _).
  destruct (evaluate_all_ok out Hk envs) as (vs & V1 & V2). exists vs. split; auto.
  eapply Forall2_mono; [|exact V2]. cbn beta. intros rho v Hv.
  destruct (K rho) as (sh' & F & J). exists sh'.
  assert (F' : sheet_fills (argument args rho) sh sh').
  { eapply sheet_fills_ext; [|exact F]. intros n. now apply argument_value. }
  split; auto. split.
  - intros sh'' F''. eapply sheet_fills_fun; eauto.
  - intros class. apply render_same_joined. now rewrite Hv, sheet_coalesced_joined, J.
Qed.
Print Assumptions literal_macro_substitutes.

(** ** C36: which calls compile

    A call compiles exactly if it starts with a string literal that parses, an argument list
    follows, no name occurs twice in it, the names are those of the placeholders, and every
    text of the sheet can be read in the [${name}] / [$${] notation. *)
Theorem literal_macro_accepts_iff : forall lit_value input,
  (exists g, lit_macro lit_value input = Expands g)
  <-> exists first rest css sh args,
        input = first :: rest /\ lit_value first = Some css /\ parse css = Parsed sh
        /\ after_literal rest args
        /\ NoDup (map fst args)
        /\ (forall n, In n (map fst args) <-> exists s, In s (sheet_strings sh) /\ has_hole n s)
        /\ (forall s, In s (sheet_strings sh) -> exists ps, Forall piece_ok ps /\ s = write ps).
Proof.
  intros lv input. split.
  - intros [g E]. apply expands_inv in E.
    destruct E as (first & rest & css & sh & l & out & u & -> & Hl & Hp & Ha & Hd & Eo & Hu & ->).
    exists first, rest, css, sh, l. repeat split; auto.
    + pose proof (sheet_outputs (rev l) sh []) as K. rewrite Eo in K. destruct K as (_ & _ & _ & K).
      intros Hn. rewrite all_used_iff in Hu.
      assert (Q : In n u). { apply Hu. rewrite map_rev. now apply -> in_rev. }
      apply K in Q. now destruct Q as [[]|Q].
    + pose proof (sheet_outputs (rev l) sh []) as K. rewrite Eo in K. destruct K as (_ & _ & K & _).
      intros Hn. specialize (K n Hn). destruct (in_dec (list_eq_dec N.eq_dec) n (map fst l)) as [Q|Q]; auto.
      exfalso. apply K. apply arg_get_none. intros Q'. apply Q. rewrite map_rev in Q'. now apply in_rev.
    + pose proof (sheet_outputs (rev l) sh []) as K. rewrite Eo in K. destruct K as (_ & K & _).
      intros s Hs. rewrite Forall_forall in K. exact (K s Hs).
  - intros (first & rest & css & sh & l & -> & Hl & Hp & Ha & Hd & Hn & Hs).
    unfold lit_macro. rewrite Hl, Hp.
    destruct (parse_args_spec rest) as (x & -> & Hx). destruct x as [a|].
    2:{ exfalso. apply Hx. now exists l. }
    destruct Hx as (l' & Ha' & _ & ->). rewrite (after_literal_fun _ _ _ Ha' Ha). clear l' Ha'.
    pose proof (sheet_outputs (rev l) sh []) as K.
    destruct (sheet_to_output (rev l) sh []) as [[out u]|].
    + destruct K as (_ & _ & _ & K).
      assert (Hu : all_used (rev l) u = true).
      { apply all_used_iff. intros n Q. rewrite map_rev in Q. apply in_rev in Q. apply K. right.
        now apply Hn. }
      rewrite Hu. eauto.
    + exfalso. apply K. split; [apply Forall_forall; auto|].
      intros n Q. apply Hn in Q. intros E. apply arg_get_none in E. apply E. rewrite map_rev.
      now apply -> in_rev.
Qed.
Print Assumptions literal_macro_accepts_iff.

(** Otherwise it is a compile error. *)
Theorem literal_macro_total : forall lit_value input,
  (exists g, lit_macro lit_value input = Expands g) \/ lit_macro lit_value input = CompileError.
Proof.
  intros lv input. pose proof (expands_or_error lv input) as H.
  destruct (lit_macro lv input) as [g| |]; eauto. now elim H.
Qed.
Print Assumptions literal_macro_total.

(** ** C37: quoted braces and dollar signs *)

(** The style [content: "{";] is accepted at run time, and rejected by the macro. *)
Theorem plain_literal_accepted_refuted :
  exists css sh, parse css = Parsed sh
    /\ (forall n s, In s (sheet_strings sh) -> ~ has_hole n s)
    /\ forall lit_value first, lit_value first = Some css ->
         lit_macro lit_value [first] = CompileError.
Proof.
  exists (lit "content: ""{"";"). eexists.
  split; [vm_compute; reflexivity|]. split.
  - intros n s [<-|[]] H. revert H. apply no_dollar_no_hole.
    intros Q. repeat (destruct Q as [Q|Q]; [discriminate|]). destruct Q.
  - intros lv first Hl. unfold lit_macro. rewrite Hl. vm_compute. reflexivity.
Qed.
Print Assumptions plain_literal_accepted_refuted.

(** So are a quoted dollar sign and a brace in a comment among the selectors of a frame. *)
Theorem plain_literal_accepted_refuted_more :
  Forall (fun css => (exists sh, parse css = Parsed sh)
                     /\ forall lit_value first, lit_value first = Some css ->
                        lit_macro lit_value [first] = CompileError)
    [lit "content: ""$"";"; lit "content: ""a ${ b"";";
     lit "@keyframes a { from, /* { */ to { color: red; } }"].
Proof.
  repeat constructor; try (eexists; vm_compute; reflexivity);
    intros lv first Hl; unfold lit_macro; rewrite Hl; vm_compute; reflexivity.
Qed.
Print Assumptions plain_literal_accepted_refuted_more.

(** Partial: literals without dollar signs, double quotes and comments.  Missing: see above. *)
Theorem plain_literal_accepted_partial : forall lit_value first css sh,
  lit_value first = Some css -> parse css = Parsed sh ->
  ~ In (ch "$") css -> ~ In 34%N css -> ~ part_of (lit "/*") css ->
  exists g, lit_macro lit_value [first] = Expands g.
Proof.
  intros lv first css sh Hl Hp H1 H2 H3. apply literal_macro_accepts_iff.
  pose proof (parsed_fragments _ _ Hp) as K. rewrite Forall_forall in K.
  exists first, [], css, sh, []. repeat split; auto.
  - constructor.
  - constructor.
  - intros [].
  - intros (s & Hs & Hn). destruct (K s Hs) as [Q _]. exfalso. revert Hn. apply no_dollar_no_hole.
    intros Q'. apply H1. eapply part_in; eauto.
  - intros s Hs. destruct (K s Hs) as [Q Q']. apply text_scannable.
    + intros Q''. apply H1. eapply part_in; eauto.
    + apply Q'. now repeat split.
Qed.
Print Assumptions plain_literal_accepted_partial.

(** More generally, each text of the sheet may have braces if it has no dollar sign and every
    brace belongs to a placeholder or an escape; in particular texts without either. *)
Theorem plain_fragments_accepted_partial : forall lit_value first css sh,
  lit_value first = Some css -> parse css = Parsed sh ->
  (forall s, In s (sheet_strings sh) -> ~ In (ch "$") s /\ ~ In (ch "{") s) ->
  exists g, lit_macro lit_value [first] = Expands g.
Proof.
  intros lv first css sh Hl Hp H. apply literal_macro_accepts_iff.
  exists first, [], css, sh, []. repeat split; auto.
  - constructor.
  - constructor.
  - intros [].
  - intros (s & Hs & Hn). exfalso. revert Hn. apply no_dollar_no_hole. now apply H.
  - intros s Hs. apply text_scannable; now apply H.
Qed.
Print Assumptions plain_fragments_accepted_partial.

(** ** C38: the notation *)

(** Whatever is written is read back... *)
Theorem placeholder_notation_round_trip : forall ps,
  Forall piece_ok ps -> texts_apart ps ->
  scan (write ps)
  = Scanned (map (fun p => match p with
                           | Text s => FLiteral s
                           | DollarBrace => FLiteral (lit "${")
                           | Hole _ n _ => FInterpolation n
                           end) ps).
Proof. exact scan_write. Qed.
Print Assumptions placeholder_notation_round_trip.

(** ... and whatever is read was written like that. *)
Theorem placeholder_notation_only : forall s l, scan s = Scanned l ->
  exists ps, Forall piece_ok ps /\ texts_apart ps /\ s = write ps
    /\ l = map (fun p => match p with
                         | Text s => FLiteral s
                         | DollarBrace => FLiteral (lit "${")
                         | Hole _ n _ => FInterpolation n
                         end) ps.
Proof. exact scan_written. Qed.
Print Assumptions placeholder_notation_only.

(** The scanner always answers. *)
Theorem placeholder_scan_terminates : forall s, (exists l, scan s = Scanned l) \/ scan s = ScanRejected.
Proof. intros s. pose proof (scan_no_fuel s). destruct (scan s); eauto. now elim H. Qed.
Print Assumptions placeholder_scan_terminates.

Example placeholder_notation_ex :
  let ps := [Text (lit "a "); Hole (lit " ") (lit "b_1") []; DollarBrace; Text (lit "c}")] in
  Forall piece_ok ps /\ texts_apart ps /\ write ps = lit "a ${ b_1}$${c}".
Proof.
  cbv zeta. split; [|split; [cbn; auto|reflexivity]].
  assert (T : forall s, forallb (fun c => negb (N.eqb c (ch "$")) && negb (N.eqb c (ch "{"))) s = true ->
                Forall (fun c => c <> ch "$" /\ c <> ch "{") s).
  { intros s H. rewrite forallb_forall in H. apply Forall_forall. intros c Hc. specialize (H c Hc).
    apply andb_true_iff in H. rewrite !negb_true_iff, !N.eqb_neq in H. exact H. }
  assert (N1 : placeholder_name (lit "b_1")).
  { exists (ch "b"), (lit "_1"). split; [reflexivity|]. split; [reflexivity|].
    constructor; [now right|]. constructor; [now left|constructor]. }
  constructor; [split; [discriminate|now apply T]|]. constructor; [|constructor; [exact I|]].
  - split; [|split; auto; constructor]. constructor; [now left|constructor].
  - constructor; [|constructor]. split; [discriminate|now apply T].
Qed.

(** ** C39: nothing interpolated is kept

    For any output tree, of either macro: the generated expression is accepted wherever it
    stands, and each evaluation is the tree under the current values.  If something is
    interpolated, the sheet is not in a [static]. *)
Theorem interpolated_values_current : forall out, keys_ok out ->
  (interpolated out = true -> exists c, expand out = GNow c)
  /\ forall envs, exists vs, evaluate_all None envs (expand out) = Some vs
       /\ Forall2 (fun rho v => sheet_joined (erase_sheet v) = sheet_joined (sheet_meaning rho out)
                                /\ forall class, to_style_str class (erase_sheet v)
                                                 = to_style_str class (sheet_meaning rho out)) envs vs.
Proof.
  intros out Hk. split.
  - intros Hi. destruct (expand_cases out Hk) as [(c & E & _)|(c & v & _ & E & _)]; [eauto|congruence].
  - intros envs. destruct (evaluate_all_ok out Hk envs) as (vs & V1 & V2). exists vs. split; auto.
    eapply Forall2_mono; [|exact V2]. cbn beta. intros rho v Hv.
    assert (J : sheet_joined (erase_sheet v) = sheet_joined (sheet_meaning rho out))
      by now rewrite Hv, sheet_coalesced_joined.
    split; auto. intros class. now apply render_same_joined.
Qed.
Print Assumptions interpolated_values_current.

(** A call with an argument is evaluated anew each time: the result does not depend on
    earlier evaluations. *)
Theorem literal_macro_current : forall lit_value input g,
  lit_macro lit_value input = Expands g ->
  forall before rho, exists vs v, evaluate_all None before g = Some vs
    /\ evaluate_all None [rho] g = Some [v]
    /\ exists v', evaluate_all None (before ++ [rho]) g = Some (vs ++ [v'])
         /\ erase_sheet v' = erase_sheet v.
Proof.
  intros lv input g E before rho. apply expands_inv in E.
  destruct E as (first & rest & css & sh & l & out & u & -> & Hl & Hp & Ha & Hd & Eo & Hu & ->).
  pose proof (sheet_outputs (rev l) sh []) as K. rewrite Eo in K. destruct K as ((Hk & _) & _).
  destruct (evaluate_all_ok out Hk [rho]) as (w & W1 & W2).
  inversion W2 as [|? v ? ? Hv W3]; subst. inversion W3; subst.
  assert (K : forall cell, (cell = None \/ exists v c, cell = Some v /\ expand out = GLazy c
                 /\ forall rho, erase_sheet v = sheet_coalesced rho out) ->
            exists vs v', evaluate_all cell before (expand out) = Some vs
              /\ evaluate_all cell (before ++ [rho]) (expand out) = Some (vs ++ [v'])
              /\ erase_sheet v' = sheet_coalesced rho out).
  { induction before as [|r before IH]; intros cell Hc.
    - exists []. cbn [app evaluate_all].
      destruct (expand_cases out Hk) as [(c & E & Hx)|(c & x & E & _ & Ex & Hx)]; rewrite E.
      + cbn [evaluate]. destruct (Hx rho) as (y & -> & Hy). cbn. exists y. now repeat split.
      + cbn [evaluate]. destruct Hc as [-> | (y & c' & -> & _ & Hy)].
        * rewrite Ex. cbn. exists x. now repeat split.
        * cbn. exists y. now repeat split.
    - cbn [app evaluate_all].
      destruct (expand_cases out Hk) as [(c & E & Hx)|(c & x & E & _ & Ex & Hx)]; rewrite E in *.
      + cbn [evaluate]. destruct (Hx r) as (y & -> & Hy). cbn [option_map].
        destruct (IH cell Hc) as (vs & v' & I1 & I2 & I3). rewrite I1, I2. cbn. eexists _, v'. now repeat split.
      + cbn [evaluate]. destruct Hc as [-> | (y & c' & -> & Ec & Hy)].
        * rewrite Ex. cbn [option_map].
          destruct (IH (Some x)) as (vs & v' & I1 & I2 & I3); [right; eauto 6|].
          rewrite I1, I2. cbn. eexists _, v'. now repeat split.
        * destruct (IH (Some y)) as (vs & v' & I1 & I2 & I3); [right; eauto 6|].
          rewrite I1, I2. cbn. eexists _, v'. now repeat split. }
  destruct (K None (or_introl eq_refl)) as (vs & v' & K1 & K2 & K3).
  exists vs, v. split; auto. split; auto. exists v'. split; auto. congruence.
Qed.
Print Assumptions literal_macro_current.

(** ** C40 and C41: the macro and the run-time parser *)

(** The sheet of a macro call without arguments on a literal without dollar signs is the parsed
    one, with each of its texts in a single fragment. *)
Lemma plain_macro_sheet lit_value first css sh g :
  lit_value first = Some css -> parse css = Parsed sh -> ~ In (ch "$") css ->
  lit_macro lit_value [first] = Expands g ->
  forall envs, exists vs, evaluate_all None envs g = Some vs
    /\ Forall2 (fun _ v => erase_sheet v = sheet_compact sh) envs vs.
Proof.
  intros Hl Hp H1 E envs. apply expands_inv in E.
  destruct E as (first' & rest & css' & sh' & l & out & u & [= <- <-] & Hl' & Hp' & Ha & Hd & Eo & _ & ->).
  rewrite Hl in Hl'. injection Hl' as <-. rewrite Hp in Hp'. injection Hp' as <-.
  pose proof (sheet_outputs (rev l) sh []) as K. rewrite Eo in K. destruct K as ((Hk & _) & _).
  destruct (evaluate_all_ok out Hk envs) as (vs & V1 & V2). exists vs. split; auto.
  eapply Forall2_mono; [|exact V2]. cbn beta. intros rho v ->. eapply sheet_compacted; [|exact Eo].
  pose proof (parsed_fragments _ _ Hp) as K. eapply Forall_impl; [|exact K].
  intros s [Q _] Q'. apply H1. eapply part_in; eauto.
Qed.

(** C40: same CSS. *)
Theorem macro_and_parser_render_alike : forall lit_value first css sh g,
  lit_value first = Some css -> parse css = Parsed sh -> ~ In (ch "$") css ->
  lit_macro lit_value [first] = Expands g ->
  forall envs, exists vs, evaluate_all None envs g = Some vs
    /\ Forall2 (fun _ v => forall class,
         to_style_str class (erase_sheet v) = to_style_str class sh) envs vs.
Proof.
  intros lv first css sh g Hl Hp H1 E envs.
  destruct (plain_macro_sheet lv first css sh g Hl Hp H1 E envs) as (vs & V1 & V2).
  exists vs. split; auto. eapply Forall2_mono; [|exact V2]. cbn beta. intros _ v Hv class.
  apply render_same_joined. now rewrite Hv, joined_compact.
Qed.
Print Assumptions macro_and_parser_render_alike.

(** C41 fails: a condition is two fragments when parsed at run time, one in the macro. *)
Theorem macro_and_parser_equal_refuted :
  exists css sh, parse css = Parsed sh /\ ~ In (ch "$") css
    /\ forall lit_value first, lit_value first = Some css ->
         exists g v, lit_macro lit_value [first] = Expands g
           /\ (forall rho, evaluate_all None [rho] g = Some [v])
           /\ erase_sheet v <> sh.
Proof.
  exists (lit "@media print { color: red; }"). eexists.
  split; [vm_compute; reflexivity|]. split.
  - intros Q. repeat (destruct Q as [Q|Q]; [discriminate|]). destruct Q.
  - intros lv first Hl. eexists. eexists. split; [|split].
    + unfold lit_macro. rewrite Hl. vm_compute. reflexivity.
    + intros rho. vm_compute. reflexivity.
    + vm_compute. discriminate.
Qed.
Print Assumptions macro_and_parser_equal_refuted.

(** Partial: the sheets are equal exactly if the parsed sheet has each of its texts in one
    fragment.  Missing: sheets with at-rules. *)
Theorem macro_and_parser_equal_partial : forall lit_value first css sh g,
  lit_value first = Some css -> parse css = Parsed sh -> ~ In (ch "$") css ->
  lit_macro lit_value [first] = Expands g ->
  forall envs, exists vs, evaluate_all None envs g = Some vs
    /\ Forall2 (fun _ v => erase_sheet v = sh <-> sheet_compact sh = sh) envs vs.
Proof.
  intros lv first css sh g Hl Hp H1 E envs.
  destruct (plain_macro_sheet lv first css sh g Hl Hp H1 E envs) as (vs & V1 & V2).
  exists vs. split; auto. eapply Forall2_mono; [|exact V2]. cbn beta. intros _ v ->. reflexivity.
Qed.
Print Assumptions macro_and_parser_equal_partial.

(** Blocks and declarations have their texts in one fragment, unless a text is empty. *)
Theorem compact_blocks : forall sels decls,
  (forall s, In s sels -> s <> []) -> (forall k v, In (k, v) decls -> v <> []) ->
  let sh := [SBlock (map (fun s => [s]) sels) (map (fun d => CAttr (mk_attr (fst d) [snd d])) decls)] in
  sheet_compact sh = sh.
Proof.
  intros sels decls H1 H2 sh. unfold sh, sheet_compact. cbn [map scope_compact]. rewrite !map_map.
  assert (C : forall t : str, t <> [] -> compact [t] = [t]).
  { intros t Ht. unfold compact. cbn [List.concat]. rewrite app_nil_r. now destruct t. }
  do 2 f_equal.
  - apply map_ext_in. intros s Hs. apply C. auto.
  - apply map_ext_in. intros [k v] Hd. cbn. rewrite C by eauto. reflexivity.
Qed.
Print Assumptions compact_blocks.

(** ** The hypotheses hold of a concrete call *)

(** [css!("color: ${c}; a { width: ${ w}px; }", c = red, w = two,)]: the tokens are those
    of the arguments; [lit_value] is any reading of the first one as this text. *)
Section Example_call.
  Let lit_value (t : rtok) : option str :=
    match t with RLit s => Some s | _ => None end.
  Let call : list rtok :=
    [RLit (lit "color: ${c}; a { width: ${ w}px; }"); RPunct (ch ",") false;
     RIdent (lit "c"); RPunct (ch "=") false; RIdent (lit "red"); RPunct (ch ",") false;
     RIdent (lit "w"); RPunct (ch "=") false; RIdent (lit "two"); RPunct (ch ",") false].
  Let rho (c : code) : str :=
    match c with [RIdent s] => if str_eqb s (lit "red") then lit "#f00" else lit "2" | _ => [] end.

  Example literal_macro_ex : exists g v,
    lit_macro lit_value call = Expands g /\ evaluate_all None [rho] g = Some [v]
    /\ to_style_str (Some (lit "s-1")) (erase_sheet v)
       = lit ".s-1 {" ++ [10%N] ++ lit "    color: #f00;" ++ [10%N] ++ lit "}" ++ [10%N]
         ++ lit ".s-1 a {" ++ [10%N] ++ lit "    width: 2px;" ++ [10%N] ++ lit "}" ++ [10%N].
  Proof.
    eexists. eexists. split; [vm_compute; reflexivity|]. split; [vm_compute; reflexivity|].
    vm_compute. reflexivity.
  Qed.

  Example literal_macro_errors_ex :
    (* a missing, an unused and a repeated argument, a missing equals sign *)
    lit_macro lit_value [RLit (lit "color: ${c};")] = CompileError
    /\ lit_macro lit_value [RLit (lit "color: red;"); RPunct (ch ",") false; RIdent (lit "c");
                            RPunct (ch "=") false; RIdent (lit "red")] = CompileError
    /\ lit_macro lit_value [RLit (lit "color: ${c};"); RPunct (ch ",") false; RIdent (lit "c");
                            RPunct (ch "=") false; RIdent (lit "red"); RPunct (ch ",") false;
                            RIdent (lit "c"); RPunct (ch "=") false; RIdent (lit "red")] = CompileError
    /\ lit_macro lit_value [RLit (lit "color: ${c};"); RPunct (ch ",") false; RIdent (lit "c")] = CompileError.
  Proof. repeat split; vm_compute; reflexivity. Qed.

  Example plain_literal_ex : exists g v sh,
    parse (lit "color: red; a { width: 2px; }") = Parsed sh
    /\ lit_macro lit_value [RLit (lit "color: red; a { width: 2px; }")] = Expands g
    /\ evaluate_all None [rho] g = Some [v] /\ erase_sheet v = sh.
  Proof. do 3 eexists. repeat split; vm_compute; reflexivity. Qed.
End Example_call.
