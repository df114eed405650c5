(** * InlineOutput: syntax trees of the inline macros, from trees to sheets. *)

From Coq Require Import String Ascii List NArith Bool Arith Lia.
From Verif Require Import Str StrFacts Ast Tok Output SpecOutput Inline SpecInline InlineFacts InlineParse.
Import ListNotations.
Local Open Scope list_scope.

Scheme clean_ind2 := Minimality for clean Sort Prop
  with cleans_ind2 := Minimality for cleans Sort Prop.
Combined Scheme clean_mutind from clean_ind2, cleans_ind2.

(** ** Spacing *)

Section Spacing.
  Context {I : Type}.
  Variable spacer : I -> I -> option I.

  Definition gap (x : I) (l : list I) : list I :=
    match l with
    | [] => []
    | y :: _ => match spacer x y with Some s => [s] | None => [] end
    end.
  Fixpoint inter (l : list I) : list I :=
    match l with
    | [] => []
    | x :: l' => x :: gap x l' ++ inter l'
    end.

  Lemma spacing_collect_started : forall it item n, 2 * List.length it + 2 <= n ->
    spacing_collect spacer n (maybe_spaced spacer item (hd_error it)) (tl it) = OOk (inter (item :: it)).
  Proof.
    induction it as [|y it IH]; intros item n Hn.
    - destruct n as [|[|n]]; [cbn in Hn; lia..|]. reflexivity.
    - cbn [List.length] in Hn. destruct n as [|n]; [lia|]. cbn [hd_error tl maybe_spaced].
      cbn [inter gap]. destruct (spacer item y) as [s|] eqn:E.
      + cbn [spacing_collect advance advance_started]. destruct n as [|n]; [lia|].
        cbn [spacing_collect advance advance_started]. rewrite (IH y n) by lia. reflexivity.
      + cbn [spacing_collect advance advance_started]. rewrite (IH y n) by lia. reflexivity.
  Qed.
  Lemma advance_not_started : forall x it,
    advance spacer NotStarted (x :: it) = advance_started spacer (maybe_spaced spacer x (hd_error it)) (tl it).
  Proof. reflexivity. Qed.
  Lemma advance_maybe : forall x o it,
    advance spacer (maybe_spaced spacer x o) it = advance_started spacer (maybe_spaced spacer x o) it.
  Proof. intros x [y|] it; cbn; [|reflexivity]. now destruct (spacer x y). Qed.
  Lemma spaced_with_inter : forall l, spaced_with spacer l = OOk (inter l).
  Proof.
    intros [|x l]; [reflexivity|]. unfold spaced_with.
    rewrite <- (spacing_collect_started l x (S (2 * List.length (x :: l)))) by (cbn [List.length]; lia).
    cbn [spacing_collect]. now rewrite advance_not_started, advance_maybe.
  Qed.
End Spacing.

(** ** Fragments *)

Fixpoint frags (c : cval) : list out_frag :=
  match c with
  | CToken t => [FToken t]
  | CExpr e => [FExpr e]
  | CBlk d cs => FDelim d true :: flat_map frags cs ++ [FDelim d false]
  | CFunction i cs => FToken (PIdent i) :: FDelim Paren true :: flat_map frags cs ++ [FDelim Paren false]
  end.

Lemma oall_ok : forall A B (f : A -> ores B) (g : A -> B) l,
  Forall (fun x => f x = OOk (g x)) l -> oall f l = OOk (map g l).
Proof.
  intros A B f g l H. induction H as [|x l Hx _ IH]; [reflexivity|]. cbn. rewrite Hx. cbn.
  change (obind (oall f l) (fun r => OOk (g x :: r)) = OOk (g x :: map g l)). now rewrite IH.
Qed.
Lemma oall_cons : forall A B (f : A -> ores B) x l,
  oall f (x :: l) = obind (f x) (fun y => obind (oall f l) (fun r => OOk (y :: r))).
Proof. reflexivity. Qed.
Lemma oall_inv : forall A B (f : A -> ores B) l r, oall f l = OOk r -> Forall2 (fun x y => f x = OOk y) l r.
Proof.
  intros A B f. induction l as [|x l IH]; intros r H.
  - injection H as <-. constructor.
  - rewrite oall_cons in H. destruct (f x) as [y| |] eqn:E; try discriminate. cbn [obind] in H.
    destruct (oall f l) as [r'| |]; try discriminate. cbn [obind] in H. injection H as <-. constructor; auto.
Qed.
Lemma oall_no_fuel : forall A B (f : A -> ores B) l,
  Forall (fun x => f x <> OFuel) l -> oall f l <> OFuel.
Proof.
  intros A B f l H. induction H as [|x l Hx _ IH]; [discriminate|]. rewrite oall_cons.
  destruct (f x); try easy. cbn [obind]. destruct (oall f l); easy.
Qed.
Lemma oall_no_panic : forall A B (f : A -> ores B) l,
  Forall (fun x => f x <> OPanic) l -> oall f l <> OPanic.
Proof.
  intros A B f l H. induction H as [|x l Hx _ IH]; [discriminate|]. rewrite oall_cons.
  destruct (f x); try easy. cbn [obind]. destruct (oall f l); easy.
Qed.

Lemma to_fragments_ok : forall c, no_braces c -> to_fragments c = OOk (frags c).
Proof.
  induction c as [i args IH|t|d cs IH|e] using cval_ind2; intros H; try reflexivity; inversion H; subst.
  - cbn [to_fragments frags]. rewrite (oall_ok _ _ to_fragments frags).
    + cbn [obind]. now rewrite flat_map_concat_map.
    + rewrite Forall_forall in *. auto.
  - assert (E : oall to_fragments cs = OOk (map frags cs)) by (apply oall_ok; rewrite Forall_forall in *; auto).
    destruct d; [now elim H2|..]; cbn [to_fragments frags]; rewrite E; cbn [obind]; now rewrite flat_map_concat_map.
Qed.
Lemma to_fragments_inv : forall c l, to_fragments c = OOk l -> no_braces c.
Proof.
  induction c as [i args IH|t|d cs IH|e] using cval_ind2; intros l H; try constructor; cbn [to_fragments] in H.
  - destruct (oall to_fragments args) as [r| |] eqn:E; try discriminate. apply oall_inv in E.
    clear H. induction E; inversion IH; subst; constructor; eauto.
  - destruct d; discriminate.
  - destruct d; [discriminate|..];
    (destruct (oall to_fragments cs) as [r| |] eqn:E; try discriminate; apply oall_inv in E;
    clear H; induction E; inversion IH; subst; constructor; eauto).
Qed.
Lemma to_fragments_no_fuel : forall c, to_fragments c <> OFuel.
Proof.
  induction c as [i args IH|t|d cs IH|e] using cval_ind2; try discriminate; apply oall_no_fuel in IH; cbn [to_fragments].
  - destruct (oall to_fragments args); easy.
  - destruct d; [discriminate|..]; destruct (oall to_fragments cs); easy.
Qed.

Definition spaced (l : list cval) : list out_frag := inter fragment_spacing (flat_map frags l).

Lemma spaced_fragments_ok : forall l, Forall no_braces l -> spaced_fragments l = OOk (spaced l).
Proof.
  intros l H. unfold spaced_fragments. rewrite (oall_ok _ _ to_fragments frags).
  - cbn [obind]. rewrite spaced_with_inter. unfold spaced. now rewrite flat_map_concat_map.
  - eapply Forall_impl; [|exact H]. apply to_fragments_ok.
Qed.
Lemma spaced_fragments_inv : forall l r, spaced_fragments l = OOk r -> Forall no_braces l.
Proof.
  intros l r H. unfold spaced_fragments in H. destruct (oall to_fragments l) as [x| |] eqn:E; try discriminate.
  apply oall_inv in E. clear H. induction E; constructor; auto. eapply to_fragments_inv; eauto.
Qed.
Lemma spaced_fragments_no_fuel : forall l, spaced_fragments l <> OFuel.
Proof.
  intros l. unfold spaced_fragments.
  assert (E : oall to_fragments l <> OFuel) by (apply oall_no_fuel, Forall_forall; intros; apply to_fragments_no_fuel).
  destruct (oall to_fragments l); try easy. cbn [obind]. now rewrite spaced_with_inter.
Qed.

(** *** Their text *)

Definition frag_piece (rho : env) (f : out_frag) : piece :=
  match f with
  | FExpr e => mk_piece false false (expr_text rho e)
  | FArg _ c => mk_piece false false (rho c)
  | FToken t => token_piece t
  | FDelim d true => opens d
  | FDelim d false => closes d
  | FStr s => mk_piece false false s
  end.
Lemma frags_pieces : forall rho c, map (frag_piece rho) (frags c) = pieces rho c.
Proof.
  intros rho. induction c as [i args IH|t|d cs IH|e] using cval_ind2; try reflexivity; cbn [frags pieces map].
  - rewrite map_app. cbn [map frag_piece token_piece]. do 3 f_equal.
    induction IH as [|x l Hx _ IHl]; [reflexivity|]. cbn. now rewrite map_app, Hx, IHl.
  - rewrite map_app. cbn [map frag_piece token_piece]. do 2 f_equal.
    induction IH as [|x l Hx _ IHl]; [reflexivity|]. cbn. now rewrite map_app, Hx, IHl.
Qed.
Lemma among_mem : forall c s, mem c (lit s) = among s c.
Proof. reflexivity. Qed.
Lemma fragment_spacing_piece : forall rho x y,
  fragment_spacing x y
  = if p_ends (frag_piece rho x) && p_starts (frag_piece rho y) then Some (FStr (lit " ")) else None.
Proof.
  intros rho x y. unfold fragment_spacing.
  destruct x as [e|a c|[c j|t|i]|d [|]|s]; destruct y as [e'|a' c'|[c' j'|t'|i']|d' [|]|s']; reflexivity.
Qed.
Lemma frag_piece_text : forall rho f, p_text (frag_piece rho f) = frag_text rho f.
Proof.
  intros rho [e|a c|[c j|t|i]|d [|]|s]; try reflexivity; try now destruct d.
  symmetry. apply ident_string_text.
Qed.
Lemma inter_text : forall rho l,
  List.concat (map (frag_text rho) (inter fragment_spacing l)) = spell (map (frag_piece rho) l).
Proof.
  intros rho. induction l as [|x l IH]; [reflexivity|]. cbn [inter map List.concat].
  rewrite map_app, concat_app, IH. destruct l as [|y l]; [cbn [gap map List.concat app spell]; now rewrite frag_piece_text, app_nil_r|].
  cbn [gap]. rewrite (fragment_spacing_piece rho x y). cbn [map spell]. rewrite !frag_piece_text.
  now destruct (p_ends (frag_piece rho x) && p_starts (frag_piece rho y)).
Qed.
Lemma spaced_text : forall rho l, List.concat (map (frag_text rho) (spaced l)) = text rho l.
Proof.
  intros rho l. unfold spaced, text. rewrite inter_text. f_equal.
  induction l as [|c l IH]; [reflexivity|]. cbn. now rewrite map_app, frags_pieces, IH.
Qed.

(** ** Selector lists *)

Lemma is_comma_iff : forall c, is_comma c = true <-> comma c.
Proof.
  intros c. split.
  - destruct c as [i a|[c j|t|i]|d cs|e]; try discriminate. cbn. intros H. apply char_eqb_true in H. subst. now exists j.
  - intros [j ->]. reflexivity.
Qed.
Lemma take_part_spec : forall l part rest, take_part l = (part, rest) ->
  l = part ++ rest /\ Forall (fun c => ~ comma c) part
  /\ (rest = [] \/ exists c r, rest = c :: r /\ comma c).
Proof.
  induction l as [|c l IH]; intros part rest H; cbn in H.
  - injection H as <- <-. auto.
  - destruct (is_comma c) eqn:E.
    + injection H as <- <-. split; auto. split; [constructor|]. right. apply is_comma_iff in E. eauto.
    + destruct (take_part l) as [a b] eqn:Et. injection H as <- <-. destruct (IH a b eq_refl) as (-> & F & R).
      split; auto. split; auto. constructor; auto. intros Hc. apply is_comma_iff in Hc. congruence.
Qed.
Lemma batches_ok : forall n l, List.length l <= n ->
  exists parts, batches n l = OOk parts /\ comma_groups l parts /\ incl (List.concat parts) l.
Proof.
  induction n as [|n IH]; intros l Hn.
  - destruct l; [|cbn in Hn; lia]. exists []. repeat split; [constructor|easy].
  - destruct l as [|c l]; [exists []; repeat split; [constructor|easy]|]. cbn [batches].
    destruct (take_part (c :: l)) as [part rest] eqn:Et. pose proof (take_part_spec _ _ _ Et) as (E & F & R).
    assert (Hl : List.length (c :: l) = List.length part + List.length rest) by (rewrite E at 1; apply app_length).
    destruct R as [-> |(x & r & -> & Hx)].
    + exists [part]. rewrite app_nil_r in E. cbn [tl]. replace (batches n []) with (@OOk (list (list cval)) []) by now destruct n.
      cbn [obind]. repeat split.
      * rewrite E. constructor; auto. rewrite <- E. discriminate.
      * cbn. rewrite app_nil_r, <- E. apply incl_refl.
    + destruct (IH r) as (parts & Ep & G & Hi); [cbn [List.length] in *; lia|]. cbn [tl]. rewrite Ep. cbn [obind].
      exists (part :: parts). rewrite E. repeat split; [now constructor|].
      cbn. apply incl_app; [apply incl_appl, incl_refl|]. apply incl_appr, incl_tl, Hi.
Qed.
Lemma comma_groups_fun : forall l a b, comma_groups l a -> comma_groups l b -> a = b.
Proof.
  assert (S : forall g c r g' c' r', Forall (fun c => ~ comma c) g -> comma c ->
             Forall (fun c => ~ comma c) g' -> comma c' -> g ++ c :: r = g' ++ c' :: r' -> g = g' /\ r = r').
  { induction g as [|x g IH]; intros c r g' c' r' F C F' C' E; destruct g' as [|x' g'].
    - injection E as _ ->. auto.
    - injection E as -> _. inversion F'; subst. contradiction.
    - injection E as -> _. inversion F; subst. contradiction.
    - injection E as -> E. inversion F; inversion F'; subst. destruct (IH _ _ _ _ _ H2 C H6 C' E) as [-> ->]. auto. }
  assert (N : forall g c r, Forall (fun c => ~ comma c) (g ++ c :: r) -> comma c -> False).
  { intros g c r F C. rewrite Forall_app in F. destruct F as [_ F]. inversion F; subst. contradiction. }
  intros l a b H. revert b. induction H as [|g Hg F|g c rest gs F C _ IH]; intros b Hb.
  - remember [] as l eqn:E. destruct Hb as [|g Hg F|g c rest gs F C Hb]; auto.
    + now elim Hg.
    + now destruct g.
  - remember g as l eqn:E. destruct Hb as [|g' Hg' F'|g' c rest gs F' C Hb].
    + now elim Hg.
    + now subst.
    + elim (N g' c rest); auto.
  - remember (g ++ c :: rest) as l eqn:E. destruct Hb as [|g' Hg' F'|g' c' rest' gs' F' C' Hb].
    + now destruct g.
    + subst g'. elim (N g c rest); auto.
    + destruct (S _ _ _ _ _ _ F' C' F C E) as [-> ->]. f_equal. now apply IH.
Qed.

(** ** Trees without errors become the sheet they stand for *)

Definition rmean (rho : env) (o : out_rbc) : rbc := rbc_joined (rbc_meaning rho o).
Definition smean (rho : env) (o : out_scope) : rbc := as_rbc (scope_joined (scope_meaning rho o)).

Lemma keys_fold : forall l,
  fold_right (fun c P => rbc_keys_ok c /\ P) True l <-> Forall rbc_keys_ok l.
Proof.
  induction l as [|c l IH]; cbn; [split; auto|]. rewrite IH. split.
  - intros []. now constructor.
  - intros H. inversion H; auto.
Qed.

Lemma name_output_ok : forall n, key_ok (name_output n).
Proof. intros [i|[s|c]]; cbn; auto. Qed.
Lemma name_output_text : forall rho n, key_text rho (name_output n) = name_text rho n.
Proof.
  intros rho [i|[s|c]]; try reflexivity. cbn. apply ident_string_text.
Qed.

Definition out_decl (d : iname * list cval) : out_rbc :=
  OutAttr (mk_out_attr (name_output (fst d)) (spaced (snd d))).
Lemma out_decl_mean : forall rho d, rmean rho (out_decl d) = declaration rho d.
Proof.
  intros rho [n v]. unfold rmean, out_decl, declaration. cbn [rbc_meaning oa_key oa_values rbc_joined a_key a_value fst snd].
  unfold joined. now rewrite name_output_text, spaced_text.
Qed.
Lemma attr_output_ok : forall n v es, Forall no_braces v ->
  attr_output n v es = OOk (mk_out_attr (name_output n) (spaced v), es).
Proof. intros n v es H. unfold attr_output. now rewrite spaced_fragments_ok. Qed.
Lemma attr_output_inv : forall n v es r, attr_output n v es = OOk r -> Forall no_braces v /\ snd r = es.
Proof.
  intros n v es r H. unfold attr_output in H. destruct (spaced_fragments v) eqn:E; try discriminate.
  cbn in H. injection H as <-. split; auto. eapply spaced_fragments_inv; eauto.
Qed.

Notation attr3 := (iname * list cval * list ierr)%type.
Definition good_attr (a : attr3) : Prop := snd a = [] /\ Forall no_braces (snd (fst a)).
Definition decl_of (a : attr3) : css_item := IDecl (fst (fst a)) (snd (fst a)).
Definition not_attr (c : icontent) : Prop := match c with ICAttr _ _ _ => False | _ => True end.

Lemma dangling_ok : forall A, Forall good_attr A ->
  dangling_output A = OOk (map out_decl (map fst A), []).
Proof.
  intros A H. unfold dangling_output.
  rewrite (oall_ok _ _ _ (fun a => (mk_out_attr (name_output (fst (fst a))) (spaced (snd (fst a))), []))).
  - cbn [obind]. f_equal. f_equal.
    + rewrite !map_map. reflexivity.
    + clear H. induction A; auto.
  - eapply Forall_impl; [|exact H]. intros a [E F]. rewrite E. now apply attr_output_ok.
Qed.
Lemma dangling_inv : forall A o, dangling_output A = OOk (o, []) -> Forall good_attr A.
Proof.
  intros A o H. unfold dangling_output in H.
  destruct (oall _ A) as [l| |] eqn:E; try discriminate. cbn [obind] in H. injection H as _ H.
  apply oall_inv in E. revert H. induction E as [|a x A l Ha _ IH]; intros H; constructor.
  - apply attr_output_inv in Ha. destruct Ha as [N Es]. cbn in H. apply app_eq_nil in H. destruct H as [H _].
    split; auto. now rewrite <- Es.
  - apply IH. cbn in H. now apply app_eq_nil in H.
Qed.

Section Grouped.
  Context {A : Type}.
  Variable block : list out_rbc -> A.
  Variable one : icontent -> ores (A * list ierr).
  Variable mean : env -> A -> rbc.
  Variable K : A -> Prop.
  Hypothesis block_mean : forall rho l, mean rho (block l) = CBlock [] (map (rmean rho) l).
  Hypothesis block_K : forall l, Forall rbc_keys_ok l -> K (block l).

  Lemma flush_ok : forall attrs, Forall good_attr attrs ->
    exists out, flush block attrs = OOk (out, []) /\ Forall K out
      /\ forall rho items l, (forall i rest, items = i :: rest -> ~ is_declaration i) ->
           scope_says rho items l -> scope_says rho (map decl_of attrs ++ items) (map (mean rho) out ++ l).
  Proof.
    intros attrs H. unfold flush. destruct attrs as [|a attrs].
    - exists []. repeat split; auto.
    - rewrite dangling_ok by exact H. cbn [obind fst snd]. exists [block (map out_decl (map fst (a :: attrs)))].
      split; [reflexivity|]. split.
      + constructor; auto. apply block_K. apply Forall_forall. intros x Hx. apply in_map_iff in Hx.
        destruct Hx as (d & <- & _). cbn. apply name_output_ok.
      + intros rho items l Hi Hs. cbn [map app]. rewrite block_mean.
        replace (decl_of a :: map decl_of attrs ++ items)
          with (map (fun d => IDecl (fst d) (snd d)) (fst a :: map fst attrs) ++ items)
          by (cbn [map app]; rewrite map_map; reflexivity).
        replace (map (rmean rho) (out_decl (fst a) :: map out_decl (map fst attrs)))
          with (map (declaration rho) (fst a :: map fst attrs)).
        * now constructor.
        * change (out_decl (fst a) :: map out_decl (map fst attrs)) with (map out_decl (fst a :: map fst attrs)).
          rewrite (map_map out_decl). apply map_ext. intros d. symmetry. apply out_decl_mean.
  Qed.

  Definition one_ok (c : icontent) (i : css_item) : Prop :=
    not_attr c -> exists o, one c = OOk (o, []) /\ K o /\ ~ is_declaration i
      /\ forall rho items l, scope_says rho items l -> scope_says rho (i :: items) (mean rho o :: l).

  Lemma grouped_ok : forall cs items, Forall2 (fun c i => clean true c i /\ one_ok c i) cs items ->
    forall attrs, Forall good_attr attrs ->
    exists out, grouped block one attrs cs = OOk (out, []) /\ Forall K out
      /\ forall rho, scope_says rho (map decl_of attrs ++ items) (map (mean rho) out).
  Proof.
    intros cs items H. induction H as [|c i cs items [Hc H1] _ IH]; intros attrs Ha.
    - destruct (flush_ok attrs Ha) as (out & E & HK & Hm). exists out. cbn. split; auto. split; auto.
      intros rho. rewrite <- (app_nil_r (map (mean rho) out)). apply Hm; [intros ? ? X; discriminate X|constructor].
    - assert (C : (exists n v, c = ICAttr n v [] /\ i = IDecl n v /\ Forall no_braces v) \/ not_attr c).
      { destruct Hc; cbn; auto. left. eauto. }
      destruct C as [(n & v & -> & -> & Hv)|N].
      + destruct (IH (attrs ++ [(n, v, [])])) as (out & E & HK & Hm).
        { apply Forall_app. split; auto. constructor; auto. split; auto. }
        exists out. split; [exact E|]. split; auto. intros rho. specialize (Hm rho).
        rewrite map_app, <- app_assoc in Hm. exact Hm.
      + destruct (H1 N) as (o & Eo & Ko & Nd & Ho).
        destruct (flush_ok attrs Ha) as (f & Ef & Kf & Hf).
        destruct (IH [] (Forall_nil _)) as (out & E & HK & Hm).
        exists (f ++ o :: out). split; [|split].
        * replace (grouped block one attrs (c :: cs)) with
            (obind (flush block attrs) (fun f => obind (one c) (fun o => obind (grouped block one [] cs) (fun r =>
             OOk (fst f ++ fst o :: fst r, snd f ++ snd o ++ snd r)))))
            by (destruct c; [now elim N|reflexivity..]).
          rewrite Ef. cbn [obind]. rewrite Eo. cbn [obind]. rewrite E. reflexivity.
        * apply Forall_app. auto.
        * intros rho. rewrite map_app. cbn [map]. apply Hf.
          -- intros i' rest Hi. injection Hi as <- _. exact Nd.
          -- apply Ho. exact (Hm rho).
  Qed.

  Lemma flush_inv : forall attrs o, flush block attrs = OOk (o, []) -> Forall good_attr attrs.
  Proof.
    intros [|a attrs] o H; [constructor|]. unfold flush in H.
    destruct (dangling_output (a :: attrs)) as [[d es]| |] eqn:E; try discriminate. cbn [obind fst snd] in H.
    injection H as _ ->. eapply dangling_inv; eauto.
  Qed.
  Lemma grouped_inv : forall cs,
    Forall (fun c => not_attr c -> forall o, one c = OOk (o, []) -> exists i, clean true c i) cs ->
    forall attrs out, grouped block one attrs cs = OOk (out, []) ->
    Forall good_attr attrs /\ exists items, cleans true cs items.
  Proof.
    intros cs H. induction H as [|c cs Hc _ IH]; intros attrs out E.
    - split; [eapply flush_inv; exact E|]. exists []. constructor.
    - assert (C : (exists n v es, c = ICAttr n v es) \/ not_attr c) by (destruct c; cbn; eauto).
      destruct C as [(n & v & es & ->)|N].
      + change (grouped block one (attrs ++ [(n, v, es)]) cs = OOk (out, [])) in E.
        apply IH in E. destruct E as [G (items & Hi)]. apply Forall_app in G. destruct G as [G1 G2]. split; auto.
        inversion G2 as [|? ? [Ge Gv] _]; subst. cbn in Ge, Gv. subst es. eexists. constructor; [constructor; exact Gv|exact Hi].
      + replace (grouped block one attrs (c :: cs)) with
            (obind (flush block attrs) (fun f => obind (one c) (fun o => obind (grouped block one [] cs) (fun r =>
             OOk (fst f ++ fst o :: fst r, snd f ++ snd o ++ snd r))))) in E
            by (destruct c; [now elim N|reflexivity..]).
        destruct (flush block attrs) as [[f fe]| |] eqn:Ef; try discriminate. cbn [obind] in E.
        destruct (one c) as [[o oe]| |] eqn:Eo; try discriminate. cbn [obind] in E.
        destruct (grouped block one [] cs) as [[r re]| |] eqn:Er; try discriminate. cbn [obind fst snd] in E.
        injection E as _ E. apply app_eq_nil in E. destruct E as [-> E]. apply app_eq_nil in E. destruct E as [-> ->].
        split; [eapply flush_inv; exact Ef|]. destruct (Hc N _ eq_refl) as [i Hi].
        destruct (IH _ _ Er) as [_ [items Hit]]. exists (i :: items). now constructor.
  Qed.
  Lemma flush_no_fuel : forall attrs, flush block attrs <> OFuel.
  Proof.
    intros [|a attrs]; [discriminate|]. unfold flush, dangling_output.
    assert (E : oall (fun a : attr3 => attr_output (fst (fst a)) (snd (fst a)) (snd a)) (a :: attrs) <> OFuel).
    { apply oall_no_fuel, Forall_forall. intros x _. unfold attr_output.
      pose proof (spaced_fragments_no_fuel (snd (fst x))). destruct (spaced_fragments (snd (fst x))); easy. }
    destruct (oall _ (a :: attrs)); easy.
  Qed.
  Lemma grouped_no_fuel : forall cs, Forall (fun c => one c <> OFuel) cs ->
    forall attrs, grouped block one attrs cs <> OFuel.
  Proof.
    intros cs H. induction H as [|c cs Hc _ IH]; intros attrs; [apply flush_no_fuel|].
    assert (C : (exists n v es, c = ICAttr n v es) \/ not_attr c) by (destruct c; cbn; eauto).
    destruct C as [(n & v & es & ->)|N].
    - change (grouped block one (attrs ++ [(n, v, es)]) cs <> OFuel). apply IH.
    - replace (grouped block one attrs (c :: cs)) with
            (obind (flush block attrs) (fun f => obind (one c) (fun o => obind (grouped block one [] cs) (fun r =>
             OOk (fst f ++ fst o :: fst r, snd f ++ snd o ++ snd r)))))
            by (destruct c; [now elim N|reflexivity..]).
      pose proof (flush_no_fuel attrs). destruct (flush block attrs); try easy. cbn [obind].
      destruct (one c); try easy. cbn [obind]. specialize (IH []). destruct (grouped block one [] cs); easy.
  Qed.
  Lemma flush_no_panic : forall attrs, Forall (fun a : attr3 => Forall no_braces (snd (fst a))) attrs ->
    flush block attrs <> OPanic.
  Proof.
    intros [|a attrs] H; [discriminate|]. unfold flush, dangling_output.
    assert (E : oall (fun a : attr3 => attr_output (fst (fst a)) (snd (fst a)) (snd a)) (a :: attrs) <> OPanic).
    { apply oall_no_panic. eapply Forall_impl; [|exact H]. intros x Hx. cbn beta. now rewrite attr_output_ok. }
    destruct (oall _ (a :: attrs)); easy.
  Qed.
  Lemma grouped_no_panic : forall cs,
    Forall (fun c => match c with ICAttr _ v _ => Forall no_braces v | _ => one c <> OPanic end) cs ->
    forall attrs, Forall (fun a : attr3 => Forall no_braces (snd (fst a))) attrs ->
    grouped block one attrs cs <> OPanic.
  Proof.
    intros cs H. induction H as [|c cs Hc _ IH]; intros attrs Ha; [now apply flush_no_panic|].
    assert (C : (exists n v es, c = ICAttr n v es) \/ not_attr c) by (destruct c; cbn; eauto).
    destruct C as [(n & v & es & ->)|N].
    - change (grouped block one (attrs ++ [(n, v, es)]) cs <> OPanic). apply IH. apply Forall_app. split; auto.
    - replace (grouped block one attrs (c :: cs)) with
            (obind (flush block attrs) (fun f => obind (one c) (fun o => obind (grouped block one [] cs) (fun r =>
             OOk (fst f ++ fst o :: fst r, snd f ++ snd o ++ snd r)))))
            by (destruct c; [now elim N|reflexivity..]).
      assert (O : one c <> OPanic) by (destruct c; [now elim N|exact Hc..]).
      pose proof (flush_no_panic attrs Ha). destruct (flush block attrs); try easy. cbn [obind].
      destruct (one c); try easy. cbn [obind]. specialize (IH [] (Forall_nil _)). destruct (grouped block one [] cs); easy.
  Qed.
End Grouped.

(** *** Items *)

Lemma condition_output_ok : forall i p, Forall no_braces p ->
  condition_output i p = OOk (FStr (lit "@" ++ ident_string i ++ lit " ") :: spaced p).
Proof. intros i p H. unfold condition_output. now rewrite spaced_fragments_ok. Qed.
Lemma condition_mean : forall rho i p,
  joined (map (frag_text rho) (FStr (lit "@" ++ ident_string i ++ lit " ") :: spaced p))
  = [condition_text rho (ident_text i) p].
Proof.
  intros rho i p. unfold joined, condition_text. cbn [map List.concat frag_text].
  now rewrite spaced_text, ident_string_text, <- !app_assoc.
Qed.
Lemma qualifier_output_ok : forall qs es, Forall no_braces qs ->
  exists parts, comma_groups qs parts /\ qualifier_output qs es = OOk (map spaced parts, es).
Proof.
  intros qs es H. unfold qualifier_output.
  destruct (batches_ok (List.length qs) qs (le_n _)) as (parts & E & G & I). exists parts. split; auto.
  rewrite E. cbn [obind]. rewrite (oall_ok _ _ spaced_fragments spaced); [reflexivity|].
  apply Forall_forall. intros g Hg. apply spaced_fragments_ok. rewrite Forall_forall in *. intros c Hc. apply H, I.
  apply in_concat. eauto.
Qed.
Lemma qualifier_output_inv : forall qs es r, qualifier_output qs es = OOk r -> Forall no_braces qs /\ snd r = es.
Proof.
  intros qs es r H. unfold qualifier_output in H.
  destruct (batches_ok (List.length qs) qs (le_n _)) as (parts & E & G & I). rewrite E in H. cbn [obind] in H.
  destruct (oall spaced_fragments parts) as [l| |] eqn:El; try discriminate. cbn [obind] in H. injection H as <-.
  split; auto. apply oall_inv in El. clear E I. revert l El.
  assert (NC : forall c, comma c -> no_braces c) by (intros c [j ->]; constructor).
  induction G as [|g Hg F|g c rest gs F C _ IH]; intros l El.
  - constructor.
  - inversion El; subst. eapply spaced_fragments_inv; eauto.
  - inversion El; subst. apply Forall_app. split; [eapply spaced_fragments_inv; eauto|]. constructor; eauto.
Qed.

Definition block_one (c : icontent) (i : css_item) : Prop :=
  exists o, rule_block_output c = OOk ([o], []) /\ rbc_keys_ok o
    /\ forall rho items l, block_says rho items l -> block_says rho (i :: items) (rmean rho o :: l).

Lemma clean_output :
  (forall nest c i, clean nest c i ->
     if nest then one_ok rule_item_output rmean rbc_keys_ok c i else block_one c i)
  /\ (forall nest cs items, cleans nest cs items ->
     if nest then Forall2 (fun c i => clean true c i /\ one_ok rule_item_output rmean rbc_keys_ok c i) cs items
     else exists os, oall rule_block_output cs = OOk (map (fun o => ([o], [])) os) /\ Forall rbc_keys_ok os
            /\ forall rho, block_says rho items (map (rmean rho) os)).
Proof.
  apply clean_mutind.
  - intros nest n vs Hv. destruct nest; [intros []|].
    exists (out_decl (n, vs)). cbn [rule_block_output]. rewrite attr_output_ok by auto. cbn [obind fst snd].
    split; [reflexivity|]. split; [apply name_output_ok|]. intros rho items l H. rewrite out_decl_mean. now constructor.
  - intros nest i p b items Hp _ IH. destruct nest.
    + intros _. cbn [rule_item_output]. rewrite condition_output_ok by auto. cbn [obind].
      destruct (grouped_ok (OutBlock []) rule_item_output rmean rbc_keys_ok) with (cs := b) (items := items) (attrs := @nil attr3)
        as (out & E & HK & Hm); auto.
      { intros rho l. unfold rmean at 1. cbn [rbc_meaning rbc_joined map]. now rewrite map_map. }
      { intros l Hl. cbn [rbc_keys_ok]. now apply keys_fold. }
      rewrite E. cbn [obind fst snd]. eexists. split; [reflexivity|]. split.
      { cbn [rbc_keys_ok]. now apply keys_fold. }
      split; [intros (n & v & X); discriminate|].
      intros rho its l Hs. unfold rmean at 1. cbn [rbc_meaning rbc_joined]. rewrite condition_mean, map_map.
      constructor; auto. exact (Hm rho).
    + destruct IH as (os & E & HK & Hm). unfold block_one. cbn [rule_block_output]. rewrite condition_output_ok by auto.
      cbn [obind]. rewrite E. cbn [obind].
      replace (flat_map snd (map (fun o => ([o], @nil ierr)) os)) with (@nil ierr) by (clear; induction os; auto).
      replace (flat_map fst (map (fun o : out_rbc => ([o], @nil ierr)) os)) with os
        by (clear; induction os as [|o os IHo]; auto; cbn; now rewrite <- IHo).
      eexists. split; [reflexivity|]. split.
      { cbn [rbc_keys_ok]. now apply keys_fold. }
      intros rho its l Hs. unfold rmean at 1. cbn [rbc_meaning rbc_joined]. rewrite condition_mean, map_map.
      constructor; auto. exact (Hm rho).
  - intros qs b items Hq _ (os & E & HK & Hm) _. cbn [rule_item_output]. unfold qualified_output.
    destruct (qualifier_output_ok qs [] Hq) as (parts & G & Eq). rewrite Eq. cbn [obind].
    unfold rule_blocks_output. rewrite E. cbn [obind fst snd].
    replace (flat_map snd (map (fun o => ([o], @nil ierr)) os)) with (@nil ierr) by (clear; induction os; auto).
    replace (flat_map fst (map (fun o : out_rbc => ([o], @nil ierr)) os)) with os
        by (clear; induction os as [|o os IHo]; auto; cbn; now rewrite <- IHo).
    eexists. split; [reflexivity|]. split.
    { cbn [rbc_keys_ok]. now apply keys_fold. }
    split; [intros (n & v & X); discriminate|].
    intros rho its l Hs. unfold rmean at 1. cbn [rbc_meaning rbc_joined].
    replace (map joined (map (map (frag_text rho)) (map spaced parts))) with (map (fun g => [text rho g]) parts).
    + constructor; auto. rewrite map_map. exact (Hm rho).
    + rewrite !map_map. apply map_ext. intros g. unfold joined. now rewrite spaced_text.
  - intros [|]; [constructor|]. exists []. repeat split; constructor.
  - intros nest c i cs items Hc IHc _ IHs. destruct nest; [constructor; auto|].
    destruct IHc as (o & Eo & Ko & Ho). destruct IHs as (os & E & HK & Hm). exists (o :: os).
    rewrite oall_cons, Eo. cbn [obind]. rewrite E. split; [reflexivity|]. split; [now constructor|].
    intros rho. cbn [map]. apply Ho, Hm.
Qed.

Definition to_scope (o : out_rbc) : out_scope :=
  match o with
  | OutRule cond content => OutSRule cond content
  | OutBlock cond content => OutSBlock cond content
  | OutAttr a => OutSBlock [] [OutAttr a]
  end.
Lemma root_item_output_eq : forall c,
  root_item_output c = obind (rule_item_output c) (fun o => OOk (to_scope (fst o), snd o)).
Proof. intros c. unfold root_item_output. destruct (rule_item_output c) as [[o e]| |]; auto. cbn. now destruct o. Qed.
Lemma rule_item_no_attr : forall c o e, not_attr c -> rule_item_output c = OOk (o, e) ->
  match o with OutAttr _ => False | _ => True end.
Proof.
  intros [n v es|i p b es|qs es b] o e N H; [now elim N|..]; cbn [rule_item_output] in H.
  - destruct (condition_output i p); try discriminate. cbn [obind] in H.
    destruct (match b with Some b => _ | None => _ end); try discriminate. cbn [obind] in H. now injection H as <- _.
  - destruct (qualified_output qs es b); try discriminate. cbn [obind] in H. now injection H as <- _.
Qed.
Lemma to_scope_mean : forall rho o, match o with OutAttr _ => False | _ => True end ->
  smean rho (to_scope o) = rmean rho o.
Proof. intros rho [a|cond l|cond l] H; [now elim H|reflexivity..]. Qed.
Lemma to_scope_keys : forall o, rbc_keys_ok o -> scope_keys_ok (to_scope o).
Proof. intros [a|cond l|cond l] H; cbn in *; auto. Qed.

Lemma root_output_ok : forall cs items, cleans true cs items ->
  exists out, root_output cs = OOk (out, []) /\ keys_ok out
    /\ forall rho, sheet_says rho items (sheet_joined (sheet_meaning rho out)).
Proof.
  intros cs items H. apply (proj2 clean_output) in H. cbn in H.
  destruct (grouped_ok (OutSBlock []) root_item_output smean scope_keys_ok) with (cs := cs) (items := items) (attrs := @nil attr3)
    as (out & E & HK & Hm); auto.
  - intros rho l. unfold smean. cbn [scope_meaning scope_joined as_rbc map]. now rewrite map_map.
  - intros l Hl. cbn [scope_keys_ok]. now apply keys_fold.
  - induction H as [|c i cs items [Hc H1] _ IH]; constructor; auto. split; auto. intros N.
    destruct (H1 N) as (o & Eo & Ko & Nd & Ho). pose proof (rule_item_no_attr _ _ _ N Eo) as No.
    exists (to_scope o). rewrite root_item_output_eq, Eo. split; [reflexivity|]. split; [now apply to_scope_keys|].
    split; auto. intros rho its l Hs. rewrite to_scope_mean by auto. now apply Ho.
  - exists out. split; auto. split; auto. intros rho. unfold sheet_says, sheet_joined, sheet_meaning.
    rewrite !map_map. exact (Hm rho).
Qed.

(** ** Only trees without errors do *)

Section IcontentInd.
  Variable P : icontent -> Prop.
  Hypothesis HA : forall n v es, P (ICAttr n v es).
  Hypothesis HR : forall i p b es, Forall P b -> P (ICAtRule i p (Some b) es).
  Hypothesis HE : forall i p es, P (ICAtRule i p None es).
  Hypothesis HN : forall qs es b, Forall P b -> P (ICNested qs es b).
  Fixpoint icontent_ind2 (c : icontent) : P c :=
    let fix go (l : list icontent) : Forall P l :=
      match l with
      | [] => Forall_nil P
      | x :: l' => Forall_cons x (icontent_ind2 x) (go l')
      end in
    match c with
    | ICAttr n v es => HA n v es
    | ICAtRule i p (Some b) es => HR i p b es (go b)
    | ICAtRule i p None es => HE i p es
    | ICNested qs es b => HN qs es b (go b)
    end.
End IcontentInd.

Lemma condition_output_inv : forall i p r, condition_output i p = OOk r -> Forall no_braces p.
Proof.
  intros i p r H. unfold condition_output in H. destruct (spaced_fragments p) eqn:E; try discriminate.
  eapply spaced_fragments_inv; eauto.
Qed.

(** Every result of a list is without errors if they all are. *)
Lemma no_errors : forall A B (l : list (A * list B)), flat_map snd l = [] -> Forall (fun x => snd x = []) l.
Proof. intros A B l H. now apply flat_map_nil. Qed.

Definition block_inv (c : icontent) : Prop :=
  closed c -> forall l, rule_block_output c = OOk (l, []) -> exists i, clean false c i.
Lemma blocks_inv : forall b rs, Forall block_inv b -> Forall closed b ->
  oall rule_block_output b = OOk rs -> flat_map snd rs = [] -> exists items, cleans false b items.
Proof.
  intros b rs HI HC E F. apply oall_inv in E. apply no_errors in F. revert HI HC F.
  induction E as [|c r b rs Hc _ IH]; intros HI HC F; [exists []; constructor|].
  inversion HI; inversion HC; inversion F; subst. destruct r as [l es]. cbn in H9. subst es.
  destruct (H1 H5 l Hc) as [i Hi]. destruct (IH H2 H6 H10) as [items Hit]. exists (i :: items). now constructor.
Qed.
Lemma block_output_inv : forall c, block_inv c.
Proof.
  induction c as [n v es|i p b es IH|i p es|qs es b IH] using icontent_ind2; intros HC l H; cbn [rule_block_output] in H.
  - destruct (attr_output n v es) as [[o e]| |] eqn:E; try discriminate. apply attr_output_inv in E. cbn in H, E.
    destruct E as [E1 <-]. injection H as _ ->. eexists. constructor. exact E1.
  - destruct (condition_output i p) as [cond| |] eqn:Ec; try discriminate. cbn [obind] in H.
    destruct (oall rule_block_output b) as [rs| |] eqn:E; try discriminate. cbn [obind] in H. injection H as _ H.
    apply app_eq_nil in H. destruct H as [-> F]. inversion HC; subst.
    destruct (blocks_inv b rs IH H0 E F) as [items Hi]. eexists. constructor; [eapply condition_output_inv; eauto|exact Hi].
  - inversion HC.
  - discriminate.
Qed.

Definition item_inv (c : icontent) : Prop :=
  closed c -> forall o, rule_item_output c = OOk (o, []) -> exists i, clean true c i.
Lemma item_output_inv : forall c, item_inv c.
Proof.
  induction c as [n v es|i p b es IH|i p es|qs es b IH] using icontent_ind2; intros HC l H; cbn [rule_item_output] in H.
  - destruct (attr_output n v es) as [[o e]| |] eqn:E; try discriminate. apply attr_output_inv in E. cbn in H, E.
    destruct E as [E1 <-]. injection H as _ ->. eexists. constructor. exact E1.
  - destruct (condition_output i p) as [cond| |] eqn:Ec; try discriminate. cbn [obind] in H.
    destruct (grouped (OutBlock []) rule_item_output [] b) as [[o oe]| |] eqn:E; try discriminate. cbn [obind fst snd] in H.
    injection H as _ H. apply app_eq_nil in H. destruct H as [-> ->]. inversion HC; subst.
    apply grouped_inv in E.
    + destruct E as [_ [items Hi]]. eexists. constructor; [eapply condition_output_inv; eauto|exact Hi].
    + rewrite Forall_forall in *. intros c Hc _ o' Ho. apply (IH c Hc (H0 c Hc) o' Ho).
  - inversion HC.
  - unfold qualified_output, rule_blocks_output in H.
    destruct (qualifier_output qs es) as [[q qe]| |] eqn:Eq; try discriminate. cbn [obind] in H.
    destruct (oall rule_block_output b) as [rs| |] eqn:E; try discriminate. cbn [obind fst snd] in H.
    injection H as _ H. apply app_eq_nil in H. destruct H as [-> F]. apply qualifier_output_inv in Eq. destruct Eq as [Eq1 Eq2].
    cbn in Eq2. subst es. inversion HC; subst.
    destruct (blocks_inv b rs) as [items Hi]; auto.
    { apply Forall_forall. intros. apply block_output_inv. }
    eexists. constructor; eauto.
Qed.
Lemma root_output_inv : forall cs out, Forall closed cs -> root_output cs = OOk (out, []) ->
  exists items, cleans true cs items.
Proof.
  intros cs out HC H. unfold root_output in H. apply grouped_inv in H; [tauto|].
  rewrite Forall_forall in *. intros c Hc _ o Ho. rewrite root_item_output_eq in Ho.
  destruct (rule_item_output c) as [[o' e]| |] eqn:E; try discriminate. cbn in Ho. injection Ho as _ ->.
  eapply item_output_inv; eauto.
Qed.

(** ** No fuel *)

Lemma condition_output_no_fuel : forall i p, condition_output i p <> OFuel.
Proof.
  intros i p. unfold condition_output. pose proof (spaced_fragments_no_fuel p). destruct (spaced_fragments p); easy.
Qed.
Lemma attr_output_no_fuel : forall n v es, attr_output n v es <> OFuel.
Proof.
  intros n v es. unfold attr_output. pose proof (spaced_fragments_no_fuel v). destruct (spaced_fragments v); easy.
Qed.
Lemma block_output_no_fuel : forall c, rule_block_output c <> OFuel.
Proof.
  induction c as [n v es|i p b es IH|i p es|qs es b IH] using icontent_ind2; cbn [rule_block_output].
  - pose proof (attr_output_no_fuel n v es). destruct (attr_output n v es); easy.
  - pose proof (condition_output_no_fuel i p). destruct (condition_output i p); try easy. cbn [obind].
    apply oall_no_fuel in IH. destruct (oall rule_block_output b); easy.
  - pose proof (condition_output_no_fuel i p). destruct (condition_output i p); easy.
  - discriminate.
Qed.
Lemma qualified_output_no_fuel : forall qs es b, qualified_output qs es b <> OFuel.
Proof.
  intros qs es b. unfold qualified_output, qualifier_output, rule_blocks_output.
  destruct (batches_ok (List.length qs) qs (le_n _)) as (parts & -> & _). cbn [obind].
  assert (E : oall spaced_fragments parts <> OFuel) by (apply oall_no_fuel, Forall_forall; intros; apply spaced_fragments_no_fuel).
  destruct (oall spaced_fragments parts); try easy. cbn [obind].
  assert (E2 : oall rule_block_output b <> OFuel) by (apply oall_no_fuel, Forall_forall; intros; apply block_output_no_fuel).
  destruct (oall rule_block_output b); easy.
Qed.
Lemma item_output_no_fuel : forall c, rule_item_output c <> OFuel.
Proof.
  induction c as [n v es|i p b es IH|i p es|qs es b IH] using icontent_ind2; cbn [rule_item_output].
  - pose proof (attr_output_no_fuel n v es). destruct (attr_output n v es); easy.
  - pose proof (condition_output_no_fuel i p). destruct (condition_output i p); try easy. cbn [obind].
    pose proof (grouped_no_fuel (OutBlock []) rule_item_output b IH []).
    destruct (grouped (OutBlock []) rule_item_output [] b); easy.
  - pose proof (condition_output_no_fuel i p). destruct (condition_output i p); easy.
  - pose proof (qualified_output_no_fuel qs es b). destruct (qualified_output qs es b); easy.
Qed.
Lemma root_output_no_fuel : forall cs, root_output cs <> OFuel.
Proof.
  intros cs. apply grouped_no_fuel. apply Forall_forall. intros c _. rewrite root_item_output_eq.
  pose proof (item_output_no_fuel c). destruct (rule_item_output c); easy.
Qed.

(** ** No panic without braces *)

Inductive safe : icontent -> Prop :=
| sf_attr n v es : Forall no_braces v -> safe (ICAttr n v es)
| sf_at i p b es : Forall no_braces p -> Forall safe b -> safe (ICAtRule i p (Some b) es)
| sf_end i p es : Forall no_braces p -> safe (ICAtRule i p None es)
| sf_nested qs es b : Forall no_braces qs -> Forall safe b -> safe (ICNested qs es b).

Lemma block_output_no_panic : forall c, safe c -> rule_block_output c <> OPanic.
Proof.
  induction c as [n v es|i p b es IH|i p es|qs es b IH] using icontent_ind2; intros S; inversion S; subst; cbn [rule_block_output].
  - now rewrite attr_output_ok.
  - rewrite condition_output_ok by auto. cbn [obind].
    assert (E : oall rule_block_output b <> OPanic) by (apply oall_no_panic; rewrite Forall_forall in *; auto).
    destruct (oall rule_block_output b); easy.
  - now rewrite condition_output_ok by auto.
  - discriminate.
Qed.
Lemma item_output_no_panic : forall c, safe c -> rule_item_output c <> OPanic.
Proof.
  induction c as [n v es|i p b es IH|i p es|qs es b IH] using icontent_ind2; intros S; inversion S; subst; cbn [rule_item_output].
  - now rewrite attr_output_ok.
  - rewrite condition_output_ok by auto. cbn [obind].
    assert (E : grouped (OutBlock []) rule_item_output [] b <> OPanic).
    { apply grouped_no_panic; auto. rewrite Forall_forall in *. intros c Hc. specialize (H4 c Hc). specialize (IH c Hc).
      destruct c; auto. now inversion H4. }
    destruct (grouped (OutBlock []) rule_item_output [] b); easy.
  - now rewrite condition_output_ok by auto.
  - unfold qualified_output, rule_blocks_output. destruct (qualifier_output_ok qs es ltac:(assumption)) as (parts & _ & ->). cbn [obind].
    assert (E : oall rule_block_output b <> OPanic).
    { apply oall_no_panic. rewrite Forall_forall in *. intros c Hc. apply block_output_no_panic. auto. }
    destruct (oall rule_block_output b); easy.
Qed.
Lemma root_output_no_panic : forall cs, Forall safe cs -> root_output cs <> OPanic.
Proof.
  intros cs H. apply grouped_no_panic; auto. eapply Forall_impl; [|exact H]. intros c S.
  assert (N : root_item_output c <> OPanic).
  { rewrite root_item_output_eq. pose proof (item_output_no_panic c S). destruct (rule_item_output c); easy. }
  destruct c; auto. now inversion S.
Qed.
