(** * MacroPlain: literals without placeholders. *)

From Coq Require Import String Ascii List NArith Bool Arith Lia.
From Verif Require Import Str StrFacts Ast Render CssParser SpecSays ParserSound ParserTotal Owned Tok Fstring Output
  LitMacro SpecMacro SpecOutput FstringFacts OutputFacts MacroFacts.
Import ListNotations.
Local Open Scope list_scope.

(** ** Fragments are parts of the text *)

Lemma part_refl t : part_of t t.
Proof. exists [], []. now rewrite app_nil_r. Qed.
Lemma part_trans x y z : part_of x y -> part_of y z -> part_of x z.
Proof. intros (a & b & ->) (c & d & ->). exists (c ++ a), (b ++ d). now rewrite <- !app_assoc. Qed.
Lemma part_l x a b : part_of x a -> part_of x (a ++ b).
Proof. intros H. eapply part_trans; [exact H|]. now exists [], b. Qed.
Lemma part_r x a b : part_of x b -> part_of x (a ++ b).
Proof. intros H. eapply part_trans; [exact H|]. exists a, []. now rewrite app_nil_r. Qed.
Lemma part_trim x t : part_of x t -> part_of (trim x) t.
Proof.
  intros H. eapply part_trans; [|exact H]. unfold trim.
  destruct (trim_start_split x) as (w & Hw & _). destruct (trim_end_split (trim_start x)) as (v & Hv & _).
  exists w, v. now rewrite <- Hv, <- Hw.
Qed.
Lemma part_in x t c : part_of x t -> In c x -> In c t.
Proof. intros (a & b & ->) H. apply in_or_app. right. apply in_or_app. now left. Qed.

#[local] Hint Resolve part_refl part_l part_r part_trim : part.

(** No dollar sign, no double quote, no comment. *)
Definition plain (t : str) : Prop :=
  ~ In (ch "$") t /\ ~ In 34%N t /\ ~ part_of (lit "/*") t.

Lemma plain_part x t : part_of x t -> plain t -> plain x.
Proof.
  intros H (H1 & H2 & H3). repeat split.
  - intros Q. apply H1. eapply part_in; eauto.
  - intros Q. apply H2. eapply part_in; eauto.
  - intros Q. apply H3. eapply part_trans; eauto.
Qed.

Definition no_brace (x : str) : Prop := ~ In (ch "{") x.

Lemma blank_no_brace w : blank w -> plain w -> no_brace w.
Proof.
  induction 1 as [|c w Hc _ IH|b w _ _ _]; intros Hp.
  - intros [].
  - intros [E|Q].
    + subst c. repeat destruct Hc as [Hc|Hc]; try discriminate; auto.
    + apply IH in Q; auto. eapply plain_part; [|exact Hp]. exists [c], []. now rewrite app_nil_r.
  - exfalso. destruct Hp as (_ & _ & Hp). apply Hp. exists [], (b ++ lit "*/" ++ w). reflexivity.
Qed.

Lemma no_brace_app a b : no_brace a -> no_brace b -> no_brace (a ++ b).
Proof. intros H1 H2 Q. apply in_app_or in Q. destruct Q; auto. Qed.

Lemma string_not_plain w u w' : string_text u -> ~ plain (w ++ u ++ w').
Proof.
  intros (b & -> & _) (_ & H & _). apply H. apply in_or_app. right. now left.
Qed.
Lemma interp_not_plain w u w' : interp_text u -> ~ plain (w ++ u ++ w').
Proof.
  intros (a & n & a' & -> & _) (H & _). apply H. apply in_or_app. right. now left.
Qed.

Lemma value_piece_no_brace t : value_piece t -> plain t -> no_brace t.
Proof.
  intros [[_ H]|[H|[H|(c & -> & H)]]] Hp.
  - intros Q. rewrite Forall_forall in H. apply (H _ Q). right. now left.
  - destruct H as (w & u & w' & -> & _ & _ & H). now apply string_not_plain in Hp.
  - destruct H as (w & u & w' & -> & _ & _ & H). now apply interp_not_plain in Hp.
  - intros [Q|[Q|[]]]; [discriminate|]. apply H. subst c. right. now left.
Qed.
Lemma selector_piece_no_brace t : selector_piece t -> plain t -> no_brace t.
Proof.
  intros [(c & r & -> & H1 & H2)|[H|H]] Hp.
  - intros [E|Q]; [subst c; apply H1; cbn; tauto|]. rewrite Forall_forall in H2. apply (H2 _ Q). cbn. tauto.
  - destruct H as (w & u & w' & -> & _ & _ & H). now apply string_not_plain in Hp.
  - destruct H as (w & u & w' & -> & _ & _ & H). now apply interp_not_plain in Hp.
Qed.
Lemma condition_piece_no_brace t : condition_piece t -> plain t -> no_brace t.
Proof.
  intros [[_ H]|H] Hp.
  - intros Q. rewrite Forall_forall in H. apply (H _ Q). cbn. tauto.
  - destruct H as (w & u & w' & -> & _ & _ & H). now apply interp_not_plain in Hp.
Qed.
Lemma pieces_no_brace (P : str -> Prop) t :
  (forall x, P x -> plain x -> no_brace x) -> pieces P t -> plain t -> no_brace t.
Proof.
  intros HP (l & _ & Hl & ->) Hp. induction Hl as [|x l Hx _ IH]; [intros []|].
  cbn in *. apply no_brace_app.
  - apply HP; auto. eapply plain_part; [|exact Hp]. auto with part.
  - apply IH. eapply plain_part; [|exact Hp]. auto with part.
Qed.

(** What is known of a fragment [x] of a text [t]. *)
Definition fragment_of (t x : str) : Prop := part_of x t /\ (plain t -> no_brace x).

Lemma fragment_part u t x : fragment_of u x -> part_of u t -> fragment_of t x.
Proof.
  intros [H1 H2] H. split; [eapply part_trans; eauto|]. intros Hp. apply H2. eapply plain_part; eauto.
Qed.
Lemma fragments_part u t l : Forall (fragment_of u) l -> part_of u t -> Forall (fragment_of t) l.
Proof. intros H Hp. eapply Forall_impl; [|exact H]. intros x Hx. eapply fragment_part; eauto. Qed.
Lemma trim_in x c : In c (trim x) -> In c x.
Proof. intros H. eapply part_in; [|exact H]. auto with part. Qed.
Lemma fragment_pieces (P : str -> Prop) u t :
  (forall x, P x -> plain x -> no_brace x) -> pieces P u -> part_of u t -> fragment_of t (trim u).
Proof.
  intros HP H Ht. split; [auto with part|]. intros Hp Q. apply trim_in in Q.
  revert Q. apply (pieces_no_brace P); auto. eapply plain_part; eauto.
Qed.

Lemma decl_fragments t x : padded decl_text t x -> Forall (fragment_of t) (a_value x).
Proof.
  intros (w & u & w' & -> & _ & _ & H).
  destruct H as (kt & k & vt & v & -> & _ & (w1 & vu & w2 & -> & _ & _ & <- & Hv) & ->).
  cbn [a_value]. constructor; [|constructor]. eapply fragment_pieces; [apply value_piece_no_brace|exact Hv|].
  auto 10 with part.
Qed.
Lemma decls_fragments b t l : says_decls b t l ->
  Forall (fragment_of t) (flat_map rbc_strings (map CAttr l)).
Proof.
  induction 1 as [t x _ H|t x w H _|t x t' l H _ IH]; cbn [map flat_map rbc_strings].
  - rewrite app_nil_r. now apply decl_fragments.
  - rewrite app_nil_r. eapply fragments_part; [apply decl_fragments; eassumption|]. auto with part.
  - apply Forall_app. split.
    + eapply fragments_part; [apply decl_fragments; eassumption|]. auto with part.
    + eapply fragments_part; [exact IH|]. auto with part.
Qed.

Lemma at_fragments names t cond : (forall n, In n names -> no_brace n) -> at_text names t cond ->
  Forall (fragment_of t) cond.
Proof.
  intros Hn (w & n & c & w' & -> & _ & _ & Hin & Hc & ->). constructor; [|constructor; [|constructor]].
  - split.
    + exists w, (c ++ w'). now rewrite <- !app_assoc.
    + intros _. apply no_brace_app; [auto|]. intros [Q|[]]. discriminate.
  - eapply fragment_pieces; [apply condition_piece_no_brace|exact Hc|]. auto 10 with part.
Qed.
Lemma group_names_no_brace n : In n group_names -> no_brace n.
Proof.
  intros [<-|[<-|[<-|[]]]] Q; repeat (destruct Q as [Q|Q]; [discriminate|]); destruct Q.
Qed.
Lemma keyframes_no_brace n : In n [lit "@keyframes"] -> no_brace n.
Proof.
  intros [<-|[]] Q; repeat (destruct Q as [Q|Q]; [discriminate|]); destruct Q.
Qed.

Lemma content_fragments t l : says_content t l -> Forall (fragment_of t) (flat_map rbc_strings l).
Proof.
  induction 1 as [w _|t l t' c H _ IH|w t cond body content w' t' c _ H _ IH1 _ _ IH2].
  - constructor.
  - rewrite flat_map_app. apply Forall_app. split.
    + eapply fragments_part; [eapply decls_fragments; eassumption|]. auto with part.
    + eapply fragments_part; [exact IH|]. auto with part.
  - cbn [flat_map rbc_strings]. rewrite !Forall_app. repeat split.
    + eapply fragments_part; [eapply at_fragments; [|eassumption]; apply group_names_no_brace|]. auto 20 with part.
    + eapply fragments_part; [exact IH1|]. auto 20 with part.
    + eapply fragments_part; [exact IH2|]. auto 20 with part.
Qed.

Lemma selector_list_fragments t l : selector_list t l -> Forall (fragment_of t) (List.concat l).
Proof.
  intros (_ & w & u & w' & -> & _ & _ & H). apply (fragments_part u); [|auto with part].
  induction H as [|t s t' l (v & comma & -> & (y & (w1 & z & w2 & -> & _ & _ & <- & Hz) & ->) & _) _ IH].
  - constructor.
  - cbn [List.concat app]. constructor.
    + eapply fragment_pieces; [apply selector_piece_no_brace|exact Hz|]. auto 10 with part.
    + eapply fragments_part; [exact IH|]. auto with part.
Qed.
Lemma selector_list_no_brace t l : selector_list t l -> plain t -> no_brace t.
Proof.
  intros (_ & w & u & w' & -> & Hw & Hw' & H) Hp.
  apply no_brace_app; [apply blank_no_brace; auto; eapply plain_part; [|exact Hp]; auto with part|].
  apply no_brace_app; [|apply blank_no_brace; auto; eapply plain_part; [|exact Hp]; auto with part].
  assert (Hu : plain u) by (eapply plain_part; [|exact Hp]; auto with part).
  clear Hp Hw Hw'. revert Hu.
  induction H as [|t s t' l (v & comma & -> & (y & (w1 & z & w2 & -> & Hw1 & Hw2 & <- & Hz) & ->) & Hc) _ IH];
    intros Hp.
  - intros [].
  - apply no_brace_app; [|apply IH; eapply plain_part; [|exact Hp]; auto with part].
    assert (P1 : plain w1) by (eapply plain_part; [|exact Hp]; auto 10 with part).
    assert (P2 : plain w2) by (eapply plain_part; [|exact Hp]; auto 10 with part).
    assert (P3 : plain z) by (eapply plain_part; [|exact Hp]; auto 10 with part).
    repeat apply no_brace_app; try (now apply blank_no_brace).
    + eapply pieces_no_brace; [apply selector_piece_no_brace| |]; eassumption.
    + destruct Hc as [-> | ->]; [intros []|intros [Q|[]]; discriminate].
Qed.

Lemma frame_fragments t r : frame_text t r -> Forall (fragment_of t) (rbc_strings r).
Proof.
  intros (w & ct & body & content & w' & -> & _ & _ & (l & Hl) & Hb & ->).
  cbn [rbc_strings app]. constructor.
  - apply fragment_part with ct; [|auto 10 with part]. split; [auto with part|].
    intros Hp Q. apply trim_in in Q. revert Q. now apply (selector_list_no_brace ct l).
  - eapply fragments_part; [apply content_fragments; eassumption|]. auto 10 with part.
Qed.
Lemma frames_fragments t l : star frame_text t l -> Forall (fragment_of t) (flat_map rbc_strings l).
Proof.
  induction 1 as [|t r t' l Hr _ IH]; [constructor|]. cbn [flat_map]. apply Forall_app. split.
  - eapply fragments_part; [apply frame_fragments; eassumption|]. auto with part.
  - eapply fragments_part; [exact IH|]. auto with part.
Qed.

Lemma scope_fragments t s : says_scope t s -> Forall (fragment_of t) (sheet_strings s).
Proof.
  unfold sheet_strings.
  induction 1 as [w _|t l t' c H _ IH|w t sels body content w' t' c _ H Hb _ _ IH
    |w t cond body content w' t' c _ H _ IH1 _ _ IH2|w t cond body frames w' t' c _ H Hf _ _ IH];
    cbn [flat_map rbc_of_scope rbc_strings List.concat app].
  - constructor.
  - apply Forall_app. split.
    + eapply fragments_part; [eapply decls_fragments; eassumption|]. auto with part.
    + eapply fragments_part; [exact IH|]. auto with part.
  - rewrite !Forall_app. repeat split.
    + eapply fragments_part; [apply selector_list_fragments; eassumption|]. auto 20 with part.
    + eapply fragments_part; [apply content_fragments; eassumption|]. auto 20 with part.
    + eapply fragments_part; [exact IH|]. auto 20 with part.
  - rewrite !Forall_app. repeat split.
    + eapply fragments_part; [eapply at_fragments; [|eassumption]; apply group_names_no_brace|]. auto 20 with part.
    + rewrite flat_map_concat_map, map_map, <- flat_map_concat_map.
      eapply fragments_part; [exact IH1|]. auto 20 with part.
    + eapply fragments_part; [exact IH2|]. auto 20 with part.
  - rewrite !Forall_app. repeat split.
    + eapply fragments_part; [eapply at_fragments; [|eassumption]; apply keyframes_no_brace|]. auto 20 with part.
    + eapply fragments_part; [apply frames_fragments; eassumption|]. auto 20 with part.
    + eapply fragments_part; [exact IH|]. auto 20 with part.
Qed.

Lemma parsed_fragments css sh : parse css = Parsed sh -> Forall (fragment_of css) (sheet_strings sh).
Proof. intros H. now apply scope_fragments, parse_sound. Qed.

(** ** Strings without placeholders *)

Definition no_dollar (s : str) : Prop := ~ In (ch "$") s.

Lemma text_scannable s : no_dollar s -> no_brace s -> scannable s.
Proof.
  intros H1 H2. destruct s as [|c s].
  - exists []. now split.
  - exists [Text (c :: s)]. split; [|unfold write; cbn; now rewrite app_nil_r].
    constructor; [|constructor]. split; [discriminate|]. apply Forall_forall. intros x Hx.
    split; intros ->; auto.
Qed.

Lemma dollar_free_pieces ps : no_dollar (write ps) -> Forall (fun p => exists s, p = Text s) ps.
Proof.
  unfold no_dollar, write. intros H. apply Forall_forall. intros p Hp. destruct p as [s| |w n w'].
  - eauto.
  - exfalso. apply H. apply in_flat_map. exists DollarBrace. split; auto. now left.
  - exfalso. apply H. apply in_flat_map. exists (Hole w n w'). split; auto. now left.
Qed.

Lemma no_dollar_no_hole s n : no_dollar s -> ~ has_hole n s.
Proof.
  intros H (ps & w & w' & _ & -> & Hin). apply dollar_free_pieces in H. rewrite Forall_forall in H.
  destruct (H _ Hin) as [s Hs]. discriminate.
Qed.

Lemma no_dollar_fills v s t : no_dollar s -> fills v s t -> t = s.
Proof.
  intros H (ps & _ & -> & ->). apply dollar_free_pieces in H. unfold write.
  induction H as [|p ps [s ->] _ IH]; auto. cbn [flat_map]. now rewrite IH.
Qed.

Lemma no_dollar_output a s u o u' : no_dollar s -> str_to_output a s u = Some (o, u') ->
  o = match s with [] => [] | _ => [FStr s] end.
Proof.
  intros H E. unfold str_to_output in E. destruct (scan s) as [l| |] eqn:Es; try discriminate.
  destruct (scan_written _ _ Es) as (ps & H1 & H2 & -> & ->). apply dollar_free_pieces in H.
  destruct ps as [|p ps]; [now injection E as <- _|].
  inversion H as [|? ? [s ->] H']; subst. inversion H1 as [|? ? Hp1 _]; subst. destruct Hp1 as [Hne _].
  destruct ps as [|q ps].
  - cbn in E. injection E as <- _. unfold write. cbn. rewrite app_nil_r. now destruct s.
  - inversion H' as [|? ? [s' ->] _]; subst. now cbn in H2.
Qed.

Lemma each_output_each {A B} (f : A -> used -> option (B * used)) l : forall u ys u',
  each_output f l u = Some (ys, u') -> Forall2 (fun x y => exists u u', f x u = Some (y, u')) l ys.
Proof.
  induction l as [|x l IH]; intros u ys u' E; cbn in E.
  - injection E as <- _. constructor.
  - destruct (f x u) as [[y u1]|] eqn:Ex; [|discriminate].
    destruct (each_output f l u1) as [[ys1 u2]|] eqn:El; [|discriminate].
    injection E as <- _. constructor; eauto.
Qed.

Lemma coalesce_texts s l : coalesce_from (FStr s) (map FStr l) = [FStr (s ++ List.concat l)].
Proof.
  revert s. induction l as [|t l IH]; intros s; cbn; [now rewrite app_nil_r|].
  now rewrite IH, <- app_assoc.
Qed.

Lemma strs_compact a l u o u' rho : Forall no_dollar l -> strs_to_output a l u = Some (o, u') ->
  cfrags rho o = compact l.
Proof.
  intros Hl E. unfold strs_to_output in E.
  destruct (each_output (str_to_output a) l u) as [[ls u1]|] eqn:El; [|discriminate].
  injection E as <- _. apply each_output_each in El.
  assert (K : exists m, List.concat ls = map FStr m /\ List.concat m = List.concat l /\ Forall (fun s => s <> []) m).
  { clear -Hl El. induction El as [|s o l ls (u1 & u2 & Hs) _ IH]; [now exists []|].
    inversion Hl as [|? ? H1 H2]; subst. destruct (IH H2) as (m & M1 & M2 & M3).
    apply no_dollar_output in Hs; auto. subst o. destruct s as [|c s].
    - exists m. now cbn.
    - exists ((c :: s) :: m). cbn. rewrite M1, M2. repeat split; auto. constructor; auto. discriminate. }
  destruct K as (m & K1 & K2 & K3). unfold cfrags, compact. rewrite K1, <- K2.
  destruct m as [|s m]; [reflexivity|]. cbn [map coalesce]. rewrite coalesce_texts.
  cbn [map frag_text List.concat]. inversion K3; subst. now destruct s.
Qed.

Definition rbc_strings_ok (x : rbc) : Prop := Forall no_dollar (rbc_strings x).

Lemma rbcs_compact a rho l :
  Forall (fun x => rbc_strings_ok x -> forall u y u', rbc_to_output a x u = Some (y, u') ->
                   rbc_coalesced rho y = rbc_compact x) l.
Proof.
  revert l.
  assert (L : forall l, Forall (fun x => rbc_strings_ok x -> forall u y u',
      rbc_to_output a x u = Some (y, u') -> rbc_coalesced rho y = rbc_compact x) l ->
      Forall no_dollar (flat_map rbc_strings l) -> forall u ys u',
      each_output (rbc_to_output a) l u = Some (ys, u') -> map (rbc_coalesced rho) ys = map rbc_compact l).
  { intros l Hl Hd u ys u' E. apply each_output_each in E.
    induction E as [|x y l ys (u1 & u2 & Hx) _ IH]; auto.
    cbn [flat_map] in Hd. apply Forall_app in Hd. destruct Hd as [Hd1 Hd2].
    inversion Hl; subst. cbn [map]. f_equal; eauto. }
  apply (rbcs_ind2 (fun x => rbc_strings_ok x -> forall u y u', rbc_to_output a x u = Some (y, u') ->
      rbc_coalesced rho y = rbc_compact x)
    (fun l => Forall (fun x => rbc_strings_ok x -> forall u y u', rbc_to_output a x u = Some (y, u') ->
      rbc_coalesced rho y = rbc_compact x) l)).
  - intros x Hx u y u' E. cbn in E. unfold attr_to_output in E.
    destruct (strs_to_output a (a_value x) u) as [[o u1]|] eqn:Eo; [|discriminate].
    injection E as <- _. cbn. now rewrite (strs_compact _ _ _ _ _ rho Hx Eo).
  - intros cond l IH Hx u y u' E. cbn in E. unfold rule_to_output in E.
    unfold rbc_strings_ok in Hx. cbn [rbc_strings] in Hx. apply Forall_app in Hx. destruct Hx as [H1 H2].
    destruct (strs_to_output a cond u) as [[o u1]|] eqn:Eo; [|discriminate].
    destruct (each_output (rbc_to_output a) l u1) as [[ys u2]|] eqn:El; [|discriminate].
    injection E as <- _. cbn. now rewrite (strs_compact _ _ _ _ _ rho H1 Eo), (L l IH H2 _ _ _ El).
  - intros cond l IH Hx u y u' E. cbn in E. unfold block_to_output in E.
    unfold rbc_strings_ok in Hx. cbn [rbc_strings] in Hx. apply Forall_app in Hx. destruct Hx as [H1 H2].
    destruct (each_output (strs_to_output a) cond u) as [[o u1]|] eqn:Eo; [|discriminate].
    destruct (each_output (rbc_to_output a) l u1) as [[ys u2]|] eqn:El; [|discriminate].
    injection E as <- _. cbn. rewrite (L l IH H2 _ _ _ El). f_equal.
    apply each_output_each in Eo. clear -Eo H1.
    induction Eo as [|x y l ys (u1 & u2 & Hx) _ IH]; auto.
    cbn in H1. apply Forall_app in H1. destruct H1 as [H1 H2]. cbn [map].
    now rewrite (strs_compact _ _ _ _ _ rho H1 Hx), IH.
  - constructor.
  - intros c l Hc Hl. now constructor.
Qed.

(** A macro call without placeholders gives the parsed sheet, each text in one fragment. *)
Theorem sheet_compacted a sh u out u' rho : Forall no_dollar (sheet_strings sh) ->
  sheet_to_output a sh u = Some (out, u') -> sheet_coalesced rho out = sheet_compact sh.
Proof.
  intros Hd E. unfold sheet_to_output in E. apply each_output_each in E. unfold sheet_coalesced, sheet_compact.
  induction E as [|x y l ys (u1 & u2 & Hx) _ IH]; auto.
  unfold sheet_strings in Hd. cbn [flat_map] in Hd. apply Forall_app in Hd. destruct Hd as [Hd1 Hd2].
  cbn [map]. rewrite (IH Hd2). f_equal.
  assert (K : rbc_coalesced rho (match y with OutSRule c l => OutRule c l | OutSBlock c l => OutBlock c l end)
              = rbc_compact (rbc_of_scope x)).
  { pose proof (rbcs_compact a rho [rbc_of_scope x]) as K. inversion K as [|? ? K1 _]; subst.
    apply (K1 Hd1 u1 _ u2). destruct x as [cond c|cond c]; cbn in *.
    - destruct (block_to_output (rbc_to_output a) a cond c u1) as [[[o ys'] u3]|]; [|discriminate].
      now injection Hx as <- <-.
    - destruct (rule_to_output (rbc_to_output a) a cond c u1) as [[[o ys'] u3]|]; [|discriminate].
      now injection Hx as <- <-. }
  destruct x, y; cbn in *; congruence.
Qed.

Lemma compact_concat l : List.concat (compact l) = List.concat l.
Proof. unfold compact. destruct (List.concat l); auto. cbn. now rewrite app_nil_r. Qed.

Lemma joined_compact_rbc l : map rbc_joined (map rbc_compact l) = map rbc_joined l.
Proof.
  revert l. apply (rbcs_ind2 (fun c => rbc_joined (rbc_compact c) = rbc_joined c)
    (fun l => map rbc_joined (map rbc_compact l) = map rbc_joined l)).
  - intros a. cbn. unfold joined. now rewrite compact_concat.
  - intros cond l IH. cbn. rewrite IH. unfold joined. now rewrite compact_concat.
  - intros cond l IH. cbn. rewrite IH, map_map. f_equal. apply map_ext. intros s. unfold joined.
    now rewrite compact_concat.
  - reflexivity.
  - intros c l Hc Hl. cbn. now rewrite Hc, Hl.
Qed.

Lemma joined_compact s : sheet_joined (sheet_compact s) = sheet_joined s.
Proof.
  unfold sheet_joined, sheet_compact. rewrite map_map. apply map_ext.
  intros [cond l|cond l]; cbn; rewrite joined_compact_rbc.
  - f_equal. rewrite map_map. apply map_ext. intros a. unfold joined. now rewrite compact_concat.
  - unfold joined. now rewrite compact_concat.
Qed.

(** ** Replacements are functions *)

Scheme like_rbc_mind := Induction for like_rbc Sort Prop
  with like_rbcs_mind := Induction for like_rbcs Sort Prop.

Lemma Forall2_mono {A B} (R R' : A -> B -> Prop) l m :
  (forall x y, R x y -> R' x y) -> Forall2 R l m -> Forall2 R' l m.
Proof. intros H. induction 1; constructor; auto. Qed.

Lemma like_rbcs_mono (R R' : str -> str -> Prop) l l' : (forall x y, R x y -> R' x y) ->
  like_rbcs R l l' -> like_rbcs R' l l'.
Proof.
  intros H. apply (like_rbcs_mind R (fun x y _ => like_rbc R' x y) (fun x y _ => like_rbcs R' x y)).
  - intros k v v' F. constructor. eapply Forall2_mono; eauto.
  - intros c c' m m' F _ IH. constructor; auto. eapply Forall2_mono; eauto.
  - intros c c' m m' F _ IH. constructor; auto. eapply Forall2_mono; [|exact F]. intros x y.
    now apply Forall2_mono.
  - constructor.
  - intros. now constructor.
Qed.

Lemma sheet_fills_ext v v' s t : (forall n, v n = v' n) -> sheet_fills v s t -> sheet_fills v' s t.
Proof.
  intros Hv. assert (K : forall x y, fills v x y -> fills v' x y).
  { intros x y (ps & H1 & H2 & ->). exists ps. repeat split; auto. clear -Hv.
    induction ps as [|p ps IH]; auto. cbn [flat_map]. rewrite IH. f_equal. destruct p; cbn; auto. }
  unfold sheet_fills, like_sheet. apply Forall2_mono. intros x y [c c' l l' F L|c c' l l' F L];
    (constructor; [|eapply like_rbcs_mono; eauto]).
  - eapply Forall2_mono; [|exact F]. intros a b. now apply Forall2_mono.
  - eapply Forall2_mono; eauto.
Qed.

Lemma Forall2_fun {A B} (R : A -> B -> Prop) : (forall x y z, R x y -> R x z -> y = z) ->
  forall l m n, Forall2 R l m -> Forall2 R l n -> m = n.
Proof.
  intros H l m n F. revert n. induction F as [|x y l m Hx _ IH]; intros n G; inversion G; subst; auto.
  f_equal; eauto.
Qed.

Lemma like_rbcs_fun (R : str -> str -> Prop) : (forall x y z, R x y -> R x z -> y = z) ->
  forall l l' l'', like_rbcs R l l' -> like_rbcs R l l'' -> l' = l''.
Proof.
  intros H l l' l'' L. revert l''.
  apply (like_rbcs_mind R (fun x y _ => forall z, like_rbc R x z -> y = z)
    (fun x y _ => forall z, like_rbcs R x z -> y = z)) with (l := l) (l0 := l'); auto.
  - intros k v v' F z G. inversion G; subst. do 2 f_equal. eapply Forall2_fun; eauto.
  - intros c c' m m' F _ IH z G. inversion G; subst. f_equal; auto. eapply Forall2_fun; eauto.
  - intros c c' m m' F _ IH z G. inversion G; subst. f_equal; auto.
    eapply (Forall2_fun (Forall2 R)); eauto. intros x y w. apply Forall2_fun. exact H.
  - intros z G. now inversion G.
  - intros x y m m' _ IH1 _ IH2 z G. inversion G; subst. f_equal; auto.
Qed.

Lemma sheet_fills_fun v s t t' : sheet_fills v s t -> sheet_fills v s t' -> t = t'.
Proof.
  apply Forall2_fun. intros x y z H1 H2. destruct H1; inversion H2; subst; f_equal;
    try (eapply like_rbcs_fun; [apply (fills_fun v)| |]; eassumption).
  - eapply (Forall2_fun (Forall2 (fills v))); eauto. intros a b d. apply Forall2_fun, fills_fun.
  - eapply Forall2_fun; [apply (fills_fun v)| |]; eassumption.
Qed.

Lemma argument_value l rho n : NoDup (map fst l) -> arg_value (rev l) rho n = argument l rho n.
Proof.
  intros H. unfold arg_value. destruct (arg_get (rev l) n) as [c|] eqn:E.
  - apply arg_get_rev in E; auto. induction l as [|[m d] l IH]; [destruct E|].
    cbn in *. inversion H as [|? ? H1 H2]; subst. destruct E as [[= -> ->]|E].
    + now rewrite str_eqb_refl.
    + destruct (str_eqb m n) eqn:Q; [|auto]. apply str_eqb_eq in Q. subst m. exfalso. apply H1.
      now apply (in_map fst) in E.
  - apply arg_get_none in E. rewrite map_rev in E. induction l as [|[m d] l IH]; auto.
    cbn in *. inversion H; subst. destruct (str_eqb m n) eqn:Q.
    + apply str_eqb_eq in Q. subst m. exfalso. apply E. apply in_or_app. right. now left.
    + apply IH; auto. intros K. apply E. apply in_or_app. now left.
Qed.
