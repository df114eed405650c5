(** * ParserSel: what the parser does on selectors, conditions and declarations of the grammar. *)

From Coq Require Import String Ascii List NArith Bool Arith Lia.
From Verif Require Import Str StrFacts Ast Nom CssParser SpecSays NomFacts ParserSound ParserTotal SpecGrammar ParserLex ParserTokens.
Import ListNotations.
Local Open Scope list_scope.

(** ** Leading blank space is ignored by trimmed parsers *)

Lemma trimmed_dsp {A} (f : parser A) i : trimmed f (dsp i) = trimmed f i.
Proof. now rewrite !trimmed_eq, dsp_idem. Qed.
Lemma trimmed_blank {A} (f : parser A) w i : blank w -> trimmed f (w ++ i) = trimmed f i.
Proof. intros H. now rewrite !trimmed_eq, dsp_blank. Qed.
Lemma map_dsp {A B} (g : A -> B) (f : parser A) i : f (dsp i) = f i -> map_p g f (dsp i) = map_p g f i.
Proof. intros H. unfold map_p. now rewrite H. Qed.

Lemma trimmed_nil {A} (p : parser A) : trimmed (expect_non_empty p) [] = RErr.
Proof. apply trimmed_err. now rewrite (dsp_solid []) by exact I. Qed.

Lemma many1_many0 {A} (p : parser A) i r a :
  shrinks p -> consumes p -> p i = ROk r a -> many1 p i = many0 p i.
Proof.
  intros S C E. rewrite (many0_step p i r a); auto; [|eapply C; eauto]. unfold many1. now rewrite E.
Qed.

(** ** Selectors *)

Definition sel_set : str := lit "$,{}@;/" ++ [34%N].

Definition sel_chunk : parser str :=
  alt [recognize (preceded (none_of (lit "$,}@{" ++ dquote))
                           (opt (is_not (lit "$," ++ dquote ++ lit "{"))));
       string_p;
       recognize interpolation].

Lemma sel_text_tail c t : sel_text (c :: t) -> ~ In c sel_set -> sel_text t.
Proof.
  intros H Hc. inversion H as [|? ? ? ?|d v Hd Hv E|s v Hs Hv E]; subst; auto.
  { exfalso. apply Hc. cbn. tauto. }
  exfalso. apply Hc. apply atom_head in Hs. destruct Hs as (x & r & -> & Hx).
  injection E as -> _. destruct Hx as [->| ->]; cbn; tauto.
Qed.
Lemma sel_text_drop a b :
  Forall (fun c => ~ In c sel_set) a -> sel_text (a ++ b) -> sel_text b.
Proof. induction 1; auto. intros H'. apply IHForall. eapply sel_text_tail; eauto. Qed.
Lemma css_ws_sel c : In c css_ws -> ~ In c sel_set.
Proof. cbn. intros [<-|[<-|[<-|[<-|[]]]]]; intuition discriminate. Qed.
Lemma sel_text_app a b : sel_text a -> sel_text b -> sel_text (a ++ b).
Proof.
  intros Ha Hb. induction Ha; cbn [app]; auto.
  - now apply st_plain.
  - now apply st_slash.
  - rewrite <- app_assoc. now apply st_atom.
Qed.
Lemma ws_sel w : ws w -> sel_text w.
Proof.
  induction 1 as [|c w Hc _ IH]; [constructor|]. apply st_plain; auto. now apply css_ws_sel.
Qed.

Lemma sel_solid t Y : sel_text t -> t <> [] -> head_not css_ws t -> solid (t ++ Y).
Proof.
  intros H Hn Hh. destruct H as [|c v Hc Hv|c v Hc Hv|s v Hs Hv]; [easy| | |].
  - split; auto. intros ->. exfalso. apply Hc. cbn. tauto.
  - split; auto. intros _. cbn [app]. intros ->. apply Hc. cbn. tauto.
  - apply atom_head in Hs. destruct Hs as (c & r & -> & Hc). split; auto.
    intros ->. destruct Hc; discriminate.
Qed.

Lemma ws_of_mem a : forallb (fun c => mem c css_ws) a = true -> ws a.
Proof. intros H. eapply forallb_Forall; [|exact H]. intros c Hc. now apply mem_In. Qed.

Lemma sel_dsp v Y :
  sel_text v -> solid Y ->
  exists a b, v = a ++ b /\ ws a /\ sel_text b /\ dsp (v ++ Y) = b ++ Y.
Proof.
  intros Hv H. destruct (split_run (fun c => mem c css_ws) v) as (a & b & -> & Ha & Hb).
  apply ws_of_mem in Ha.
  assert (Hsb : sel_text b).
  { eapply sel_text_drop; [|exact Hv]. eapply Forall_impl; [|exact Ha]. apply css_ws_sel. }
  exists a, b. repeat split; auto.
  rewrite <- app_assoc, dsp_blank by now apply ws_blank. apply dsp_solid.
  destruct b as [|c b]; [exact H|]. apply sel_solid; [auto|discriminate|].
  cbn [head_not]. now apply mem_not_In.
Qed.

(** Selectors end before [,] or [{]. *)
Definition sel_end (X : str) : Prop :=
  match X with [] => False | c :: _ => In c (lit ",{") end.

Lemma sel_end_solid X : sel_end X -> solid X.
Proof. destruct X as [|c X]; cbn; auto. intros [<-|[<-|[]]]; split; intuition discriminate. Qed.

Lemma shrinks_sel_chunk : shrinks sel_chunk.
Proof.
  apply shrinks_alt. each.
  - apply shrinks_recognize, shrinks_preceded; [apply shrinks_none_of|].
    apply shrinks_opt, shrinks_is_not.
  - apply shrinks_string.
  - apply shrinks_recognize, shrinks_interpolation.
Qed.

(** Where no selector starts. *)
Definition no_sel (X : str) : Prop :=
  match X with [] => True | c :: _ => In c (lit ",}@{") end.

Lemma sel_chunk_stop X : no_sel X -> sel_chunk X = RErr.
Proof.
  intros H.
  assert (Hs : dsp X = X).
  { apply dsp_solid. destruct X as [|c X]; [exact I|]. cbn in H.
    destruct H as [<-|[<-|[<-|[<-|[]]]]]; split; cbn; intuition discriminate. }
  unfold sel_chunk. rewrite alt_err_cons, alt_err_cons, alt_err_cons; [reflexivity| | |].
  - apply recognize_err, interpolation_err. rewrite Hs. destruct X as [|c X]; auto.
    cbn in H. intros ->. intuition discriminate.
  - apply string_p_err. rewrite Hs. destruct X as [|c X]; auto.
    cbn in H. intros ->. intuition discriminate.
  - apply recognize_err, preceded_err. destruct X as [|c X]; auto. cbn [none_of].
    replace (mem c (lit "$,}@{" ++ dquote)) with true; auto. symmetry. apply mem_In.
    cbn in H |- *. tauto.
Qed.

(** The chars that end a run of plain selector text. *)
Definition sel_stop : str := lit "$,{" ++ [34%N].

Lemma sel_run v : sel_text v -> exists a b, v = a ++ b /\ Forall (fun c => ~ In c sel_stop) a /\ sel_text b
  /\ (b = [] \/ exists c r, b = c :: r /\ (c = 34%N \/ c = ch "$")).
Proof.
  induction 1 as [|c v Hc Hv IH|c v Hc Hv IH|s v Hs Hv IH].
  - exists [], []. repeat split; [constructor|constructor|now left].
  - destruct IH as (a & b & -> & Ha & Hb & E). exists (c :: a), b. repeat split; auto. constructor; auto.
    intros H. apply Hc. cbn in H |- *. tauto.
  - destruct IH as (a & b & -> & Ha & Hb & E). exists (ch "/" :: c :: a), b. repeat split; auto.
    constructor; [cbn; intuition discriminate|]. constructor; auto. intros H. apply Hc. cbn in H |- *. tauto.
  - exists [], (s ++ v). repeat split; [constructor|now apply st_atom|]. right.
    apply atom_head in Hs. destruct Hs as (c & r & -> & Hc). cbn [app]. eauto.
Qed.

Lemma is_not_sel t X : Forall (fun c => ~ In c sel_stop) t -> sel_end X \/ (exists c r, X = c :: r /\ (c = 34%N \/ c = ch "$")) ->
  opt (is_not (lit "$," ++ dquote ++ lit "{")) (t ++ X) = ROk X (match t with [] => None | _ => Some t end).
Proof.
  intros Ht HX.
  assert (HX' : match X with [] => True | c :: _ => In c (lit "$," ++ dquote ++ lit "{") end).
  { destruct HX as [HX|(c & r & -> & Hc)].
    - destruct X as [|c X]; auto. cbn in HX |- *. tauto.
    - cbn. destruct Hc as [->| ->]; tauto. }
  destruct t as [|c t].
  - cbn [app]. unfold opt. rewrite is_not_err; auto.
  - unfold opt, is_not. rewrite take_while1_ok; auto.
    + discriminate.
    + eapply Forall_forallb; [|exact Ht]. intros x Hx. cbn beta. apply negb_true_iff, mem_not_In.
      intros Hin. apply Hx. cbn in Hin |- *. tauto.
    + destruct X; auto. apply negb_false_iff, mem_In. exact HX'.
Qed.

Lemma sel_chunk_ok X t :
  sel_end X -> sel_text t -> t <> [] ->
  exists t1 t2 a, t = t1 ++ t2 /\ t1 <> [] /\ sel_text t2 /\ sel_chunk (t ++ X) = ROk (t2 ++ X) a.
Proof.
  intros HX Ht Hn.
  assert (Run : forall c a b, Forall (fun x => ~ In x sel_stop) a -> sel_text b ->
            (b = [] \/ exists d r, b = d :: r /\ (d = 34%N \/ d = ch "$")) -> ~ In c (lit "$,}@{" ++ dquote) ->
            exists t1 t2 x, c :: a ++ b = t1 ++ t2 /\ t1 <> [] /\ sel_text t2 /\ sel_chunk ((c :: a ++ b) ++ X) = ROk (t2 ++ X) x).
  { intros c a b Ha Hsb Hb Hc. exists (c :: a), b, (c :: a). repeat split; auto; [discriminate|].
    unfold sel_chunk. apply alt_ok_cons. cbn [app]. rewrite <- app_assoc.
    change (c :: a ++ b ++ X) with ((c :: a) ++ (b ++ X)). eapply recognize_ok.
    erewrite preceded_ok.
    2:{ unfold none_of. cbn [app]. destruct (mem c (lit "$,}@{" ++ dquote)) eqn:E; [|reflexivity].
        exfalso. apply mem_In in E. now apply Hc. }
    apply is_not_sel; auto. destruct Hb as [->|(d & r & -> & Hd)]; [now left|]. right. cbn [app]. eauto. }
  destruct Ht as [|c v Hc Hv|c v Hc Hv|s v Hs Hv]; [easy| | |].
  - destruct (sel_run v Hv) as (a & b & -> & Ha & Hsb & Hb). apply Run; auto.
    intros H. apply Hc. cbn in H |- *. tauto.
  - destruct (sel_run v Hv) as (a & b & -> & Ha & Hsb & Hb). apply (Run (ch "/") (c :: a) b); auto.
    + constructor; auto. intros H. apply Hc. cbn in H |- *. tauto.
    + cbn. intuition discriminate.
  - destruct (sel_dsp v X Hv (sel_end_solid _ HX)) as (a & b & -> & Ha & Hb & Hd).
    assert (Hs' := Hs). apply atom_head in Hs'. destruct Hs' as (c & r & Es & Hc).
    destruct (atom_alt_sel s ((a ++ b) ++ X) Hs) as [x Hx].
    exists (s ++ a), b, x. repeat split; auto.
    + now rewrite app_assoc.
    + subst s. discriminate.
    + unfold sel_chunk. rewrite <- app_assoc. rewrite alt_err_cons.
      * rewrite Hx. f_equal. exact Hd.
      * apply recognize_err, preceded_err. subst s. cbn [app none_of].
        replace (mem c (lit "$,}@{" ++ dquote)) with true; auto. symmetry. apply mem_In.
        destruct Hc as [->| ->]; cbn; tauto.
Qed.

Lemma selector_ok w s v X :
  blank w -> sel_text s -> tight s -> ws v -> sel_end X ->
  selector_p (w ++ s ++ v ++ X) = ROk X [s].
Proof.
  intros Hw Hs Ht Hv HX. unfold selector_p.
  change (trimmed (expect_non_empty (map_p (fun p => [trim p]) (recognize (many1 sel_chunk)))) (w ++ s ++ v ++ X) = ROk X [s]).
  rewrite trimmed_blank by auto. rewrite trimmed_eq, dsp_solid.
  2:{ apply sel_solid; auto. - now destruct Ht. - now apply tight_head. }
  rewrite non_empty_app by now destruct Ht.
  destruct (many1_covers sel_chunk sel_text X shrinks_sel_chunk) with (t := s ++ v) as [l El].
  - apply sel_chunk_stop. destruct X as [|c X]; cbn in HX |- *; tauto.
  - intros t. now apply sel_chunk_ok.
  - apply sel_text_app; auto. now apply ws_sel.
  - destruct Ht as [Hn _]. intros E. apply app_eq_nil in E. tauto.
  - erewrite map_ok.
    2:{ rewrite app_assoc. eapply recognize_ok, El. }
    cbn [bind]. rewrite dsp_solid by now apply sel_end_solid. rewrite tight_trim_r; auto. now destruct Ht.
Qed.

Lemma selector_err X : no_sel (dsp X) -> selector_p X = RErr.
Proof.
  intros H. apply trimmed_err, non_empty_err, map_err, recognize_err, many1_err.
  now apply sel_chunk_stop.
Qed.

Definition sel_item : parser selector := terminated selector_p (opt (tag (lit ","))).

Lemma consumes_recognize {A} (p : parser A) : consumes p -> consumes (recognize p).
Proof. intros H i r a E. apply bind_ok in E. destruct E as (r' & l & E & [= <- _]). eauto. Qed.
Lemma consumes_many1 {A} (p : parser A) : consumes p -> shrinks p -> consumes (many1 p).
Proof.
  intros C S i r l E. unfold many1 in E. apply bind_ok in E. destruct E as (r1 & x & E1 & E).
  apply bind_ok in E. destruct E as (r2 & y & E2 & [= <- _]).
  apply C in E1. apply shrinks_le in E2; [lia|]. now apply shrinks_many0.
Qed.
Lemma consumes_string : consumes string_p.
Proof.
  apply consumes_trimmed, consumes_non_empty, consumes_recognize.
  apply consumes_preceded_l; [apply consumes_tag|].
  apply shrinks_terminated; [|apply shrinks_tag]. apply shrinks_many0, shrinks_alt. each.
  - apply shrinks_is_not.
  - apply shrinks_recognize, shrinks_preceded; [apply shrinks_tag|apply shrinks_anychar].
Qed.
Lemma consumes_interpolation : consumes interpolation.
Proof.
  apply consumes_trimmed, consumes_non_empty. apply consumes_preceded_l; [apply consumes_tag|].
  apply shrinks_terminated; [|apply shrinks_tag]. apply shrinks_trimmed, shrinks_recognize, shrinks_preceded;
    [apply shrinks_take_while1|]. apply shrinks_many0, shrinks_alt. each;
    [apply shrinks_take_while1|apply shrinks_tag].
Qed.
Lemma consumes_none_of set : consumes (none_of set).
Proof.
  intros i r a E. destruct i as [|c i]; [discriminate|]. cbn [none_of] in E. destruct (mem c _); [discriminate|].
  injection E as <- _. cbn. lia.
Qed.
Lemma consumes_sel_chunk : consumes sel_chunk.
Proof.
  apply consumes_alt. each.
  - apply consumes_recognize, consumes_preceded_l; [apply consumes_none_of|apply shrinks_opt, shrinks_is_not].
  - apply consumes_string.
  - apply consumes_recognize, consumes_interpolation.
Qed.
Lemma consumes_value_chunk : consumes value_chunk.
Proof.
  apply consumes_alt. each.
  - intros i r a. apply take_while1_consumes.
  - apply consumes_recognize, consumes_interpolation.
  - apply consumes_string.
  - apply consumes_recognize, consumes_preceded_r; [apply shrinks_tag|apply consumes_none_of].
Qed.
Lemma consumes_selector : consumes selector_p.
Proof.
  apply consumes_trimmed, consumes_non_empty, consumes_map, consumes_recognize.
  apply consumes_many1; [apply consumes_sel_chunk|apply shrinks_sel_chunk].
Qed.

Lemma shrinks_sel_item : shrinks sel_item.
Proof. apply shrinks_terminated; [eapply sound_shrinks, sound_selector|apply shrinks_opt, shrinks_tag]. Qed.
Lemma consumes_sel_item : consumes sel_item.
Proof. apply consumes_terminated_l; [apply consumes_selector|apply shrinks_opt, shrinks_tag]. Qed.

Lemma sels_many t l X' : writes_sels t l ->
  many0 sel_item (t ++ ch "{" :: X') = ROk (ch "{" :: X') l
  /\ exists r a, sel_item (t ++ ch "{" :: X') = ROk r a.
Proof.
  assert (Hstop : many0 sel_item (ch "{" :: X') = ROk (ch "{" :: X') []).
  { apply many0_stop_at, terminated_err, selector_err.
    rewrite dsp_solid; [cbn; tauto|]. apply sel_end_solid. cbn; tauto. }
  induction 1 as [w s v Hw Hs Ht Hv|w s v t l Hw Hs Ht Hv H IH].
  - assert (E : sel_item ((w ++ s ++ v) ++ ch "{" :: X') = ROk (ch "{" :: X') [s]).
    { eapply terminated_ok.
      - rewrite <- !app_assoc. apply selector_ok; auto. cbn. tauto.
      - reflexivity. }
    split; [|eauto]. erewrite many0_step; [|apply shrinks_sel_item|exact E|eapply consumes_sel_item, E].
    rewrite Hstop. reflexivity.
  - assert (E : sel_item ((w ++ s ++ v ++ lit "," ++ t) ++ ch "{" :: X') = ROk (t ++ ch "{" :: X') [s]).
    { eapply terminated_ok.
      - rewrite <- !app_assoc. apply selector_ok; auto. cbn. tauto.
      - unfold opt. rewrite <- ?app_assoc. rewrite tag_ok. reflexivity. }
    split; [|eauto]. erewrite many0_step; [|apply shrinks_sel_item|exact E|eapply consumes_sel_item, E].
    destruct IH as [-> _]. reflexivity.
Qed.

Lemma sels_nonempty t l : writes_sels t l -> t <> [].
Proof.
  intros H E. destruct H as [w s v Hw Hs [Hn _] Hv|w s v t l Hw Hs [Hn _] Hv H];
    apply app_eq_nil in E; destruct E as [_ E]; apply app_eq_nil in E; tauto.
Qed.

(** A non-empty selector list starts with a selector, so it is not blank. *)
Lemma sels_dsp t l X' : writes_sels t l ->
  exists t', writes_sels t' l /\ dsp (t ++ ch "{" :: X') = t' ++ ch "{" :: X' /\ solid (t' ++ ch "{" :: X')
    /\ exists w, blank w /\ t = w ++ t'.
Proof.
  intros [w s v Hw Hs Ht Hv|w s v t2 l2 Hw Hs Ht Hv H].
  - exists ([] ++ s ++ v). split; [constructor; auto; constructor|]. cbn [app].
    assert (So : solid ((s ++ v) ++ ch "{" :: X')).
    { rewrite <- app_assoc. apply sel_solid; auto; [now destruct Ht|now apply tight_head]. }
    repeat split; auto; [|exists w; auto]. rewrite <- app_assoc. apply dsp_ws_solid; auto.
  - exists ([] ++ s ++ v ++ lit "," ++ t2). split; [constructor; auto; constructor|]. cbn [app].
    assert (So : solid ((s ++ v ++ lit "," ++ t2) ++ ch "{" :: X')).
    { rewrite <- app_assoc. apply sel_solid; auto; [now destruct Ht|now apply tight_head]. }
    repeat split; auto; [|exists w; auto]. rewrite <- app_assoc. apply dsp_ws_solid; auto.
Qed.

Lemma condition_ok t l X' : writes_sels t l ->
  condition (t ++ ch "{" :: X') = ROk (ch "{" :: X') l.
Proof.
  intros H. unfold condition. change (terminated selector_p (opt (tag (lit ",")))) with sel_item.
  destruct (sels_dsp t l X' H) as (t' & H' & Hd & _).
  rewrite trimmed_eq, Hd, non_empty_app by (eapply sels_nonempty; eauto).
  destruct (sels_many t' l X' H') as [E (r & a & E1)].
  rewrite (many1_many0 _ _ _ _ shrinks_sel_item consumes_sel_item E1), E. cbn [bind].
  rewrite dsp_solid; [reflexivity|]. apply sel_end_solid. cbn. tauto.
Qed.

Lemma condition_err X : no_sel (dsp X) -> condition X = RErr.
Proof.
  intros H. apply trimmed_err, non_empty_err, many1_err, terminated_err, selector_err.
  now rewrite dsp_idem.
Qed.

Lemma frame_condition_ok ct v l X' :
  writes_sels (ct ++ v) l -> tight ct -> hd_error ct <> Some (ch "/") -> ws v ->
  frame_condition (ct ++ v ++ ch "{" :: X') = ROk (ch "{" :: X') [ct].
Proof.
  intros H Ht Hh Hv. unfold frame_condition. erewrite map_ok.
  2:{ rewrite app_assoc. eapply recognize_ok. now apply condition_ok with (l := l). }
  rewrite tight_trim_r; auto. now destruct Ht.
Qed.

(** ** At-rule conditions *)

Definition cond_chunk : parser str := alt [is_not (lit "${"); recognize interpolation].

Lemma shrinks_cond_chunk : shrinks cond_chunk.
Proof.
  apply shrinks_alt. each; [apply shrinks_is_not|apply shrinks_recognize, shrinks_interpolation].
Qed.

Lemma cond_chunk_stop X' : cond_chunk (ch "{" :: X') = RErr.
Proof.
  unfold cond_chunk. rewrite alt_err_cons, alt_err_cons; [reflexivity| |].
  - apply recognize_err, interpolation_err. rewrite dsp_solid; [discriminate|].
    apply sel_end_solid; cbn; tauto.
  - apply is_not_err. cbn. tauto.
Qed.

Lemma cond_pieces_drop a b :
  Forall (fun c => ~ In c (lit "${/")) a -> cond_pieces (a ++ b) -> cond_pieces b.
Proof.
  induction 1 as [|c a Hc _ IH]; auto. cbn [app]. intros H. apply IH.
  inversion H as [|? ? ? ?|s v Hs Hv E]; subst; auto.
  destruct Hs as (w & n & w' & -> & _). injection E as E _. elim Hc. rewrite <- E. cbn. tauto.
Qed.

Lemma css_ws_cond c : In c css_ws -> ~ In c (lit "${/").
Proof. cbn. intros [<-|[<-|[<-|[<-|[]]]]]; intuition discriminate. Qed.
Lemma cond_pieces_app a b : cond_pieces a -> cond_pieces b -> cond_pieces (a ++ b).
Proof.
  intros Ha Hb. induction Ha; cbn [app]; auto.
  - now apply ct_plain.
  - rewrite <- app_assoc. now apply ct_interp.
Qed.
Lemma ws_cond w : ws w -> cond_pieces w.
Proof.
  induction 1 as [|c w Hc _ IH]; [constructor|]. apply ct_plain; auto. now apply css_ws_cond.
Qed.

Lemma cond_dsp v X' :
  cond_pieces v ->
  exists a b, v = a ++ b /\ ws a /\ cond_pieces b /\ dsp (v ++ ch "{" :: X') = b ++ ch "{" :: X'.
Proof.
  intros Hv. destruct (split_run (fun c => mem c css_ws) v) as (a & b & -> & Ha & Hb).
  apply ws_of_mem in Ha.
  assert (Hsb : cond_pieces b).
  { eapply cond_pieces_drop; [|exact Hv]. eapply Forall_impl; [|exact Ha]. apply css_ws_cond. }
  exists a, b. repeat split; auto.
  rewrite <- app_assoc, dsp_blank by now apply ws_blank. apply dsp_solid.
  destruct b as [|c b]; [apply sel_end_solid; cbn; tauto|].
  split; [now apply mem_not_In|]. intros ->.
  inversion Hsb as [|? ? Hx ?|s v' Hs Hv' E]; subst.
  - elim Hx. cbn. tauto.
  - destruct Hs as (w & n & w' & -> & _). discriminate.
Qed.

Lemma cond_chunk_ok X' t :
  cond_pieces t -> t <> [] ->
  exists t1 t2 a, t = t1 ++ t2 /\ t1 <> [] /\ cond_pieces t2
    /\ cond_chunk (t ++ ch "{" :: X') = ROk (t2 ++ ch "{" :: X') a.
Proof.
  intros Ht Hn. destruct Ht as [|c v Hc Hv|s v Hs Hv]; [easy| |].
  - destruct (split_run (fun c => negb (mem c (lit "${/"))) v) as (a & b & -> & Ha & Hb).
    assert (Ha' : Forall (fun c => ~ In c (lit "${/")) a).
    { eapply forallb_Forall; [|exact Ha]. intros x Hx. apply negb_true_iff in Hx. now apply mem_not_In. }
    assert (Hsb : cond_pieces b) by (eapply cond_pieces_drop; eauto).
    exists (c :: a), b, (c :: a). repeat split; auto; [discriminate|].
    unfold cond_chunk. apply alt_ok_cons. rewrite app_comm_cons, <- app_assoc.
    unfold is_not. apply take_while1_ok.
    + discriminate.
    + cbn [forallb]. apply andb_true_iff. split.
      * apply negb_true_iff, mem_not_In. intros Hin. apply Hc. cbn in Hin |- *. tauto.
      * eapply Forall_forallb; [|exact Ha']. intros x Hx. cbn beta. apply negb_true_iff, mem_not_In.
        intros Hin. apply Hx. cbn in Hin |- *. tauto.
    + destruct b as [|x b]; [reflexivity|]. cbn [app]. apply negb_false_iff, mem_In.
      inversion Hsb as [|? ? Hx ?|s v' Hs Hv' E]; subst.
      * exfalso. apply negb_false_iff, mem_In in Hb. apply Hx, Hb.
      * destruct Hs as (w & n & w' & -> & _). injection E as <- E. cbn. tauto.
  - destruct (cond_dsp v X' Hv) as (a & b & -> & Ha & Hb & Hd).
    destruct (interpolation_ok s ((a ++ b) ++ ch "{" :: X') Hs) as [x Hx].
    eexists (s ++ a), b, _. repeat split; auto.
    + now rewrite app_assoc.
    + destruct Hs as (w & n & w' & -> & _). discriminate.
    + unfold cond_chunk. rewrite <- app_assoc. rewrite alt_err_cons.
      * apply alt_ok_cons. unfold recognize. rewrite Hx. cbn [bind]. rewrite Hd. reflexivity.
      * apply is_not_err. destruct Hs as (w & n & w' & -> & _). cbn. tauto.
Qed.

Lemma cond_many T X' : cond_text T -> T <> [] ->
  exists l, many1 cond_chunk (T ++ ch "{" :: X') = ROk (ch "{" :: X') l.
Proof.
  intros [H|H] Hn.
  - apply (many1_covers cond_chunk (Forall (fun c => ~ In c (lit "${"))) _ shrinks_cond_chunk (cond_chunk_stop X')); auto.
    intros t Ht Hnt. exists t, [], t. rewrite app_nil_r. repeat split; auto.
    unfold cond_chunk. apply alt_ok_cons. unfold is_not. apply take_while1_ok; auto.
    + eapply Forall_forallb; [|exact Ht]. intros x Hx. cbn beta. now apply negb_true_iff, mem_not_In.
    + reflexivity.
  - apply (many1_covers cond_chunk cond_pieces _ shrinks_cond_chunk (cond_chunk_stop X')); auto.
    intros t Ht Hnt. now apply cond_chunk_ok.
Qed.

Lemma cond_text_ws a c b : ws a -> cond_text c -> ws b -> cond_text (a ++ c ++ b).
Proof.
  assert (W : forall w, ws w -> Forall (fun c => ~ In c (lit "${")) w).
  { intros w Hw. eapply Forall_impl; [|exact Hw]. intros x Hx Hin. apply css_ws_cond in Hx.
    apply Hx. cbn in Hin |- *. tauto. }
  intros Ha [Hc|Hc] Hb; [left|right].
  - rewrite !Forall_app. auto.
  - repeat apply cond_pieces_app; auto using ws_cond.
Qed.

(** The names tried before [n] fail, [n] is taken. *)
Definition tags_take (tags : list (parser str)) (n : str) : Prop :=
  forall i, alt tags (n ++ i) = ROk i n.

Definition at_name (n : str) : Prop := exists r, n = ch "@" :: r.

Lemma at_solid n X : at_name n -> solid (n ++ X).
Proof. intros [r ->]. split; [cbn; intuition discriminate|]. intros E; discriminate. Qed.

Lemma at_condition_ok tags w n v c v' X' :
  tags_take tags n -> at_name n -> blank w -> ws v -> ws v' -> cond_text c -> tight c ->
  at_rule_condition tags (w ++ n ++ lit " " ++ v ++ c ++ v' ++ ch "{" :: X')
  = ROk (ch "{" :: X') [n ++ lit " "; c].
Proof.
  intros Ht Hn Hw Hv Hv' Hc Htc. unfold at_rule_condition. rewrite trimmed_blank by auto.
  rewrite trimmed_eq, dsp_solid by now apply at_solid.
  rewrite non_empty_app by (destruct Hn as [r ->]; discriminate).
  destruct (cond_many (v ++ c ++ v') X' (cond_text_ws _ _ _ Hv Hc Hv')) as [l El].
  { destruct Htc as [Hcn _]. intros E. apply app_eq_nil in E. destruct E as [_ E].
    apply app_eq_nil in E. tauto. }
  erewrite map_ok.
  2:{ eapply pair_ok.
      - rewrite app_assoc. eapply recognize_ok. eapply terminated_ok.
        + rewrite <- app_assoc. apply Ht.
        + apply tag_ok.
      - eapply map_ok. rewrite (app_assoc c), app_assoc. eapply recognize_ok, El. }
  cbn [bind fst snd]. rewrite dsp_solid by (apply sel_end_solid; cbn; tauto).
  rewrite trim_ws_l by now apply ws_uni. rewrite tight_trim_r; auto. now destruct Htc.
Qed.

Lemma at_condition_err tags X :
  alt tags (dsp X) = RErr -> at_rule_condition tags X = RErr.
Proof.
  intros H. apply trimmed_err, non_empty_err, map_err, pair_err, recognize_err, terminated_err, H.
Qed.

(** ** Declarations *)

Lemma name_solid k X : name k -> solid (k ++ X).
Proof.
  intros (c & r & -> & Hc & _). destruct Hc as [->|[->|[Hc|Hc]]].
  - split; [cbn; intuition discriminate|]. intros E; discriminate.
  - split; [cbn; intuition discriminate|]. intros E; discriminate.
  - now apply alpha_solid.
  - split.
    + intros Hin. cbn in Hin. destruct Hin as [<-|[<-|[<-|[<-|[]]]]]; lia.
    + intros ->. cbn in Hc. lia.
Qed.

Lemma name_char_excl c : In c (css_ws ++ lit "/:,{;}@" ++ [34%N] ++ lit "$") -> ~ name_char c.
Proof.
  intros H [Hn|Hn].
  - destruct Hn as [->|[->|[Hn|Hn]]]; cbn in H; try (intuition discriminate);
      repeat (destruct H as [<-|H]; [(discriminate || (vm_compute in Hn; congruence) || lia)|]); tauto.
  - cbn in H. repeat (destruct H as [<-|H]; [discriminate|]); tauto.
Qed.

Lemma blank_then_not_name w c X : blank w -> In c (css_ws ++ lit "/:,{;}@" ++ [34%N] ++ lit "$") ->
  not_name_start (w ++ c :: X).
Proof.
  intros Hw Hc. destruct Hw as [|x w Hx _|body w _ _].
  - cbn [app not_name_start]. now apply name_char_excl.
  - cbn [app not_name_start]. apply name_char_excl. apply in_or_app. now left.
  - cbn [app not_name_start]. apply name_char_excl. cbn. tauto.
Qed.

Lemma attribute_ok t a X : writes_decl t a -> stop_char X -> attribute (t ++ X) = ROk X a.
Proof.
  intros (w0 & k & w1 & w2 & v & w3 & -> & H0 & H1 & H2 & H3 & Hk & Htk & Hv & Htv & He & ->) HX.
  unfold attribute. rewrite <- !app_assoc. rewrite trimmed_blank by auto.
  rewrite trimmed_eq, dsp_solid by now apply name_solid.
  rewrite non_empty_app by (destruct Hk as (c & r & -> & _); discriminate).
  erewrite map_ok.
  2:{ eapply pair_ok.
      - unfold style_attr_key. apply trimmed_ok. rewrite dsp_solid by now apply name_solid.
        apply ident_ok; auto. cbn [lit app list_ascii_of_string map].
        apply blank_then_not_name; auto. cbn. tauto.
      - rewrite dsp_ws_solid; auto.
        + erewrite preceded_ok by apply tag_ok. apply value_p_ok; auto.
        + split; [cbn; intuition discriminate|]. intros E; discriminate. }
  cbn [bind fst snd]. rewrite dsp_solid by now apply stop_solid. now rewrite Htk.
Qed.

Lemma decl_nonempty t a : writes_decl t a -> t <> [].
Proof.
  intros (w0 & k & w1 & w2 & v & w3 & -> & H0 & H1 & H2 & H3 & (c & r & -> & _) & _) E.
  apply app_eq_nil in E. destruct E as [_ E]. discriminate.
Qed.

(** No declaration starts at [}] or [@] or at the end. *)
Definition no_decl (X : str) : Prop :=
  match X with [] => True | c :: _ => In c (lit "}@") end.

Lemma attribute_err X : no_decl (dsp X) -> attribute X = RErr.
Proof.
  intros H. apply trimmed_err, non_empty_err, map_err, pair_err, trimmed_err, ident_err.
  rewrite dsp_idem. destruct (dsp X) as [|c Y]; auto. intros Hn.
  apply (name_char_excl c); [cbn in H |- *; tauto|]. now left.
Qed.

Lemma attributes_err d X : no_decl (dsp X) -> attributes d X = RErr.
Proof.
  intros H. apply trimmed_err, non_empty_err, terminated_err. unfold separated_list1.
  rewrite attribute_err; auto. now rewrite dsp_idem.
Qed.
