(** * Reparse: generated CSS is read back by the library's own parser (C13). *)

From Coq Require Import String Ascii List NArith Bool Arith Lia.
From Verif Require Import Nom CssParser ParserTokens ParserComplete.
From Verif Require Import Str StrFacts Ast Render SpecSays SpecGrammar SpecReparse.
From Verif Require Import SpecRender RenderFacts.
Import ListNotations.
Local Open Scope list_scope.

(** ** Forests of lines *)

Inductive node := Nd (k v : str) | Nb (c : str) (f : list node).

Section NodeInd.
  Variable P : node -> Prop.
  Variable Q : list node -> Prop.
  Hypothesis HD : forall k v, P (Nd k v).
  Hypothesis HB : forall c f, Q f -> P (Nb c f).
  Hypothesis Hnil : Q [].
  Hypothesis Hcons : forall n f, P n -> Q f -> Q (n :: f).
  Fixpoint node_ind2 (n : node) : P n :=
    let fix go (l : list node) : Q l :=
      match l with [] => Hnil | n :: l' => Hcons n l' (node_ind2 n) (go l') end in
    match n with Nd k v => HD k v | Nb c f => HB c f (go f) end.
  Fixpoint forest_ind2 (l : list node) : Q l :=
    match l with [] => Hnil | n :: l' => Hcons n l' (node_ind2 n) (forest_ind2 l') end.
End NodeInd.

Fixpoint flat1 (n : node) : list line :=
  match n with
  | Nd k v => [LDecl k v]
  | Nb c f => LOpen c :: flat_map flat1 f ++ [LClose]
  end.
Definition flat (f : list node) : list line := flat_map flat1 f.

Fixpoint items1 (p : list str) (n : node) : list item :=
  match n with
  | Nd k v => [IDecl p k v]
  | Nb c f => IOpen (p ++ [c]) :: flat_map (items1 (p ++ [c])) f
  end.
Definition items_of (p : list str) (f : list node) : list item := flat_map (items1 p) f.

Lemma forest_of n : forall ls st items, List.length ls <= n -> run st ls = Some ([], items) ->
  exists f rest items', ls = flat f ++ rest /\ items = items_of st f ++ items'
    /\ run st rest = Some ([], items')
    /\ (rest = [] \/ exists r, rest = LClose :: r /\ st <> []).
Proof.
  induction n as [|n IH]; intros ls st items L H.
  - destruct ls; [|cbn in L; lia]. exists [], [], items. cbn in *. auto.
  - destruct ls as [|l ls]; [exists [], [], items; cbn in *; auto|].
    cbn in L. destruct l as [c| |k v]; cbn [run] in H.
    + destruct (run (st ++ [c]) ls) as [[st1 i1]|] eqn:E; [|easy]. injection H as -> <-.
      destruct (IH ls _ _ ltac:(lia) E) as (f1 & r1 & i1' & -> & -> & R1 & D1).
      destruct D1 as [-> | (r & -> & _)].
      { cbn in R1. injection R1 as R1 _. now apply app_eq_nil in R1. }
      cbn [run] in R1. rewrite removelast_snoc in R1.
      assert (R1' : run st r = Some ([], i1')) by (destruct (st ++ [c]); easy).
      assert (Lr : List.length r <= n) by (rewrite app_length in L; cbn in L; lia).
      destruct (IH r _ _ Lr R1') as (f2 & r2 & i2 & -> & -> & R2 & D2).
      exists (Nb c f1 :: f2), r2, i2. splits; auto.
      * unfold flat. cbn [flat_map flat1]. cbn [app]. now rewrite <- !app_assoc.
      * unfold items_of. cbn [flat_map items1]. cbn [app]. now rewrite <- !app_assoc.
    + exists [], (LClose :: ls), items. cbn [flat flat_map items_of app run]. splits; auto.
      right. exists ls. split; [easy|]. now intros ->.
    + destruct (run st ls) as [[st1 i1]|] eqn:E; [|easy]. injection H as -> <-.
      destruct (IH ls _ _ ltac:(lia) E) as (f1 & r1 & i1' & -> & -> & R1 & D1).
      exists (Nd k v :: f1), r1, i1'. splits; auto.
Qed.

Lemma forest_exists ls items : run [] ls = Some ([], items) ->
  exists f, ls = flat f /\ items = items_of [] f.
Proof.
  intros H. destruct (forest_of _ ls [] items (le_n _) H) as (f & r & i & -> & -> & R & D).
  destruct D as [-> | (r' & _ & E)]; [|easy]. cbn in R. injection R as <-.
  exists f. now rewrite !app_nil_r.
Qed.

Lemma layout_flat f : forall d rest, layout d (flat f ++ rest) = layout d (flat f) ++ layout d rest.
Proof.
  induction f as [k v|c f IH| |n f IHn IHf] using forest_ind2 with
    (P := fun n => forall d rest, layout d (flat1 n ++ rest) = layout d (flat1 n) ++ layout d rest);
    intros d rest.
  - cbn [flat1 layout app]. now rewrite <- !app_assoc.
  - cbn [flat1]. change (flat_map flat1 f) with (flat f). cbn [app layout].
    rewrite <- app_assoc, !IH. cbn [app layout]. replace (S d - 1) with d by lia.
    now rewrite <- !app_assoc.
  - easy.
  - unfold flat in *. cbn [flat_map]. now rewrite <- app_assoc, IHn, IHf, (IHn d (flat_map _ _)), <- app_assoc.
Qed.

Lemma layout_cons d n f : layout d (flat (n :: f)) = layout d (flat1 n) ++ layout d (flat f).
Proof.
  assert (H := layout_flat [n] d (flat f)). unfold flat in *. cbn [flat_map] in *.
  now rewrite app_nil_r in H.
Qed.

(** ** Blocks are not empty *)

Fixpoint full (n : node) : Prop :=
  match n with
  | Nd _ _ => True
  | Nb c f => f <> [] /\ (fix all l := match l with [] => True | n :: l' => full n /\ all l' end) f
  end.

Definition depth_of (i : item) : nat :=
  match i with IDecl q _ _ => List.length q | IOpen q => List.length q - 1 end.

Lemma under_depth p i : under p i -> depth_of i = List.length p.
Proof.
  destruct i; cbn.
  - intros [c ->]. rewrite app_length. cbn. lia.
  - now intros ->.
Qed.

Lemma first_depth p f rest : f <> [] -> exists i l, items_of p f ++ rest = i :: l /\ depth_of i = List.length p.
Proof.
  destruct f as [|n f]; [easy|]. intros _. destruct n as [k v|c f'].
  - now exists (IDecl p k v), (items_of p f ++ rest).
  - eexists _, _. split; [reflexivity|]. cbn. rewrite app_length. cbn. lia.
Qed.

Lemma nested_full f : forall p rest,
  (forall i l, rest = i :: l -> depth_of i <= List.length p) ->
  nested (items_of p f ++ rest) -> Forall full f /\ nested rest.
Proof.
  induction f as [k v|c f IH| |n f IHn IHf] using forest_ind2 with
    (P := fun n => forall p rest,
          (forall i l, rest = i :: l -> depth_of i <= List.length p) ->
          nested (items1 p n ++ rest) -> full n /\ nested rest); intros p rest Hr H.
  - now split.
  - cbn [items1 app] in H. change (flat_map (items1 (p ++ [c])) f) with (items_of (p ++ [c]) f) in H.
    cbn [nested] in H. destruct H as [H1 H2].
    assert (Hr' : forall i l, rest = i :: l -> depth_of i <= List.length (p ++ [c])).
    { intros i l E. apply Hr in E. rewrite app_length. cbn. lia. }
    destruct (IH _ _ Hr' H2) as [F N]. split; [|exact N]. cbn. split; [|now apply all_Forall].
    intros ->. cbn [items_of flat_map app] in H1. destruct rest as [|i l]; [easy|].
    apply under_depth in H1. specialize (Hr i l eq_refl). rewrite app_length in H1. cbn in H1. lia.
  - now split.
  - unfold items_of in *. cbn [flat_map] in H. rewrite <- app_assoc in H.
    assert (Hr' : forall i l, flat_map (items1 p) f ++ rest = i :: l -> depth_of i <= List.length p).
    { intros i l E. destruct f as [|n' f]; [now apply Hr in E|].
      destruct (first_depth p (n' :: f) rest) as (i' & l' & E' & D); [easy|]. unfold items_of in E'.
      rewrite E in E'. injection E' as -> ->. lia. }
    destruct (IHn _ _ Hr' H) as [F1 N1]. destruct (IHf _ _ Hr N1) as [F2 N2]. auto.
Qed.

(** ** Legal paths *)

Inductive state := Top | Leaf | Frames | Inner.

Definition good_selectors (t : str) : Prop :=
  exists l, l <> [] /\ Forall (fun s => sel_text s /\ tight s /\ ~ In (ch "&") s) l /\ t = join (lit ", ") l.

Inductive stp : state -> str -> state -> Prop :=
| stp_at c : good_at group_names c -> stp Top c Top
| stp_sel c : good_selectors c -> stp Top c Leaf
| stp_kf c : good_at [lit "@keyframes"] c -> stp Top c Frames
| stp_frame c : good_frame_condition c -> stp Frames c Inner
| stp_inner c : good_at group_names c -> stp Inner c Inner.

Inductive reach : list str -> state -> Prop :=
| reach_nil : reach [] Top
| reach_snoc p s c s' : reach p s -> stp s c s' -> reach (p ++ [c]) s'.

Definition legal (p : list str) : Prop := exists s, reach p s.
Definition legal_decl (p : list str) : Prop := reach p Leaf \/ reach p Inner.

Lemma reach_inv p c s' : reach (p ++ [c]) s' -> exists s, reach p s /\ stp s c s'.
Proof.
  intros H. inversion H as [E|p0 s c0 s0 H1 H2 E].
  - now apply app_cons_not_nil in E.
  - apply app_inj_tail in E as [-> ->]. eauto.
Qed.

Lemma legal_prefix a b : legal (a ++ b) -> legal a.
Proof.
  revert a; induction b as [|x b IH] using rev_ind; intros a H; [now rewrite app_nil_r in H|].
  destruct H as [s H]. rewrite app_assoc in H. apply reach_inv in H as (s' & H & _). apply IH. now exists s'.
Qed.

Lemma good_selectors_no_at c : good_selectors c -> forall c', c <> ch "@" :: c'.
Proof.
  intros (l & Hl & F & ->) c' E. destruct l as [|s l]; [easy|]. inversion_clear F as [|? ? [F1 [F2 _]] _].
  destruct s as [|x s]; [now destruct F2|].
  assert (x = ch "@") by (destruct l; cbn in E; now injection E).
  subst x. inversion F1 as [|? ? N|? ? N|? ? A _ E'].
  - apply N. cbn. auto 10.
  - destruct (atom_head _ A) as (x & r & -> & [->| ->]); discriminate.
Qed.

Lemma good_at_head names t : good_at names t ->
  (forall n, In n names -> exists r, n = ch "@" :: r) -> exists c', t = ch "@" :: c'.
Proof. intros (n & b & -> & Hn & _) H. destruct (H n Hn) as [r ->]. eexists. reflexivity. Qed.

Lemma group_head n : In n group_names -> exists r, n = ch "@" :: r.
Proof. intros [<-|[<-|[<-|[]]]]; eexists; reflexivity. Qed.
Lemma kf_head n : In n [lit "@keyframes"] -> exists r, n = ch "@" :: r.
Proof. intros [<-|[]]; eexists; reflexivity. Qed.

Lemma at_not_kf c : good_at group_names c -> starts_with (lit "@keyframes") c = false.
Proof. intros (n & b & -> & [<-|[<-|[<-|[]]]] & _); reflexivity. Qed.
Lemma kf_is_kf c : good_at [lit "@keyframes"] c -> starts_with (lit "@keyframes") c = true.
Proof. intros (n & b & -> & [<-|[]] & _). apply starts_with_app. Qed.

Lemma stp_det s c s1 s2 : stp s c s1 -> stp s c s2 -> s1 = s2.
Proof.
  intros H1 H2. destruct H1; inversion H2; subst; auto; exfalso;
    repeat match goal with
    | H : good_at group_names ?c, K : good_at [lit "@keyframes"] ?c |- _ =>
        apply at_not_kf in H; apply kf_is_kf in K; congruence
    | H : good_at group_names ?c, K : good_selectors ?c |- _ =>
        destruct (good_at_head _ _ H group_head) as [c' E]; now apply (good_selectors_no_at _ K c')
    | H : good_at [lit "@keyframes"] ?c, K : good_selectors ?c |- _ =>
        destruct (good_at_head _ _ H kf_head) as [c' E]; now apply (good_selectors_no_at _ K c')
    end.
Qed.

Lemma reach_det p s1 s2 : reach p s1 -> reach p s2 -> s1 = s2.
Proof.
  intros H. revert s2; induction H as [|p s c s' H IH Hs]; intros s2 H2.
  - inversion H2 as [|? ? ? ? ? ? E]; [easy|]. now apply app_eq_nil in E as [_ E].
  - apply reach_inv in H2 as (s0 & H0 & Hs0). apply IH in H0 as ->. eapply stp_det; eauto.
Qed.

(** ** From forests to the grammar *)

Definition good_kv (k v : str) : Prop := name k /\ trim k = k /\ value_text v /\ tight v.

Fixpoint typed (s : state) (n : node) : Prop :=
  match n with
  | Nd k v => (s = Leaf \/ s = Inner) /\ good_kv k v
  | Nb c f => exists s', stp s c s'
                /\ (fix all l := match l with [] => True | n :: l' => typed s' n /\ all l' end) f
  end.

Lemma items_typed f : forall p s, reach p s ->
  (forall q, In (IOpen q) (items_of p f) -> legal q) ->
  (forall q k v, In (IDecl q k v) (items_of p f) -> legal_decl q /\ good_kv k v) ->
  Forall (typed s) f.
Proof.
  induction f as [k v|c f IH| |n f IHn IHf] using forest_ind2 with
    (P := fun n => forall p s, reach p s ->
          (forall q, In (IOpen q) (items1 p n) -> legal q) ->
          (forall q k v, In (IDecl q k v) (items1 p n) -> legal_decl q /\ good_kv k v) ->
          typed s n); intros p s Hp H1 H2.
  - destruct (H2 p k v (or_introl eq_refl)) as [[L|L] G].
    + split; [|easy]. left. eapply reach_det; eauto.
    + split; [|easy]. right. eapply reach_det; eauto.
  - destruct (H1 (p ++ [c]) (or_introl eq_refl)) as [s' Hs'].
    destruct (reach_inv _ _ _ Hs') as (s0 & Hs0 & St). rewrite (reach_det _ _ _ Hp Hs0).
    exists s'. split; [exact St|]. apply all_Forall. apply (IH (p ++ [c])); auto.
    + intros q Hq. apply H1. now right.
    + intros q k v Hq. apply H2. now right.
  - constructor.
  - unfold items_of in *. cbn [flat_map] in *. constructor.
    + apply (IHn p); auto.
      * intros. apply H1. apply in_or_app. auto.
      * intros. apply H2. apply in_or_app. auto.
    + apply (IHf p); auto.
      * intros. apply H1. apply in_or_app. auto.
      * intros. apply H2. apply in_or_app. auto.
Qed.

Definition sheet_part (p : list str) (c : list scope_content) : list item :=
  flat_map (fun c => decls_of None p None (rbc_of_scope c)) c.

Definition yields (s : state) (t : str) (f : list node) : Prop :=
  match s with
  | Leaf => exists content, writes_content t content
      /\ forall rules sel, flat_map (decls_of None rules sel) content
                           = decls (items_of (rules ++ opt_list sel) f)
  | Inner => exists content, writes_content t content
      /\ forall p, flat_map (decls_of None p None) content = decls (items_of p f)
  | Frames => exists frames, star writes_frame t frames
      /\ forall p, flat_map (decls_of None p None) frames = decls (items_of p f)
  | Top => exists content, writes_scope false t content
      /\ forall p, sheet_part p content = decls (items_of p f)
  end.

(** With leading blank space, and also for no nodes at all. *)
Definition yields0 (s : state) (t : str) (f : list node) : Prop :=
  exists w t', t = w ++ t' /\ blank w /\ yields s t' f.

Definition Yields (f : list node) : Prop :=
  forall s, Forall (typed s) f -> Forall full f -> forall d pre sp, blank pre -> ws sp -> f <> [] ->
  yields s (pre ++ layout d (flat f) ++ sp) f.

Lemma yields_nil s : yields s [] [].
Proof.
  destruct s.
  - exists []. split; [constructor|easy].
  - exists []. split; [constructor|easy].
  - exists []. split; [constructor|easy].
  - exists []. split; [constructor|easy].
Qed.

Lemma Yields0 f s d pre sp : Yields f -> Forall (typed s) f -> Forall full f -> blank pre -> ws sp ->
  yields0 s (pre ++ layout d (flat f) ++ sp) f.
Proof.
  intros Y T F Hp Hs. destruct f as [|n f].
  - exists (pre ++ sp), []. split; [now rewrite app_nil_r|].
    split; [apply ParserSound.blank_app; [easy|now apply ParserLex.ws_blank]|apply yields_nil].
  - exists [], (pre ++ layout d (flat (n :: f)) ++ sp). split; [easy|]. split; [constructor|].
    apply Y; easy.
Qed.

Lemma ws_spaces n : ws (spaces n).
Proof. unfold spaces. induction n; constructor; [now left|easy]. Qed.
Lemma ws_nl : ws nl.
Proof. constructor; [cbn; auto|constructor]. Qed.

Lemma decls_app a b : decls (a ++ b) = decls a ++ decls b.
Proof. apply filter_app. Qed.

Lemma items_cons p n f : items_of p (n :: f) = items1 p n ++ items_of p f.
Proof. easy. Qed.
Lemma decls_items1 p c f : decls (items1 p (Nb c f)) = decls (items_of (p ++ [c]) f).
Proof. easy. Qed.

Lemma writes_decl_canonical w k v : blank w -> good_kv k v ->
  writes_decl (w ++ k ++ lit ": " ++ v) (mk_attr k [v]).
Proof.
  intros Hw (K1 & K2 & V1 & V2). exists w, k, [], (lit " "), v, [].
  split; [now rewrite app_nil_r|]. splits; auto; try constructor.
  - now left.
  - constructor.
Qed.

Lemma writes_at_canonical names w c : blank w -> good_at names c ->
  exists cond, writes_at names (w ++ c ++ lit " ") cond /\ List.concat cond = c.
Proof.
  intros Hw (n & b & -> & Hn & Hb & Ht). exists [n ++ lit " "; b]. split.
  - exists w, n, [], b, (lit " "). splits; auto.
    + cbn [app]. now rewrite <- !app_assoc.
    + constructor.
    + constructor; [now left|constructor].
  - cbn [List.concat]. now rewrite app_nil_r, <- app_assoc.
Qed.

Lemma writes_sels_canonical w l :
  blank w -> l <> [] -> Forall (fun s => sel_text s /\ tight s /\ ~ In (ch "&") s) l ->
  writes_sels (w ++ join (lit ", ") l ++ lit " ") (map (fun s => [s]) l).
Proof.
  intros Hw Hl F. revert w Hw; induction F as [|s l (H1 & H2 & H3) F IH]; intros w Hw; [easy|].
  destruct l as [|s' l].
  - cbn. apply (wsel_one w s (lit " ")); auto. constructor; [now left|constructor].
  - cbn [join map]. cbn [join map] in IH.
    specialize (IH ltac:(discriminate) (lit " ")). 
    replace (w ++ (s ++ lit ", " ++ match l with [] => s' | _ :: _ => s' ++ lit ", " ++ join (lit ", ") l end) ++ lit " ")
      with (w ++ s ++ [] ++ lit "," ++ lit " " ++ match l with [] => s' | _ :: _ => s' ++ lit ", " ++ join (lit ", ") l end ++ lit " ").
    + apply wsel_cons; auto; [constructor|]. apply IH. constructor; [now left|constructor].
    + now rewrite <- !app_assoc.
Qed.

Lemma block_sel_plain l :
  l <> [] -> Forall (fun s => sel_text s /\ tight s /\ ~ In (ch "&") s) l ->
  block_sel None None (map (fun s => [s]) l) = join (lit ", ") l.
Proof.
  intros Hl F.
  assert (E : map (fun s => scoped None (List.concat s)) (map (fun s : str => [s]) l) = l).
  { clear Hl. rewrite map_map. induction F as [|x l' (_ & _ & N) F IH]; [easy|].
    cbn [map]. rewrite IH. f_equal. cbn [List.concat]. rewrite app_nil_r. unfold scoped.
    now apply replace_char_none. }
  unfold block_sel. destruct l as [|s l]; [easy|]. cbn [map] in *. now rewrite E.
Qed.

Lemma text_block d c f sp :
  layout d (flat1 (Nb c f)) ++ sp
  = spaces (4 * d) ++ c ++ lit " " ++ lit "{" ++ nl
    ++ (layout (S d) (flat f) ++ spaces (4 * d)) ++ lit "}" ++ nl ++ sp.
Proof.
  cbn [flat1]. change (flat_map flat1 f) with (flat f). cbn [layout].
  rewrite layout_flat. cbn [layout]. replace (S d - 1) with d by lia.
  rewrite <- !app_assoc. cbn [app]. reflexivity.
Qed.

Lemma yields_all f : Yields f.
Proof.
  induction f as [k v|c f IH| |n f IHn IHf] using forest_ind2 with
    (P := fun n => match n with Nd _ _ => True | Nb _ f => Yields f end).
  - exact I.
  - exact IH.
  - easy.
  - intros s T F d pre sp Hpre Hsp _.
    inversion_clear T as [|? ? T1 T2]. inversion_clear F as [|? ? F1 F2].
    assert (Bpre : blank (pre ++ spaces (4 * d))).
    { apply ParserSound.blank_app; [easy|]. apply ParserLex.ws_blank, ws_spaces. }
    destruct n as [k v|c g].
    + (* declaration *)
      destruct T1 as [T1 G].
      destruct (Yields0 f s d nl sp IHf T2 F2 (ParserLex.ws_blank _ ws_nl) Hsp) as (w & t' & Et & Bw & Y).
      assert (E : pre ++ layout d (flat (Nd k v :: f)) ++ sp
                  = ((pre ++ spaces (4 * d)) ++ k ++ lit ": " ++ v) ++ lit ";" ++ w ++ t').
      { rewrite layout_cons. cbn [flat1 layout]. rewrite <- Et. rewrite <- !app_assoc. now cbn [app]. }
      rewrite E. assert (W := writes_decl_canonical _ _ _ Bpre G).
      destruct T1 as [-> | ->]; cbn [yields] in *.
      * destruct Y as (content & Y1 & Y2). exists (CAttr (mk_attr k [v]) :: content).
        split; [now apply wc_decl|]. intros rules sel. cbn [flat_map]. rewrite Y2.
        cbn [decls_of a_key a_value List.concat]. rewrite app_nil_r. rewrite items_cons, decls_app. reflexivity.
      * destruct Y as (content & Y1 & Y2). exists (CAttr (mk_attr k [v]) :: content).
        split; [now apply wc_decl|]. intros p. cbn [flat_map]. rewrite Y2.
        cbn [decls_of a_key a_value List.concat opt_list]. rewrite !app_nil_r. rewrite items_cons, decls_app. reflexivity.
    + (* block *)
      destruct T1 as (s' & St & Tg). apply all_Forall in Tg.
      destruct F1 as [Fg1 Fg2]. apply all_Forall in Fg2.
      destruct (Yields0 f s d nl sp IHf T2 F2 (ParserLex.ws_blank _ ws_nl) Hsp) as (w & t' & Et & Bw & Y).
      assert (Yg := IHn s' Tg Fg2 (S d) nl (spaces (4 * d)) (ParserLex.ws_blank _ ws_nl) (ws_spaces _) Fg1).
      assert (E : pre ++ layout d (flat (Nb c g :: f)) ++ sp
                  = ((pre ++ spaces (4 * d)) ++ c ++ lit " ") ++ lit "{"
                    ++ (nl ++ layout (S d) (flat g) ++ spaces (4 * d)) ++ lit "}" ++ w ++ t').
      { rewrite layout_cons. rewrite <- app_assoc, text_block, <- Et. rewrite <- !app_assoc. now cbn [app]. }
      rewrite E. destruct St as [c Hc|c Hc|c Hc|c Hc|c Hc]; cbn [yields] in *.
      * destruct Y as (content & Y1 & Y2). destruct Yg as (inner & Z1 & Z2).
        destruct (writes_at_canonical _ _ _ Bpre Hc) as (cond & A1 & A2).
        exists (SRule cond (map rbc_of_scope inner) :: content). split.
        -- apply (wsc_rule false _ cond []); [easy|constructor|easy|easy|easy].
        -- intros p. unfold sheet_part in *. cbn [flat_map rbc_of_scope decls_of].
           rewrite items_cons, decls_app, decls_items1, <- Y2, <- Z2, A2. f_equal.
           now rewrite !flat_map_concat_map, map_map.
      * destruct Y as (content & Y1 & Y2). destruct Yg as (inner & Z1 & Z2).
        destruct Hc as (l & Hl & Fl & ->).
        exists (SBlock (map (fun s => [s]) l) inner :: content). split.
        -- apply (wsc_block false _ _ []); [now apply writes_sels_canonical|easy|constructor|easy|easy|easy].
        -- intros p. unfold sheet_part in *. cbn [flat_map rbc_of_scope decls_of].
           rewrite items_cons, decls_app, decls_items1, <- Y2. f_equal.
           rewrite block_sel_plain by easy. apply Z2.
      * destruct Y as (content & Y1 & Y2). destruct Yg as (frames & Z1 & Z2).
        destruct (writes_at_canonical _ _ _ Bpre Hc) as (cond & A1 & A2).
        exists (SRule cond frames :: content). split.
        -- apply wsc_keyframes; auto.
        -- intros p. unfold sheet_part in *. cbn [flat_map rbc_of_scope decls_of].
           now rewrite items_cons, decls_app, decls_items1, <- Y2, <- Z2, A2.
      * destruct Y as (frames & Y1 & Y2). destruct Yg as (inner & Z1 & Z2).
        destruct Hc as ((l & Hl) & Ht & Hh).
        exists (CRule [c] inner :: frames). split.
        -- replace (((pre ++ spaces (4 * d)) ++ c ++ lit " ") ++ lit "{"
                    ++ (nl ++ layout (S d) (flat g) ++ spaces (4 * d)) ++ lit "}" ++ w ++ t')
             with (((pre ++ spaces (4 * d)) ++ c ++ lit " " ++ lit "{"
                    ++ (nl ++ layout (S d) (flat g) ++ spaces (4 * d)) ++ lit "}" ++ w) ++ t')
             by now rewrite <- !app_assoc.
           constructor; [|exact Y1].
           exists (pre ++ spaces (4 * d)), c, l, (lit " "), (nl ++ layout (S d) (flat g) ++ spaces (4 * d)), inner, w.
           splits; auto. constructor; [now left|constructor].
        -- intros p. cbn [flat_map decls_of List.concat]. rewrite app_nil_r.
           now rewrite items_cons, decls_app, decls_items1, <- Y2, <- Z2.
      * destruct Y as (content & Y1 & Y2). destruct Yg as (inner & Z1 & Z2).
        destruct (writes_at_canonical _ _ _ Bpre Hc) as (cond & A1 & A2).
        exists (CRule cond inner :: content). split.
        -- apply wc_rule; auto.
        -- intros p. cbn [flat_map decls_of].
           now rewrite items_cons, decls_app, decls_items1, <- Y2, <- Z2, A2.
Qed.

(** Any lines in canonical layout with legal paths are a text of the grammar. *)
Lemma lines_parse ls items :
  run [] ls = Some ([], items) -> nested items ->
  (forall q, In (IOpen q) items -> legal q) ->
  (forall q k v, In (IDecl q k v) items -> legal_decl q /\ good_kv k v) ->
  exists s', parse (layout 0 ls) = Parsed s' /\ sheet_decls None s' = decls items.
Proof.
  intros H N H1 H2. destruct (forest_exists _ _ H) as (f & -> & ->).
  assert (T := items_typed f [] Top reach_nil H1 H2).
  destruct (nested_full f [] []) as [F _]; [easy|now rewrite app_nil_r|].
  destruct (Yields0 f Top 0 [] [] (yields_all f) T F) as (w & t' & Et & Bw & content & Y1 & Y2);
    [constructor|constructor|].
  rewrite app_nil_r in Et. cbn [app] in Et. exists content. split.
  - apply parse_complete. exists w, t'. auto.
  - apply (Y2 []).
Qed.

(** ** Scoped selectors *)

Lemma sel_scan_app m a b : sel_scan m (a ++ b) = match sel_scan m a with Some m' => sel_scan m' b | None => None end.
Proof. revert m; induction a as [|c a IH]; intros m; cbn; [easy|]. destruct (sel_step m c); auto. Qed.

Lemma scan_sel_text s : sel_scan SOut s = Some SOut -> sel_text s.
Proof.
  enough (H : forall n s, List.length s <= n ->
    (sel_scan SOut s = Some SOut -> sel_text s)
    /\ (sel_scan SSlash s = Some SOut -> sel_text (ch "/" :: s))
    /\ (sel_scan SIn s = Some SOut -> exists b r, s = b ++ 34%N :: r /\ string_body b /\ sel_text r)
    /\ (sel_scan SEsc s = Some SOut -> exists x b r, s = x :: b ++ 34%N :: r /\ string_body b /\ sel_text r))
    by (intros; now apply (H _ s (le_n _))).
  induction n as [|n IH]; clear s; intros s L.
  - destruct s; [|cbn in L; lia]. cbn. split; [constructor|]. repeat split; discriminate.
  - destruct s as [|c s]; [cbn; split; [constructor|repeat split; discriminate]|].
    cbn in L. destruct (IH s ltac:(lia)) as (I1 & I0 & I2 & I3). cbn [sel_scan sel_step].
    split; [|split; [|split]].
    + destruct (char_eqb c 34) eqn:E.
      * apply char_eqb_eq in E as ->. intros H. destruct (I2 H) as (b & r & -> & Hb & Hr).
        replace (34%N :: b ++ 34%N :: r) with (([34%N] ++ b ++ [34%N]) ++ r) by now rewrite <- !app_assoc.
        apply st_atom; [|easy]. left. now exists b.
      * destruct (char_eqb c (ch "/")) eqn:Sl; [apply char_eqb_eq in Sl as ->; exact I0|].
        destruct (mem c (lit "$,{}@;")) eqn:M; [easy|]. intros H. apply st_plain; [|auto].
        apply char_eqb_neq in E, Sl. apply mem_not_In in M. cbn in E, Sl, M |- *. intuition congruence.
    + destruct (mem c _) eqn:M; [easy|]. intros H. apply st_slash; [|auto]. now apply mem_not_In in M.
    + destruct (char_eqb c 34) eqn:E.
      * apply char_eqb_eq in E as ->. intros H. exists [], s. split; [easy|]. split; [constructor|auto].
      * destruct (char_eqb c backslash) eqn:B.
        -- apply char_eqb_eq in B as ->. intros H. destruct (I3 H) as (x & b & r & -> & Hb & Hr).
           exists (92%N :: x :: b), r. split; [easy|]. split; [now constructor|easy].
        -- intros H. destruct (I2 H) as (b & r & -> & Hb & Hr). exists (c :: b), r.
           apply char_eqb_neq in E, B. split; [easy|]. split; [now constructor|easy].
    + intros H. destruct (I2 H) as (b & r & -> & Hb & Hr). exists c, b, r. auto.
Qed.

(** Chars that keep the scanning mode. *)
Definition dull (x : char) : Prop := ~ In x (lit "$,{}@;/" ++ [34%N; backslash]).
Definition settled (m : sel_mode) : sel_mode := match m with SEsc => SIn | SSlash => SOut | _ => m end.

Lemma dull_step m x : dull x -> (m = SSlash -> x <> ch "*") -> sel_step m x = Some (settled m).
Proof.
  intros H NS. unfold dull in H. rewrite in_app_iff in H.
  assert (E1 : char_eqb x 34 = false) by (apply char_eqb_neq; intros ->; apply H; cbn; auto 20).
  assert (E2 : char_eqb x backslash = false) by (apply char_eqb_neq; intros ->; apply H; cbn; auto 20).
  assert (E3 : mem x (lit "$,{}@;") = false) by (apply mem_not_In; cbn in H |- *; tauto).
  assert (E4 : char_eqb x (ch "/") = false) by (apply char_eqb_neq; intros ->; apply H; cbn; auto 20).
  destruct m; cbn [sel_step]; try now rewrite ?E1, ?E2, ?E4, ?E3.
  assert (E5 : mem x (lit "$,{}@;*" ++ [34%N]) = false).
  { apply mem_not_In. specialize (NS eq_refl). cbn in H, NS |- *. intuition congruence. }
  now rewrite E5.
Qed.

Lemma settled_idem m : settled (settled m) = settled m.
Proof. now destruct m. Qed.

Lemma dull_run m t : Forall dull t -> t <> [] -> (m = SSlash -> hd_error t <> Some (ch "*")) -> sel_scan m t = Some (settled m).
Proof.
  intros F. revert m; induction F as [|x t H F IH]; intros m Ht Hh; [easy|]. cbn [sel_scan].
  rewrite (dull_step m x H) by (intros E ->; now apply Hh). destruct t as [|y t]; [easy|].
  rewrite IH by (easy || now destruct m). now rewrite settled_idem.
Qed.

Lemma scan_replace_char r s : Forall dull r -> r <> [] -> hd_error r <> Some (ch "*") -> forall m,
  sel_scan m (replace_char (ch "&") r s) = sel_scan m s.
Proof.
  intros Hr Hn Hh. induction s as [|c s IH]; intros m; [easy|].
  unfold replace_char in *. cbn [flat_map sel_scan]. rewrite sel_scan_app.
  destruct (char_eqb c (ch "&")) eqn:E.
  - rewrite (dull_run m r) by easy. apply char_eqb_eq in E as ->.
    rewrite (dull_step m (ch "&")); [apply IH| |discriminate]. intros H. cbn in H. clear - H. intuition discriminate.
  - cbn [sel_scan]. destruct (sel_step m c); auto.
Qed.

Lemma root_dull : Forall dull (lit ":root").
Proof. repeat constructor; intros H; cbn in H; intuition discriminate. Qed.

Lemma replace_str_match r b : replace_str (lit ":root") r (lit ":root" ++ b) = r ++ replace_str (lit ":root") r b.
Proof. reflexivity. Qed.
Lemma replace_str_other r c s : starts_with (lit ":root") (c :: s) = false ->
  replace_str (lit ":root") r (c :: s) = c :: replace_str (lit ":root") r s.
Proof. intros H. unfold replace_str. cbn [replace_aux]. now rewrite H. Qed.

Lemma replace_root_ind (R : str -> Prop) :
  R [] -> (forall b, R b -> R (lit ":root" ++ b)) ->
  (forall c s, starts_with (lit ":root") (c :: s) = false -> R s -> R (c :: s)) -> forall s, R s.
Proof.
  intros H1 H2 H3. enough (H : forall n s, List.length s <= n -> R s) by (intros s; now apply (H _ s (le_n _))).
  induction n as [|n IH]; intros s L.
  - destruct s; [easy|cbn in L; lia].
  - destruct s as [|c s]; [easy|]. destruct (starts_with (lit ":root") (c :: s)) eqn:E.
    + apply starts_with_spec in E as [b E]. rewrite E. apply H2, IH. apply (f_equal (@List.length _)) in E.
      rewrite app_length in E. cbn in E, L. lia.
    + apply H3; [easy|]. apply IH. cbn in L. lia.
Qed.

Lemma scan_replace_str r : Forall dull r -> r <> [] -> hd_error r <> Some (ch "*") -> forall s m,
  sel_scan m (replace_str (lit ":root") r s) = sel_scan m s.
Proof.
  intros Hr Hn Hh s. induction s as [|b IH|c s E IH] using replace_root_ind; intros m; [easy| |].
  - rewrite replace_str_match, !sel_scan_app. rewrite (dull_run m r), (dull_run m (lit ":root")); auto using root_dull; discriminate.
  - rewrite replace_str_other by easy. cbn [sel_scan]. destruct (sel_step m c); auto.
Qed.

(** Ends that are not white space. *)
Definition starts_ok (s : str) : Prop := match s with c :: _ => is_uni_ws c = false | [] => True end.
Definition ends_ok (s : str) : Prop := forall u x, s = u ++ [x] -> is_uni_ws x = false.

Lemma tight_of s : s <> [] -> starts_ok s -> ends_ok s -> tight s.
Proof.
  intros H1 H2 H3. split; [easy|]. unfold trim. rewrite trim_start_id by exact H2.
  unfold trim_end. rewrite trim_start_id; [apply rev_involutive|].
  destruct (rev s) as [|x u] eqn:E; [easy|]. apply (H3 (rev u)).
  rewrite <- (rev_involutive s), E. reflexivity.
Qed.

Lemma tight_starts s : tight s -> starts_ok s.
Proof. intros [_ H]. destruct s; [easy|]. now apply trim_id_head in H. Qed.
Lemma tight_ends s : tight s -> ends_ok s.
Proof. intros [_ H] u x ->. now apply trim_id_last in H. Qed.

Lemma ends_ok_app a b : b <> [] -> ends_ok b -> ends_ok (a ++ b).
Proof.
  intros Hb H u x E. destruct b as [|y b] using rev_ind; [easy|].
  rewrite app_assoc in E. apply app_inj_tail in E as [_ ->]. now apply (H b).
Qed.

Lemma ends_ok_drop a b : b <> [] -> ends_ok (a ++ b) -> ends_ok b.
Proof. intros Hb H u x ->. apply (H (a ++ u)). now rewrite app_assoc. Qed.

Lemma starts_ok_app a b : a <> [] -> starts_ok a -> starts_ok (a ++ b).
Proof. now destruct a. Qed.

Section Replace.
Variable r : str.
Hypothesis Hr : r <> [] /\ starts_ok r /\ ends_ok r.

Lemma replace_char_tight s : tight s -> tight (replace_char (ch "&") r s).
Proof.
  intros T. destruct Hr as (R1 & R2 & R3).
  assert (K : forall s, s <> [] -> ends_ok s -> replace_char (ch "&") r s <> [] /\ ends_ok (replace_char (ch "&") r s)).
  { clear s T. induction s as [|c s IH]; [easy|]. intros _ E. unfold replace_char in *. cbn [flat_map].
    assert (X : (if char_eqb c (ch "&") then r else [c]) <> []) by (destruct (char_eqb c (ch "&")); easy).
    split; [intros E'; now apply app_eq_nil in E' as [E' _]|]. destruct s as [|d s].
    - cbn [flat_map]. rewrite app_nil_r. destruct (char_eqb c (ch "&")); easy.
    - destruct IH as [I1 I2]; [easy|now apply (ends_ok_drop [c]) in E|]. now apply ends_ok_app. }
  destruct (K s (proj1 T) (tight_ends _ T)) as [K1 K2]. apply tight_of; auto.
  destruct s as [|c s]; [easy|]. unfold replace_char. cbn [flat_map]. apply tight_starts in T. cbn in T.
  apply starts_ok_app; destruct (char_eqb c (ch "&")); easy.
Qed.

Lemma replace_str_ends s : s <> [] -> ends_ok s ->
  replace_str (lit ":root") r s <> [] /\ ends_ok (replace_str (lit ":root") r s).
Proof.
  destruct Hr as (R1 & _ & R3).
  induction s as [|b IH|c s E IH] using replace_root_ind; [easy| |]; intros _ En.
  - rewrite replace_str_match. split; [intros E'; now apply app_eq_nil in E' as [E' _]|].
    destruct b as [|x b]; [now rewrite app_nil_r|].
    apply (ends_ok_drop _ (x :: b)) in En; [|easy]. destruct IH as [I1 I2]; auto; [easy|]. now apply ends_ok_app.
  - rewrite replace_str_other by easy. split; [easy|]. destruct s as [|d s]; [exact En|].
    apply (ends_ok_drop [c]) in En; [|easy]. destruct IH as [I1 I2]; auto; [easy|]. now apply (ends_ok_app [c]).
Qed.

Lemma replace_str_tight s : tight s -> tight (replace_str (lit ":root") r s).
Proof.
  intros T. destruct (replace_str_ends s (proj1 T) (tight_ends _ T)) as [K1 K2].
  apply tight_of; auto. apply tight_starts in T. destruct Hr as (R1 & R2 & R3). clear K1 K2.
  destruct s as [|b _|c s E _] using replace_root_ind; [easy| |].
  - rewrite replace_str_match. now apply starts_ok_app.
  - now rewrite replace_str_other.
Qed.
End Replace.

Lemma self_good class : good_class class ->
  (self_selector class <> [] /\ starts_ok (self_selector class) /\ ends_ok (self_selector class))
  /\ Forall dull (self_selector class) /\ ~ In (ch "&") (self_selector class).
Proof.
  destruct class as [c|]; cbn [good_class self_selector].
  - intros [Hc F]. split; [split; [easy|split; [easy|]]|split].
    + intros u x E. destruct c as [|y c] using rev_ind; [easy|].
      rewrite app_assoc in E. apply app_inj_tail in E as [_ ->].
      apply Forall_app in F as [_ F]. now inversion_clear F as [|? ? [_ ?] _].
    + apply Forall_app. split; [repeat constructor; intros H; cbn in H; intuition discriminate|].
      eapply Forall_impl; [|exact F]. intros x [H _] K. apply H. unfold dull in *. cbn in *. intuition.
    + intros [K|K]%in_app_or; [cbn in K; intuition discriminate|].
      rewrite Forall_forall in F. apply F in K as [K _]. apply K. cbn. auto 20.
  - intros _. split; [split; [easy|split; [easy|]]|split].
    + intros u x E. change (lit ":root") with (lit ":roo" ++ lit "t") in E.
      apply app_inj_tail in E as [_ <-]. reflexivity.
    + apply root_dull.
    + cbn. intuition discriminate.
Qed.

Lemma replace_char_gone r s : ~ In (ch "&") r -> ~ In (ch "&") (replace_char (ch "&") r s).
Proof.
  intros H K. unfold replace_char in K. apply in_flat_map in K as (x & _ & K).
  destruct (char_eqb x (ch "&")) eqn:E; [easy|]. destruct K as [->|[]]. now rewrite char_eqb_refl in E.
Qed.

Lemma replace_str_gone r s : ~ In (ch "&") r -> ~ In (ch "&") s -> ~ In (ch "&") (replace_str (lit ":root") r s).
Proof.
  intros Hr. induction s as [|b IH|c s E IH] using replace_root_ind; intros H; [easy| |].
  - rewrite replace_str_match. intros [K|K]%in_app_or; [easy|]. apply IH; [|easy].
    intros L. apply H. apply in_or_app. now right.
  - rewrite replace_str_other by easy. intros [K|K]; [apply H; now left|]. apply IH; [|easy].
    intros L. apply H. now right.
Qed.

Lemma scoped_good class s : good_class class -> good_selector s ->
  sel_text (scoped class s) /\ tight (scoped class s) /\ ~ In (ch "&") (scoped class s).
Proof.
  intros Hc [Hs Ht]. destruct (self_good class Hc) as (R & F & N).
  unfold scoped. destruct class as [c|]; cbn [self_selector] in *.
  - destruct (contains_char (ch "&") s || contains_str (lit ":root") s) eqn:E.
    + splits.
      * apply scan_sel_text. rewrite scan_replace_str, scan_replace_char; auto; apply R || discriminate.
      * apply replace_str_tight; [easy|]. now apply replace_char_tight.
      * apply replace_str_gone; [easy|]. now apply replace_char_gone.
    + apply orb_false_elim in E as [E _].
      assert (Ns : ~ In (ch "&") s) by (intros K; apply contains_char_spec in K; congruence).
      destruct (starts_with (lit ":") s).
      * rewrite app_assoc. splits.
        -- apply scan_sel_text. rewrite sel_scan_app, (dull_run SOut) by (easy || apply R). exact Hs.
        -- apply tight_of; [easy|easy|]. apply ends_ok_app; [apply Ht|now apply tight_ends].
        -- intros [K|K]%in_app_or; easy.
      * replace (lit "." ++ c ++ lit " " ++ s) with ((lit "." ++ c) ++ lit " " ++ s) by now rewrite <- app_assoc.
        splits.
        -- apply scan_sel_text. rewrite sel_scan_app, (dull_run SOut) by (easy || apply R). exact Hs.
        -- apply tight_of; [easy|easy|]. rewrite app_assoc. apply ends_ok_app; [apply Ht|now apply tight_ends].
        -- intros [K|[K|K]]%in_app_or; easy.
  - splits.
    + apply scan_sel_text. rewrite scan_replace_char; auto; apply R || discriminate.
    + now apply replace_char_tight.
    + now apply replace_char_gone.
Qed.

Lemma good_selectors_block class outer sels : good_class class ->
  (forall s, outer = Some s -> good_selectors s) ->
  Forall (fun s => good_selector (List.concat s)) sels -> good_selectors (block_sel class outer sels).
Proof.
  intros Hc Ho F. unfold block_sel. destruct sels as [|s sels].
  - destruct outer as [o|]; [now apply Ho|].
    destruct (self_good class Hc) as (R & D & N). exists [self_selector class]. split; [easy|].
    split; [|easy]. constructor; [|constructor]. splits; [|apply tight_of; apply R|easy].
    apply scan_sel_text. rewrite dull_run; [easy|easy|apply R|discriminate].
  - exists (map (fun s => scoped class (List.concat s)) (s :: sels)). split; [easy|]. split; [|easy].
    apply Forall_map. eapply Forall_impl; [|exact F]. intros. now apply scoped_good.
Qed.

(** ** Good sheets have legal paths *)

Lemma block_content_ok class c : good_class class -> good_block_content c -> forall rules sel,
  reach rules Top -> good_selectors sel ->
  paths_ok legal class rules (Some sel) c
  /\ kf_ok class rules (Some sel) c
  /\ (forall q k v, In (IDecl q k v) (decls_of class rules (Some sel) c) -> legal_decl q /\ good_kv k v).
Proof.
  intros Hc.
  induction c as [a|cond content IH|cond content IH| |c l IHc IHl] using rbc_ind2 with
    (Q := fun l => Forall good_block_content l -> forall rules sel, reach rules Top -> good_selectors sel ->
          Forall (paths_ok legal class rules (Some sel)) l
          /\ Forall (kf_ok class rules (Some sel)) l
          /\ (forall q k v, In (IDecl q k v) (flat_map (decls_of class rules (Some sel)) l) -> legal_decl q /\ good_kv k v)).
  - intros G rules sel Hr Hs. inversion_clear G as [? G'| |]. destruct G' as (G1 & G2 & G3 & G4). split; [exact I|]. split; [exact I|].
    intros q k v [[= <- <- <-]|[]]. split; [|exact (conj G1 (conj G2 (conj G3 G4)))]. left. eapply reach_snoc; [exact Hr|]. now constructor.
  - intros G rules sel Hr Hs. inversion_clear G as [|? ? G1 G2|].
    assert (Hr' : reach (rules ++ [List.concat cond]) Top) by (eapply reach_snoc; [exact Hr|now constructor]).
    destruct (IH G2 _ _ Hr' Hs) as (I1 & I2 & I3). split; [|split].
    + split; [|now apply all_Forall]. exists Leaf. eapply reach_snoc; [exact Hr'|now constructor].
    + split; [|now apply all_Forall]. rewrite at_not_kf by easy. discriminate.
    + exact I3.
  - intros G rules sel Hr Hs. inversion_clear G as [| |? ? G1 G2].
    assert (Hb : good_selectors (block_sel class (Some sel) cond)).
    { apply good_selectors_block; auto. now intros s [= <-]. }
    destruct (IH G2 _ _ Hr Hb) as (I1 & I2 & I3). split; [|split].
    + split; [|now apply all_Forall]. exists Leaf. eapply reach_snoc; [exact Hr|now constructor].
    + now apply all_Forall.
    + exact I3.
  - intros _ rules sel _ _. repeat split; try constructor; easy.
  - intros G rules sel Hr Hs. inversion_clear G as [|? ? G1 G2].
    destruct (IHc G1 _ _ Hr Hs) as (A1 & A2 & A3). destruct (IHl G2 _ _ Hr Hs) as (B1 & B2 & B3).
    split; [now constructor|]. split; [now constructor|].
    intros q k v K. cbn [flat_map] in K. apply in_app_or in K as [K|K]; eauto.
Qed.

Lemma block_contents_ok class l : good_class class -> Forall good_block_content l -> forall rules sel,
  reach rules Top -> good_selectors sel ->
  Forall (paths_ok legal class rules (Some sel)) l
  /\ Forall (kf_ok class rules (Some sel)) l
  /\ (forall q k v, In (IDecl q k v) (flat_map (decls_of class rules (Some sel)) l) -> legal_decl q /\ good_kv k v).
Proof.
  intros Hc G rules sel Hr Hs. induction G as [|c l G1 G IH].
  - repeat split; try constructor; easy.
  - destruct (block_content_ok class c Hc G1 _ _ Hr Hs) as (A1 & A2 & A3). destruct IH as (B1 & B2 & B3).
    split; [now constructor|]. split; [now constructor|].
    intros q k v K. cbn [flat_map] in K. apply in_app_or in K as [K|K]; eauto.
Qed.

Lemma frame_content_ok class c : good_frame_content c -> forall rules, reach rules Inner ->
  paths_ok legal class rules None c
  /\ kf_ok class rules None c
  /\ (forall q k v, In (IDecl q k v) (decls_of class rules None c) -> legal_decl q /\ good_kv k v).
Proof.
  induction c as [a|cond content IH|cond content IH| |c l IHc IHl] using rbc_ind2 with
    (Q := fun l => Forall good_frame_content l -> forall rules, reach rules Inner ->
          Forall (paths_ok legal class rules None) l
          /\ Forall (kf_ok class rules None) l
          /\ (forall q k v, In (IDecl q k v) (flat_map (decls_of class rules None) l) -> legal_decl q /\ good_kv k v)).
  - intros G rules Hr. inversion_clear G as [? G'|]. destruct G' as (G1 & G2 & G3 & G4). split; [exact I|]. split; [exact I|].
    intros q k v [[= <- <- <-]|[]]. split; [|exact (conj G1 (conj G2 (conj G3 G4)))]. right. cbn. now rewrite app_nil_r.
  - intros G rules Hr. inversion_clear G as [|? ? G1 G2].
    assert (Hr' : reach (rules ++ [List.concat cond]) Inner) by (eapply reach_snoc; [exact Hr|now constructor]).
    destruct (IH G2 _ Hr') as (I1 & I2 & I3). split; [|split].
    + split; [|now apply all_Forall]. exists Inner. cbn [opt_list]. now rewrite app_nil_r.
    + split; [|now apply all_Forall]. rewrite at_not_kf by easy. discriminate.
    + exact I3.
  - intros G. inversion G.
  - intros _ rules _. repeat split; try constructor; easy.
  - intros G rules Hr. inversion_clear G as [|? ? G1 G2].
    destruct (IHc G1 _ Hr) as (A1 & A2 & A3). destruct (IHl G2 _ Hr) as (B1 & B2 & B3).
    split; [now constructor|]. split; [now constructor|].
    intros q k v K. cbn [flat_map] in K. apply in_app_or in K as [K|K]; eauto.
Qed.

Lemma frame_not_kf c : good_frame_condition c -> starts_with (lit "@keyframes") c = false.
Proof.
  intros ((l & Hl) & Ht & _). destruct c as [|x c]; [now destruct Ht|].
  assert (N : x <> ch "@").
  { intros ->. assert (Hw : forall w, blank w -> forall y, w = ch "@" :: y -> False).
    { intros w B y ->. inversion B as [|? ? H|]. cbn in H. intuition discriminate. }
    assert (K : forall w s rest, blank w -> sel_text s -> tight s -> w ++ s ++ rest = ch "@" :: c ++ lit " " -> False).
    { intros w s rest B S T E. destruct w as [|y w].
      - destruct s as [|z s]; [now destruct T|]. cbn in E. injection E as -> _.
        inversion S as [|? ? M|? ? M|? ? A _ E'].
        + apply M. cbn. auto 10.
        + destruct (atom_head _ A) as (z & r & -> & [->| ->]); discriminate.
      - cbn in E. injection E as -> _. eapply Hw; eauto. }
    inversion Hl as [w s v B S T V E|w s v t l' B S T V W E]; eapply K; eauto. }
  destruct (starts_with (lit "@keyframes") (x :: c)) eqn:E; [|easy].
  exfalso. apply N. apply starts_with_spec in E as [t E]. now injection E.
Qed.

Lemma silent_decls class c : good_frame_content c -> forall rules sel,
  decls_of class rules sel c = [] -> silent c = true.
Proof.
  induction c as [a|cond content IH|cond content IH| |c l IHc IHl] using rbc_ind2 with
    (Q := fun l => Forall good_frame_content l -> forall rules sel,
          flat_map (decls_of class rules sel) l = [] -> forallb silent l = true); intros G rules sel H.
  - easy.
  - inversion_clear G as [|? ? G1 G2]. cbn [silent]. rewrite at_not_kf by easy. cbn. eapply IH; eauto.
  - inversion G.
  - easy.
  - inversion_clear G as [|? ? G1 G2]. cbn [flat_map] in H. apply app_eq_nil in H as [H1 H2]. cbn.
    erewrite IHc, IHl by eauto. easy.
Qed.

Lemma frames_ok class l : Forall good_frame l -> forall rules, reach rules Frames ->
  Forall (paths_ok legal class rules None) l
  /\ Forall (kf_ok class rules None) l
  /\ (forall q k v, In (IDecl q k v) (flat_map (decls_of class rules None) l) -> legal_decl q /\ good_kv k v)
  /\ (flat_map (decls_of class rules None) l = [] -> forallb silent l = true).
Proof.
  intros G rules Hr. induction G as [|c l G1 G IH].
  - repeat split; try constructor; easy.
  - destruct IH as (B1 & B2 & B3 & B4). destruct G1 as [cond content G1 G2].
    assert (Hr' : reach (rules ++ [List.concat cond]) Inner) by (eapply reach_snoc; [exact Hr|now constructor]).
    assert (A : Forall (paths_ok legal class (rules ++ [List.concat cond]) None) content
          /\ Forall (kf_ok class (rules ++ [List.concat cond]) None) content
          /\ (forall q k v, In (IDecl q k v) (flat_map (decls_of class (rules ++ [List.concat cond]) None) content) -> legal_decl q /\ good_kv k v)
          /\ (flat_map (decls_of class (rules ++ [List.concat cond]) None) content = [] -> forallb silent content = true)).
    { clear - G2 Hr'. induction G2 as [|c l G1 G IH]; [repeat split; try constructor; easy|].
      destruct (frame_content_ok class c G1 _ Hr') as (A1 & A2 & A3). destruct IH as (B1 & B2 & B3 & B4).
      split; [now constructor|]. split; [now constructor|]. split.
      - intros q k v K. cbn [flat_map] in K. apply in_app_or in K as [K|K]; eauto.
      - cbn [flat_map forallb]. intros [E1 E2]%app_eq_nil. rewrite B4 by easy.
        erewrite silent_decls by eauto. easy. }
    destruct A as (A1 & A2 & A3 & A4).
    split; [constructor; [|easy]|split; [constructor; [|easy]|split]].
    + split; [|now apply all_Forall]. exists Inner. cbn [opt_list]. now rewrite app_nil_r.
    + split; [|now apply all_Forall]. rewrite frame_not_kf by easy. discriminate.
    + intros q k v K. cbn [flat_map decls_of] in K. apply in_app_or in K as [K|K]; eauto.
    + cbn [flat_map decls_of forallb]. intros [E1 E2]%app_eq_nil. rewrite B4 by easy.
      cbn [silent]. rewrite frame_not_kf by easy. now rewrite A4.
Qed.

Lemma top_ok class c : good_class class -> good_top c -> forall rules, reach rules Top ->
  paths_ok legal class rules None c
  /\ kf_ok class rules None c
  /\ (forall q k v, In (IDecl q k v) (decls_of class rules None c) -> legal_decl q /\ good_kv k v).
Proof.
  intros Hc.
  induction c as [a|cond content IH|cond content IH| |c l IHc IHl] using rbc_ind2 with
    (Q := fun l => Forall good_top l -> forall rules, reach rules Top ->
          Forall (paths_ok legal class rules None) l
          /\ Forall (kf_ok class rules None) l
          /\ (forall q k v, In (IDecl q k v) (flat_map (decls_of class rules None) l) -> legal_decl q /\ good_kv k v)).
  - intros G. inversion G.
  - intros G rules Hr. inversion_clear G as [|? ? G1 G2|? ? G1 G2 G3].
    + assert (Hr' : reach (rules ++ [List.concat cond]) Top) by (eapply reach_snoc; [exact Hr|now constructor]).
      destruct (IH G2 _ Hr') as (I1 & I2 & I3). split; [|split].
      * split; [|now apply all_Forall]. exists Top. cbn [opt_list]. now rewrite app_nil_r.
      * split; [|now apply all_Forall]. rewrite at_not_kf by easy. discriminate.
      * exact I3.
    + assert (Hr' : reach (rules ++ [List.concat cond]) Frames) by (eapply reach_snoc; [exact Hr|now constructor]).
      destruct (frames_ok class _ G2 _ Hr') as (I1 & I2 & I3 & I4). split; [|split].
      * split; [|now apply all_Forall]. exists Frames. cbn [opt_list]. now rewrite app_nil_r.
      * split; [|now apply all_Forall]. intros _. split; [easy|]. intros E. apply I4 in E. congruence.
      * exact I3.
  - intros G rules Hr. inversion_clear G as [? ? G1 G2| |].
    assert (Hb : good_selectors (block_sel class None cond)) by now apply good_selectors_block.
    destruct (block_contents_ok class content Hc G2 _ _ Hr Hb) as (I1 & I2 & I3). split; [|split].
    + split; [|now apply all_Forall]. exists Leaf. eapply reach_snoc; [exact Hr|now constructor].
    + now apply all_Forall.
    + exact I3.
  - intros _ rules _. repeat split; try constructor; easy.
  - intros G rules Hr. inversion_clear G as [|? ? G1 G2].
    destruct (IHc G1 _ Hr) as (A1 & A2 & A3). destruct (IHl G2 _ Hr) as (B1 & B2 & B3).
    split; [now constructor|]. split; [now constructor|].
    intros q k v K. cbn [flat_map] in K. apply in_app_or in K as [K|K]; eauto.
Qed.

Lemma any_pieces class s : sheet_pieces_ok (fun _ => True) (fun _ _ => True) class s.
Proof.
  unfold sheet_pieces_ok. apply Forall_forall. intros c _. generalize (@None str) as sel.
  generalize (rbc_of_scope c) as d.
  intros d. induction d as [a|cond content IH|cond content IH| |c' l IHc IHl] using rbc_ind2 with
    (Q := fun l => forall sel, Forall (pieces_ok (fun _ => True) (fun _ _ => True) class sel) l); intros sel.
  - exact I.
  - split; [exact I|]. now apply all_Forall.
  - split; [exact I|]. now apply all_Forall.
  - constructor.
  - constructor; auto.
Qed.

(** C13 *)
Lemma rendered_reparses class s : good_class class -> good_sheet s ->
  exists s', parse (to_style_str class s) = Parsed s' /\ sheet_decls None s' = sheet_decls class s.
Proof.
  intros Hc Hs.
  assert (A : sheet_paths_ok legal class s
              /\ Forall (fun c => kf_ok class [] None (rbc_of_scope c)) s
              /\ forall q k v, In (IDecl q k v) (sheet_decls class s) -> legal_decl q /\ good_kv k v).
  { unfold good_sheet, sheet_paths_ok, sheet_decls in *. induction Hs as [|c s H Hs IH].
    - repeat split; try constructor; easy.
    - destruct (top_ok class _ Hc H [] reach_nil) as (A1 & A2 & A3). destruct IH as (B1 & B2 & B3).
      split; [now constructor|]. split; [now constructor|].
      intros q k v K. cbn [flat_map] in K. apply in_app_or in K as [K|K]; eauto. }
  destruct A as (A1 & A2 & A3).
  destruct (to_style_str_emits_in (fun _ => True) (fun _ _ => True) legal legal_prefix class s)
    as (items & (ls & L1 & L2 & _ & L3) & E & _ & N); [apply any_pieces|exists Top; constructor|exact A1|].
  rewrite L1, <- E. apply lines_parse; auto.
  - rewrite Forall_forall in L3. intros q K. exact (L3 _ K).
  - intros q k v K. apply A3. rewrite <- E. apply filter_In. now split.
Qed.
