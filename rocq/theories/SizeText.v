(** * SizeText: a sheet is not bigger than the text it was read from; and deep sheets are written
    with cubic size. *)

From Coq Require Import String Ascii List NArith Bool Arith Lia.
From Verif Require Import Str StrFacts Ast Nom CssParser Render SpecSays SpecSize SizeFacts ParserTotal.
Import ListNotations.
Local Open Scope list_scope.

Local Notation len := (@List.length _).

(** ** Reading *)
Definition size (c : rbc) : nat := items c + text_size c.
Definition sizes (l : list rbc) : nat := sum (map items l) + sum (map text_size l).

Lemma sizes_cons c l : sizes (c :: l) = size c + sizes l.
Proof. unfold sizes, size. cbn [map sum]. lia. Qed.
Lemma sizes_app a b : sizes (a ++ b) = sizes a + sizes b.
Proof. unfold sizes. rewrite !map_app, !sum_app. lia. Qed.
Lemma trim_start_len s : len (trim_start s) <= len s.
Proof. induction s as [|c s IH]; cbn; [lia|]. destruct (is_uni_ws c); cbn; lia. Qed.
Lemma trim_len s : len (trim s) <= len s.
Proof.
  unfold trim, trim_end. rewrite rev_length. etransitivity; [apply trim_start_len|]. rewrite rev_length. apply trim_start_len.
Qed.
Lemma padded_len {A} (R : str -> A -> Prop) (m : A -> nat) t a :
  (forall u, R u a -> m a <= len u) -> padded R t a -> m a <= len t.
Proof. intros H (w & u & w' & -> & _ & _ & Hu). specialize (H u Hu). rewrite !app_length. lia. Qed.
Lemma pieces_len (P : str -> Prop) t : (forall u, P u -> 1 <= len u) -> pieces P t -> 1 <= len t.
Proof.
  intros H (l & N & F & ->). destruct F as [|x l Px _]; [congruence|]. cbn [concat]. rewrite app_length. specialize (H x Px). lia.
Qed.
Lemma around_len (P : str -> Prop) t : (forall u, P u -> 1 <= len u) -> blank_around P t -> 1 <= len t.
Proof. intros H (w & u & w' & -> & _ & _ & Hu). specialize (H u Hu). rewrite !app_length. lia. Qed.
Lemma string_len t : string_text t -> 1 <= len t.
Proof. intros (b & -> & _). cbn. lia. Qed.
Lemma interp_len t : interp_text t -> 1 <= len t.
Proof. intros (w & n & w' & -> & _). cbn. lia. Qed.
Lemma run_len f t : run_of f t -> 1 <= len t.
Proof. intros [N _]. destruct t; [congruence|cbn; lia]. Qed.
Lemma value_piece_len t : value_piece t -> 1 <= len t.
Proof.
  intros [H|[H|[H|(c & -> & _)]]]; [now apply run_len in H|apply around_len in H; auto using string_len|apply around_len in H; auto using interp_len|cbn; lia].
Qed.
Lemma selector_piece_len t : selector_piece t -> 1 <= len t.
Proof. intros [(c & r & -> & _)|[H|H]]; [cbn; lia|apply around_len in H; auto using string_len|apply around_len in H; auto using interp_len]. Qed.

Lemma decl_len t a : decl_text t a -> size (CAttr a) + 1 <= 2 * len t.
Proof.
  intros (kt & k & vt & v & -> & Hk & Hv & ->). unfold size, chars. cbn [items text_size a_key a_value concat]. unfold chars. cbn [concat]. rewrite app_nil_r.
  apply (padded_len _ (@List.length _)) in Hk; [|now intros u [-> _]].
  apply (padded_len _ (@List.length _)) in Hv; [|now intros u [-> _]].
  pose proof (trim_len k). pose proof (trim_len v). rewrite !app_length. change (len (lit ":")) with 1. lia.
Qed.
Lemma padded_decl_len t a : padded decl_text t a -> size (CAttr a) + 1 <= 2 * len t.
Proof. intros (w & u & w' & -> & _ & _ & H). apply decl_len in H. rewrite !app_length. lia. Qed.
Lemma decls_len f t l : says_decls f t l -> sizes (map CAttr l) + 1 <= 2 * len t.
Proof.
  induction 1 as [t a _ H|t a w H _|t a t' l H _ IH]; cbn [map]; rewrite sizes_cons; apply padded_decl_len in H; rewrite ?app_length;
    change (sizes []) with 0; lia.
Qed.
Lemma selector_text_len t s : selector_text t s -> 2 + chars s <= 2 * len t + 1 /\ 1 <= len t.
Proof.
  intros (u & H & ->). unfold chars. cbn [concat]. rewrite app_nil_r. pose proof (trim_len u).
  assert (H1 : 1 <= len t) by (destruct H as (w & x & w' & -> & _ & _ & [-> Hp]); apply pieces_len in Hp; [|apply selector_piece_len]; rewrite !app_length; lia).
  apply (padded_len _ (@List.length _)) in H; [|now intros x [-> _]]. lia.
Qed.
Lemma selector_list_len t l : selector_list t l -> sum (map (fun s => 1 + chars s) l) <= 2 * len t.
Proof.
  intros [_ (w & u & w' & -> & _ & _ & H)]. assert (sum (map (fun s => 1 + chars s) l) <= 2 * len u).
  { induction H as [|x s y l (u' & cm & -> & H & _) _ IH]; cbn [map sum]; [lia|]. apply selector_text_len in H as [H _]. rewrite !app_length. lia. }
  rewrite !app_length. lia.
Qed.
Lemma at_text_len names t cond : at_text names t cond -> chars cond <= len t.
Proof.
  intros (w & n & c & w' & -> & _ & _ & _ & _ & ->). unfold chars. cbn [concat]. rewrite !app_length. pose proof (trim_len c). cbn [List.length]. lia.
Qed.
Lemma content_len t c : says_content t c -> sizes c <= 2 * len t.
Proof.
  induction 1 as [w _|t l t' c H _ IH|w t cond body content w' t' c _ H _ IH1 _ _ IH2].
  - unfold sizes. cbn. lia.
  - apply decls_len in H. rewrite sizes_app, app_length. lia.
  - apply at_text_len in H. rewrite sizes_cons. unfold size, sizes in *. cbn [items text_size]. rewrite !app_length. cbn [List.length lit]. 
    change (len (lit "{")) with 1. change (len (lit "}")) with 1. lia.
Qed.
Lemma frame_len t r : frame_text t r -> size r <= 2 * len t.
Proof.
  intros (w & ct & body & content & w' & -> & _ & _ & _ & H & ->). apply content_len in H. unfold size, sizes, chars in *. cbn [items text_size]. unfold chars. cbn [concat].
  rewrite app_nil_r, !app_length. pose proof (trim_len ct). change (len (lit "{")) with 1. change (len (lit "}")) with 1. lia.
Qed.
Lemma frames_len t l : star frame_text t l -> sizes l <= 2 * len t.
Proof. induction 1 as [|t r t' l H _ IH]; [unfold sizes; cbn; lia|]. apply frame_len in H. rewrite sizes_cons, app_length. lia. Qed.
Lemma scope_len t c : says_scope t c -> sizes (map rbc_of_scope c) <= 2 * len t.
Proof.
  induction 1 as [w _|t l t' c H _ IH|w t sels body content w' t' c _ H Hc _ _ IH|w t cond body content w' t' c _ H _ IH1 _ _ IH2|
    w t cond body frames w' t' c _ H Hf _ _ IH]; cbn [map rbc_of_scope].
  - unfold sizes. cbn. lia.
  - apply decls_len in H. rewrite sizes_cons, app_length. unfold size, sizes in *. cbn [items text_size map sum]. lia.
  - apply selector_list_len in H. apply content_len in Hc. rewrite sizes_cons. unfold size, sizes in *. cbn [items text_size]. rewrite !app_length.
    change (len (lit "{")) with 1. change (len (lit "}")) with 1. lia.
  - apply at_text_len in H. rewrite sizes_cons. unfold size, sizes in *. cbn [items text_size]. rewrite !app_length.
    change (len (lit "{")) with 1. change (len (lit "}")) with 1. lia.
  - apply at_text_len in H. apply frames_len in Hf. rewrite sizes_cons. unfold size, sizes in *. cbn [items text_size]. rewrite !app_length.
    change (len (lit "{")) with 1. change (len (lit "}")) with 1. lia.
Qed.

Lemma parsed_size css s : parse css = Parsed s -> sheet_items s + sheet_text s <= 2 * len css.
Proof. intros H. apply parse_sound, scope_len in H. exact H. Qed.

Lemma depth_items c : rule_depth c <= items c.
Proof.
  induction c as [a|cond content IH|cond content IH| |c l IHc IHl] using rbc_ind2 with (Q := fun l => most (map rule_depth l) <= sum (map items l));
    cbn [rule_depth items map most sum]; lia.
Qed.
Lemma sheet_nesting_items s : sheet_nesting s <= sheet_items s.
Proof.
  unfold sheet_nesting, sheet_items. induction (map rbc_of_scope s) as [|c l IH]; cbn [map most sum]; [lia|]. pose proof (depth_items c). lia.
Qed.

(** ** Sheets that are written with cubic size: every level has a declaration, and is opened with all the conditions around it *)
Fixpoint nest (k : nat) : list rbc :=
  match k with
  | O => []
  | S k => [CAttr (mk_attr (lit "x") [lit "y"]); CRule [lit "@media a"] (nest k)]
  end.
Definition deep (k : nat) : sheet := [SBlock [[lit "b"]] (nest k)].

Definition closed (ps : chain) : Prop := Forall (fun f => f_open f = false) ps.

Lemma closed_until self ps : closed ps -> close_until_common_parent self ps = (ps, []).
Proof. induction 1 as [|m ps E H IH]; cbn [close_until_common_parent]; auto. now rewrite E, IH. Qed.
Lemma closed_parent ps : closed ps -> parent_conditions ps = [].
Proof. unfold parent_conditions. induction 1 as [|m ps E H IH]; cbn [open_parent]; auto. now rewrite E. Qed.
Lemma open_lines_ge mp : forall conds i, 2 * len conds * len conds <= 2 * len conds + len (open_lines mp i conds).
Proof.
  assert (H : forall conds i, 4 * i * len conds + 2 * len conds * len conds <= 2 * len conds + len (open_lines mp i conds)).
  { induction conds as [|c conds IH]; intros i; cbn [open_lines List.length]; [lia|]. rewrite !app_length, !padding_len. specialize (IH (S i)). nia. }
  intros conds i. specialize (H conds i). lia.
Qed.
Lemma count_prefix a b c d : count_equal (a ++ [b]) (a ++ [c; d]) = len a + (if str_eqb b c then 1 else 0).
Proof.
  induction a as [|x a IH]; [cbn; destruct (str_eqb b c); reflexivity|]. cbn [List.app count_equal List.length]. rewrite IH.
  assert (str_eqb x x = true) as -> by (now apply str_eqb_eq). lia.
Qed.

(** A context about to be opened below one that is open *)
Definition ready (s : str) (self : frame) (ps : chain) : Prop :=
  f_open self = false /\ f_sel self = Some s /\
  (closed ps \/ exists m ps0, ps = m :: ps0 /\ closed ps0 /\ f_open m = true /\ f_sel m = Some s
                              /\ f_rules self = f_rules m ++ [lit "@media a"]).

Lemma start_ready s self ps : s <> lit "@media a" -> ready s self ps ->
  exists ps' w, start self ps = (set_open true self, ps', w) /\ closed ps'
    /\ 2 * (len (f_rules self) + 1) * len (f_rules self) <= len w.
Proof.
  intros Ns (O & Es & H). unfold start. rewrite O.
  assert (E : exists ps' w, close_until_common_parent self ps = (ps', w) /\ closed ps').
  { destruct H as [H|(m & ps0 & -> & C & Om & Em & Er)]; [rewrite closed_until; eauto|].
    cbn [close_until_common_parent]. rewrite Om, closed_until by auto.
    assert (D : differ_conditions self (m :: ps0) = [s]).
    { unfold differ_conditions, common_count, parent_conditions. cbn [open_parent]. rewrite Om. unfold conditions. rewrite Em, Es, Er, <- app_assoc.
      cbn [List.app]. rewrite count_prefix. destruct (str_eqb s (lit "@media a")) eqn:X; [apply str_eqb_eq in X; contradiction|].
      rewrite Nat.add_0_r, skipn_app, skipn_all, Nat.sub_diag. reflexivity. }
    rewrite D. unfold finish. do 2 eexists. split; [reflexivity|]. constructor; auto. }
  destruct E as (ps' & w & -> & C). do 2 eexists. split; [reflexivity|]. split; auto.
  unfold unique_conditions, common_count. rewrite (closed_parent _ C). cbn [count_equal skipn]. rewrite app_length.
  pose proof (open_lines_ge 0 (conditions self) 0) as L. assert (E : len (conditions self) = len (f_rules self) + 1).
  { unfold conditions. rewrite Es, app_length. reflexivity. } rewrite E in L. lia.
Qed.

Fixpoint levels (k r : nat) : nat := match k with O => 0 | S k => 2 * (r + 1) * r + levels k (S r) end.
Lemma levels_cube k : forall r, 3 * levels k r + 2 * (r * r * r) + 2 * (r + k) = 2 * ((r + k) * (r + k) * (r + k)) + 2 * r.
Proof.
  induction k as [|k IH]; intros r; cbn [levels]; [rewrite !Nat.add_0_r; lia|]. specialize (IH (S r)). replace (r + S k) with (S r + k) by lia. lia.
Qed.

Lemma nest_ge class s : s <> lit "@media a" -> forall k self ps, ready s self ps ->
  levels k (len (f_rules self)) <= len (snd (write_all (write_rbc class) (nest k) self ps)).
Proof.
  intros Ns. induction k as [|k IH]; intros self ps H; cbn [levels]; [lia|]. cbn [nest write_all write_rbc]. unfold write_attr.
  destruct (start_ready _ _ _ Ns H) as (ps' & w & -> & C & L). destruct H as (O & Es & _).
  set (f := with_rule_condition (set_open true self) _).
  assert (R : ready s f (set_open true self :: ps')).
  { repeat split; auto. right. do 2 eexists. repeat split; auto. }
  specialize (IH f (set_open true self :: ps') R).
  change (starts_with (lit "@keyframes") (concat [lit "@media a"])) with false. cbn [fst snd].
  fold (write_rbc class) in *. destruct (write_all (write_rbc class) (nest k) f (set_open true self :: ps')) as [[f1 p1] w1] eqn:E1.
  cbn [snd] in IH. assert (Lr : len (f_rules f) = S (len (f_rules self))) by (unfold f; cbn [with_rule_condition f_rules set_open]; rewrite app_length; cbn; lia).
  rewrite Lr in IH. destruct (finish f1 p1) as [f2 w2]. destruct p1; cbn [snd]; rewrite !app_length; lia.
Qed.

Lemma deep_ge class k : 2 * (k * k * k) <= 3 * len (to_style_str class (deep k)) + 2 * k.
Proof.
  pose proof (levels_cube k 0) as H. cbn [Nat.add Nat.mul] in H. unfold to_style_str, write_sheet, deep. cbn [map rbc_of_scope write_all write_rbc].
  set (f := with_block_condition class new_frame _).
  assert (R : exists s, s <> lit "@media a" /\ ready s f [new_frame]).
  { unfold f, with_block_condition, block_selector, cond_str. cbn [map join].
    exists (write_selector class [lit "b"]). split.
    - unfold write_selector. destruct class; cbn; discriminate.
    - repeat split. left. repeat constructor. }
  destruct R as (s & Ns & R). pose proof (nest_ge class s Ns k f _ R) as L. change (len (f_rules f)) with 0 in L.
  destruct (write_all (write_rbc class) (nest k) f [new_frame]) as [[f1 p1] w1]. cbn [snd] in L. destruct (finish f1 p1) as [f2 w2].
  destruct p1; rewrite !app_length; lia.
Qed.
Lemma deep_size k : sheet_items (deep k) = 2 * k + 1 /\ sheet_text (deep k) = 10 * k + 2 /\ sheet_nesting (deep k) = k.
Proof.
  assert (H : sum (map items (nest k)) = 2 * k /\ sum (map text_size (nest k)) = 10 * k /\ most (map rule_depth (nest k)) = k).
  { induction k as [|k (A & B & C)]; auto. cbn [nest map sum items text_size rule_depth most]. rewrite A, B, C.
    change (len (a_key (mk_attr (lit "x") [lit "y"]))) with 1. change (chars (a_value (mk_attr (lit "x") [lit "y"]))) with 1.
    change (chars [lit "@media a"]) with 8. lia. }
  destruct H as (A & B & C). unfold sheet_items, sheet_text, sheet_nesting, deep. cbn [map rbc_of_scope items text_size rule_depth sum most]. rewrite A, B, C.
  change (chars [lit "b"]) with 1. lia.
Qed.
