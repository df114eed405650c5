(** * PropsAttr: the attribute of styled components (C85). *)

From Coq Require Import String Ascii List NArith Bool Arith Lia.
From Verif Require Import Str StrFacts Tok Attr SpecScope.
Import ListNotations.
Local Open Scope list_scope.

(** ** Specification *)

(** The uses of a name of the attribute's own. *)
Definition own_uses (d : list event) : list event :=
  filter (fun e => match e with EUse (_, MixedSite) _ => true | _ => false end) d.
(** The only one is the manager, which is the first variable of that name. *)
Definition takes_manager (d : list event) : Prop := own_uses d = [EUse (mgr_name, MixedSite) (Some 0)].

(** An event in the function as written, and what has become of it. *)
Inductive becomes : event -> event -> Prop :=
| becomes_use n b : becomes (EUse n b) (EUse n b)
| becomes_call m d d' : Forall2 becomes d d' -> becomes (ECall m (Some d)) (ECall m (Some d'))
| becomes_other m : m <> lit "css" -> becomes (ECall m None) (ECall m None)
| becomes_css d : takes_manager d -> becomes (ECall (lit "css") None) (ECall (lit "css") (Some d)).

Definition calls_nothing (l : list event) : Prop := Forall (fun e => match e with ECall _ _ => False | _ => True end) l.

(** ** Proof *)
Fixpoint tok_ind' (P : rtok -> Prop) (Hi : forall s, P (RIdent s)) (Hp : forall c j, P (RPunct c j))
  (Hl : forall s, P (RLit s)) (Hg : forall d l, Forall P l -> P (RGroup d l)) (t : rtok) : P t :=
  match t with
  | RIdent s => Hi s
  | RPunct c j => Hp c j
  | RLit s => Hl s
  | RGroup d l => Hg d l ((fix go l : Forall P l :=
                             match l with [] => Forall_nil _ | t :: l' => Forall_cons _ (tok_ind' P Hi Hp Hl Hg t) (go l') end) l)
  end.

Lemma walk_group d l s : walk (HGroup d l) s = at_group s (walks l (enter s)).
Proof. reflexivity. Qed.

Lemma walks_app a b s : walks (a ++ b) s =
  let (s1, e1) := walks a s in let (s2, e2) := walks b s1 in (s2, e1 ++ e2).
Proof.
  revert s. induction a as [|t a IH]; intros s; cbn [List.app walks].
  - now destruct (walks b s).
  - destruct (walk t s) as [s1 es]. rewrite IH. destruct (walks a s1) as [s2 e2].
    destruct (walks b s2) as [s3 e3]. now rewrite app_assoc.
Qed.

Definition users (l : list hname) : Prop := Forall (fun n => snd n = CallSite) l.

Record like (s s' : scope) : Prop := {
  l_vars : forall n, snd n = CallSite -> lookup hname_eqb n (vars s') = lookup hname_eqb n (vars s);
  l_mgr : lookup hname_eqb (mgr_name, MixedSite) (vars s') = Some 0;
  l_macros : forall m, match lookup str_eqb m (macros s) with
             | Some d => exists d', lookup str_eqb m (macros s') = Some d' /\ Forall2 becomes d d'
             | None => if str_eqb m (lit "css") then exists d', lookup str_eqb m (macros s') = Some d' /\ takes_manager d'
                       else lookup str_eqb m (macros s') = None
             end;
  l_pending : pending s' = pending s;
  l_users : users (pending s);
  l_made : forall n, snd n = CallSite -> count n (made s') = count n (made s);
  l_before : before s' = before s }.

Lemma like_to s s' b : like s s' ->
  like (mk_scope (vars s) (macros s) (pending s) (made s) b) (mk_scope (vars s') (macros s') (pending s') (made s') b).
Proof. intros []. constructor; auto. Qed.

Lemma like_enter s s' : like s s' -> like (enter s) (enter s').
Proof. intros []. constructor; auto. constructor. Qed.

Lemma like_leave s s' i i' : like s s' -> like i i' -> like (leave_group s i) (leave_group s' i').
Proof. intros [] []. constructor; auto. Qed.

Lemma hname_eqb_eq a b : hname_eqb a b = true <-> a = b.
Proof.
  unfold hname_eqb. destruct a as [x h], b as [y k]. cbn [fst snd]. rewrite andb_true_iff, str_eqb_eq.
  split; [intros [-> H]; destruct h, k; try discriminate; reflexivity|].
  intros E. injection E as -> ->. split; [reflexivity|now destruct k].
Qed.

Lemma like_settle s s' : like s s' -> like (settle s) (settle s').
Proof.
  intros L. unfold settle. rewrite (l_pending _ _ L). pose proof (l_users _ _ L) as U.
  induction (pending s) as [|n l IH]; cbn [fold_right].
  - destruct L. constructor; auto; constructor.
  - inversion U as [|? ? Un Ul]; subst. specialize (IH Ul).
    destruct IH as [V M C P Us D B]. constructor; cbn [vars macros pending made before]; auto.
    + intros m Hm. cbn [lookup]. destruct (hname_eqb m n); [now rewrite D|now apply V].
    + cbn [lookup]. destruct (hname_eqb (mgr_name, MixedSite) n) eqn:E; [|exact M].
      apply hname_eqb_eq in E. subst n. discriminate Un.
    + constructor.
    + intros m Hm. unfold count in *. cbn [filter]. destruct (hname_eqb m n); cbn [List.length]; now rewrite D.
Qed.

Lemma like_ident n s s' : like s s' -> like (at_ident n CallSite s) (at_ident n CallSite s').
Proof.
  intros L. unfold at_ident. rewrite (l_before _ _ L). destruct (before s) eqn:Eb;
    repeat match goal with |- context [str_eqb ?a ?b] => destruct (str_eqb a b) end; try (now apply like_to); try exact L.
  destruct L. constructor; cbn; auto; [now f_equal|]. constructor; auto.
Qed.

Lemma like_punct c s s' : like s s' -> like (at_punct c s) (at_punct c s').
Proof.
  intros L. unfold at_punct. destruct (char_eqb c (ch ";")); [now apply like_settle|].
  rewrite (l_before _ _ L). destruct (before s); try (now apply like_to). destruct (char_eqb c (ch "!")); now apply like_to.
Qed.

Lemma like_call s s' m : like s s' ->
  becomes (ECall m (lookup str_eqb m (macros s))) (ECall m (lookup str_eqb m (macros s'))).
Proof.
  intros L. pose proof (l_macros _ _ L m) as H. destruct (lookup str_eqb m (macros s)) as [d|].
  - destruct H as (d' & -> & F). now constructor.
  - destruct (str_eqb m (lit "css")) eqn:E.
    + apply str_eqb_eq in E. subst m. destruct H as (d' & -> & F). now constructor.
    + rewrite H. constructor. intros ->. rewrite (proj2 (str_eqb_eq _ _) eq_refl) in E. discriminate.
Qed.

Lemma like_group s s' i i' es es' : like s s' -> like i i' -> Forall2 becomes es es' ->
  like (fst (at_group s (i, es))) (fst (at_group s' (i', es')))
  /\ Forall2 becomes (snd (at_group s (i, es))) (snd (at_group s' (i', es'))).
Proof.
  intros L Li F. unfold at_group. rewrite (l_before _ _ L).
  destruct (before s); cbn [fst snd]; try (split; [now apply like_leave|exact F]).
  - split; [now apply like_leave|]. constructor; [now apply like_call|exact F].
  - split; [|constructor]. destruct L as [V M C P U D B]. constructor; cbn; auto.
    intros m. destruct (str_eqb m name); [now exists es'|apply C].
Qed.

Lemma walk_user t : forall s s', like s s' ->
  like (fst (walk (user t) s)) (fst (walk (user t) s'))
  /\ Forall2 becomes (snd (walk (user t) s)) (snd (walk (user t) s')).
Proof.
  induction t as [n|c j|x|d l IH] using tok_ind'; intros s s' L.
  - cbn. split; [now apply like_ident|]. rewrite (l_vars _ _ L) by reflexivity. repeat constructor.
  - cbn. split; [now apply like_punct|constructor].
  - cbn. split; [now apply like_to|constructor].
  - cbn [user]. rewrite !walk_group.
    assert (W : forall i i', like i i' ->
              like (fst (walks (map user l) i)) (fst (walks (map user l) i'))
              /\ Forall2 becomes (snd (walks (map user l) i)) (snd (walks (map user l) i'))).
    { induction IH as [|t l Ht _ IHl]; intros i i' Li; cbn [map walks]; [split; [exact Li|constructor]|].
      destruct (Ht _ _ Li) as [L1 F1]. destruct (walk (user t) i) as [i1 e1]. destruct (walk (user t) i') as [i1' e1'].
      cbn [fst snd] in *. destruct (IHl _ _ L1) as [L2 F2].
      destruct (walks (map user l) i1) as [i2 e2]. destruct (walks (map user l) i1') as [i2' e2'].
      cbn [fst snd] in *. split; [exact L2|now apply Forall2_app]. }
    destruct (W _ _ (like_enter _ _ L)) as [L1 F1].
    destruct (walks (map user l) (enter s)) as [i e]. destruct (walks (map user l) (enter s')) as [i' e'].
    now apply like_group.
Qed.

(** The begin of a function: nothing of the attribute's own is in scope. *)
Lemma params_scope ps : macros (params ps) = [] /\ users (made (params ps)) /\ pending (params ps) = [] /\ before (params ps) = LNone.
Proof.
  unfold params, settle. cbn [vars macros pending made].
  induction ps as [|n ps IH]; cbn [map fold_right macros made pending before]; [repeat split; constructor|].
  destruct IH as (A & B & C & D). repeat split; auto. constructor; [reflexivity|exact B].
Qed.
Lemma count_users n l : snd n = MixedSite -> users l -> count n l = 0.
Proof.
  intros H U. unfold count. induction U as [|m l Hm _ IH]; [reflexivity|]. cbn [filter].
  destruct (hname_eqb n m) eqn:E; [|exact IH]. apply hname_eqb_eq in E. subst m. congruence.
Qed.

(** What is in scope after the attribute's own statements. *)
Definition in_macro : list htok :=
  [parens [p "$"; parens [p "$"; q "args"; p ":"; q "tt"]; p "*"]; pj "="; p ">"; braces macro_body].
Lemma let_scope vs md :
  fst (walks let_manager (mk_scope vs [] [] md LNone))
  = mk_scope ((mgr_name, MixedSite, count (mgr_name, MixedSite) md) :: vs) [] [] ((mgr_name, MixedSite) :: md) LNone.
Proof. vm_compute. reflexivity. Qed.
Lemma macro_scope vs md :
  let s := mk_scope vs [] [] md LNone in
  fst (walks macro_tokens s) = mk_scope vs [(lit "css", snd (walks in_macro s))] [] md LNone.
Proof. vm_compute. reflexivity. Qed.
Lemma macro_takes vs md k :
  own_uses (snd (walks in_macro (mk_scope ((mgr_name, MixedSite, k) :: vs) [] [] md LNone)))
  = [EUse (mgr_name, MixedSite) (Some k)].
Proof. vm_compute. reflexivity. Qed.
Lemma prelude_calls vs md : calls_nothing (snd (walks (let_manager ++ macro_tokens) (mk_scope vs [] [] md LNone))).
Proof. vm_compute. repeat constructor. Qed.

Lemma prelude ps s : s = enter (params ps) ->
  like s (fst (walks (let_manager ++ macro_tokens) s)) /\ calls_nothing (snd (walks (let_manager ++ macro_tokens) s)).
Proof.
  intros ->. destruct (params_scope ps) as (M & U & P & B). unfold enter. rewrite M.
  revert U. generalize (vars (params ps)) (made (params ps)). intros vs md U. split; [|apply prelude_calls].
  rewrite walks_app. pose proof (let_scope vs md) as L. destruct (walks let_manager _) as [s1 e1].
  cbn [fst] in L. subst s1. rewrite (count_users (mgr_name, MixedSite) md eq_refl U).
  pose proof (macro_scope ((mgr_name, MixedSite, 0) :: vs) ((mgr_name, MixedSite) :: md)) as L. cbv zeta in L.
  destruct (walks macro_tokens _) as [s2 e2]. cbn [fst] in *. subst s2.
  pose proof (macro_takes vs ((mgr_name, MixedSite) :: md) 0) as T. revert T. generalize (snd (walks in_macro (mk_scope ((mgr_name, MixedSite, 0) :: vs) [] [] ((mgr_name, MixedSite) :: md) LNone))).
  intros d T. constructor; cbn [vars macros pending made before].
  - intros [n h] Hn. cbn [snd] in Hn. subst h. cbn [lookup]. unfold hname_eqb at 1. cbn [fst snd site_eqb]. now rewrite andb_false_r.
  - cbn [lookup]. now rewrite (proj2 (hname_eqb_eq _ _) eq_refl).
  - intros m. cbn [lookup]. destruct (str_eqb m (lit "css")); [now exists d|reflexivity].
  - reflexivity.
  - constructor.
  - intros [n h] Hn. cbn [snd] in Hn. subst h. unfold count. cbn [filter]. unfold hname_eqb at 1. cbn [fst snd site_eqb]. now rewrite andb_false_r.
  - reflexivity.
Qed.

(** ** C85 *)

(** Both attributes accept functions only, [styled_component] with at most a name, and keep the function but for its body. *)
Theorem attribute_accepts_iff : forall syn attr tokens,
  ((exists l, styled_component syn attr tokens = Expanded l)
   <-> (exists f, syn tokens = Some (IFn f)) /\ (attr = [] \/ exists n, attr = [RIdent n] /\ ~ In n keywords))
  /\ ((exists l, styled_component_impl syn attr tokens = Expanded l)
   <-> (exists f, syn tokens = Some (IFn f)) /\ attr = []).
Proof.
  intros syn attr tokens. unfold styled_component, styled_component_impl. destruct (syn tokens) as [[f|]|].
  - split; split.
    + intros (l & H). split; [now exists f|]. destruct attr as [|[n| | |] [|]]; try discriminate H; [now left|].
      right. exists n. split; [reflexivity|]. cbn [parse_args] in H. intros I.
      assert (E : existsb (str_eqb n) keywords = true) by (apply existsb_exists; exists n; split; [exact I|apply str_eqb_refl]).
      now rewrite E in H.
    + intros [_ [->|(n & -> & N)]]; [now eexists|]. cbn [parse_args].
      destruct (existsb (str_eqb n) keywords) eqn:E; [|now eexists].
      apply existsb_exists in E. destruct E as (x & I & E). apply str_eqb_eq in E. now subst x.
    + intros (l & H). split; [now exists f|]. now destruct attr.
    + intros [_ ->]. now eexists.
  - split; split; try (intros (? & ?); discriminate); intros ((f & ?) & ?); discriminate.
  - split; split; try (intros (? & ?); discriminate); intros ((f & ?) & ?); discriminate.
Qed.
Print Assumptions attribute_accepts_iff.

(** What the error says: first whether the item can be parsed, then whether it is a function, then the arguments. *)
Theorem attribute_errors_iff : forall syn attr tokens,
  (styled_component syn attr tokens = BadItem <-> syn tokens = None)
  /\ (styled_component syn attr tokens = NotAFunction <-> syn tokens = Some IOther)
  /\ (styled_component_impl syn attr tokens = BadItem <-> syn tokens = None)
  /\ (styled_component_impl syn attr tokens = NotAFunction <-> syn tokens = Some IOther).
Proof.
  intros syn attr tokens. unfold styled_component, styled_component_impl.
  destruct (syn tokens) as [[f|]|]; [destruct (parse_args attr), (parse_no_args attr)| |]; repeat split; intros H; try discriminate H; reflexivity.
Qed.
Print Assumptions attribute_errors_iff.

(** The attribute's own statements: the manager of the context is put into a variable, which [css!] uses. *)
Definition own_statements : str := lit
  "let __stylist_style_manager__ =::yew ::functional ::use_context ::<::stylist ::manager ::StyleManager >().unwrap_or_default ();#[allow (unused_macros )]macro_rules !css {($($args :tt )*)=>{::stylist ::css !($($args )*).with_manager ({#[allow (clippy ::redundant_clone )]__stylist_style_manager__ .clone ()})}}".

(** The function stays as it is but for its body, which is put behind these statements (and [styled_component] makes
    a component of it, under the name that was given).  In the body, every name refers to what it did, and every [css!]
    uses the manager that was taken at the begin, whatever the names of the variables, parameters and macros. *)
Theorem attribute_hygienic : forall syn attr tokens f l ps,
  syn tokens = Some (IFn f) ->
  styled_component syn attr tokens = Expanded l \/ styled_component_impl syn attr tokens = Expanded l ->
  exists pre own first es,
    l = pre ++ map user (i_attrs f ++ i_vis f ++ i_sig f) ++ [HGroup Brace (own ++ [HGroup Brace (map user (i_block f))])]
    /\ (styled_component syn attr tokens = Expanded l ->
        texts pre = lit "#[::yew ::functional ::function_component (" ++ texts (map user attr) ++ lit ")]")
    /\ (styled_component_impl syn attr tokens = Expanded l -> pre = [])
    /\ texts own = own_statements
    /\ body_events ps (own ++ [HGroup Brace (map user (i_block f))]) = first ++ es
    /\ calls_nothing first
    /\ Forall2 becomes (body_events ps (map user (i_block f))) es.
Proof.
  intros syn attr tokens f l ps S E.
  assert (L : exists pre, l = pre ++ expand_fn f
     /\ (styled_component syn attr tokens = Expanded l ->
         texts pre = lit "#[::yew ::functional ::function_component (" ++ texts (map user attr) ++ lit ")]")
     /\ (styled_component_impl syn attr tokens = Expanded l -> pre = [])).
  { unfold styled_component, styled_component_impl in *. rewrite S in *.
    assert (D : forall a, expand_component a f <> expand_fn f).
    { intros a H. unfold expand_component in H. apply (f_equal (@List.length htok)) in H. rewrite app_length in H. cbn in H. lia. }
    destruct E as [E|E].
    - destruct attr as [|[n| | |] [|]]; cbn [parse_args] in *; try discriminate;
        try (destruct (existsb (str_eqb n) keywords); [discriminate|]); injection E as <-; unfold expand_component;
        eexists; (split; [reflexivity|]); (split; [intros _; cbn; rewrite ?app_nil_r, <- ?app_assoc; reflexivity|]); cbn [parse_no_args]; intros H; try discriminate H.
      injection H as H. now elim (D AEmpty).
    - destruct attr; [|discriminate]. cbn [parse_no_args parse_args] in *. injection E as <-. exists []. split; [reflexivity|].
      split; [|reflexivity]. intros H. injection H as H. now elim (D AEmpty). }
  destruct L as (pre & -> & P1 & P2). exists pre, (let_manager ++ macro_tokens).
  destruct (prelude ps _ eq_refl) as [L N].
  destruct (walk_user (RGroup Brace (i_block f)) _ _ L) as [_ F].
  exists (snd (walks (let_manager ++ macro_tokens) (enter (params ps)))), (snd (walk (user (RGroup Brace (i_block f))) (fst (walks (let_manager ++ macro_tokens) (enter (params ps)))))).
  split; [|split; [exact P1|split; [exact P2|split; [vm_compute; reflexivity|split; [|split; [exact N|]]]]]].
  - unfold expand_fn, new_body, braces. rewrite !map_app, <- !app_assoc. reflexivity.
  - unfold body_events. rewrite walk_group, walks_app. destruct (params_scope ps) as (M & U & P & B).
    destruct (walks (let_manager ++ macro_tokens) (enter (params ps))) as [s1 e1]. cbn [fst snd walks user].
    destruct (walk (HGroup Brace (map user (i_block f))) s1) as [s2 e2]. unfold at_group. rewrite B. cbn [snd]. now rewrite app_nil_r.
  - cbn [user] in F. unfold body_events. rewrite walk_group in F at 1. rewrite walk_group.
    destruct (params_scope ps) as (M & U & P & B). change (enter (enter (params ps))) with (enter (params ps)) in F.
    unfold at_group in *. rewrite B. change (before (enter (params ps))) with LNone in F. cbv iota in F.
    destruct (walks (map user (i_block f)) (enter (params ps))) as [s1 es]. exact F.
Qed.
Print Assumptions attribute_hygienic.

(** A function whose body declares a variable with the name of the manager, uses it and [css!], also in a macro. *)
Local Definition i (s : string) := RIdent (lit s).
Local Definition o (c : ascii) := RPunct (ch c) false.
Local Definition body : list rtok :=
  [i "let"; i "mut"; i "__stylist_style_manager__"; o "="; i "x"; o ";";
   i "macro_rules"; o "!"; i "m"; RGroup Brace [RGroup Paren []; o "="; o ">"; RGroup Brace [i "css"; o "!"; RGroup Paren []]];
   i "css"; o "!"; RGroup Paren [i "__stylist_style_manager__"]; i "m"; o "!"; RGroup Paren []].
Local Definition demo : fn_item := mk_fn [] [i "pub"] [i "fn"; i "f"; RGroup Paren [i "x"]] body.
Example attribute_hygienic_ex :
  let syn := fun _ => Some (IFn demo) in
  (exists l, styled_component syn [i "App"] [] = Expanded l)
  /\ styled_component syn [i "fn"] [] = BadArgs /\ styled_component_impl syn [i "App"] [] = BadArgs
  /\ filter (fun e => match e with EUse (n, _) _ => str_eqb n mgr_name | _ => true end) (body_events [lit "x"] (map user body))
     = [EUse (mgr_name, CallSite) None; ECall (lit "css") None; EUse (mgr_name, CallSite) (Some 0);
        ECall (lit "m") (Some [EUse (lit "css", CallSite) None; ECall (lit "css") None])].
Proof. split; [eexists; vm_compute; reflexivity|]. split; [reflexivity|]. split; [reflexivity|]. vm_compute. reflexivity. Qed.
