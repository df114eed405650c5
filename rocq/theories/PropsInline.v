(** * PropsInline: the macros called with CSS tokens. *)

From Coq Require Import String Ascii List NArith Bool Arith Lia.
From Verif Require Import Str StrFacts Ast Render Owned Tok Output SpecOutput OutputFacts MacroFacts MacroPlain
  PropsMacro Inline SpecInline InlineFacts InlineParse InlineOutput InlineSafe.
Import ListNotations.
Local Open Scope list_scope.

(** ** C42: spacing *)

Lemma fragment_spacing_iff : forall x y,
  (ends_compound x /\ starts_compound y /\ fragment_spacing x y = Some (FStr (lit " ")))
  \/ (~ (ends_compound x /\ starts_compound y) /\ fragment_spacing x y = None).
Proof.
  assert (L : forall x, (ends_compound x /\ forall rho, p_ends (frag_piece rho x) = true)
                        \/ (~ ends_compound x /\ forall rho, p_ends (frag_piece rho x) = false)).
  { intros [e|a c|[c j|t|i]|d [|]|s]; try (right; split; [intros H; inversion H|reflexivity]);
      try (left; split; [constructor|reflexivity]).
    cbn [frag_piece token_piece p_ends]. destruct (among "&*" c) eqn:E; [left|right]; split; auto.
    - constructor. now apply mem_one_of.
    - intros H. inversion H as [| | |c' j' Hc]; subst. apply mem_one_of in Hc. unfold among in E. unfold mem, char_eqb in Hc. congruence. }
  assert (R : forall x, (starts_compound x /\ forall rho, p_starts (frag_piece rho x) = true)
                        \/ (~ starts_compound x /\ forall rho, p_starts (frag_piece rho x) = false)).
  { intros [e|a c|[c j|t|i]|d [|]|s]; try (right; split; [intros H; inversion H|reflexivity]);
      try (left; split; [constructor|reflexivity]).
    cbn [frag_piece token_piece p_starts]. destruct (among "*#" c) eqn:E; [left|right]; split; auto.
    - constructor. now apply mem_one_of.
    - intros H. inversion H as [| |c' j' Hc]; subst. apply mem_one_of in Hc. unfold among in E. unfold mem, char_eqb in Hc. congruence. }
  intros x y. rewrite (fragment_spacing_piece (fun _ => []) x y).
  destruct (L x) as [[Hx ->]|[Hx ->]]; destruct (R y) as [[Hy ->]|[Hy ->]]; cbn [andb]; [left; auto|right; split; tauto..].
Qed.

(** Whatever tokens are to be written, a space goes between two of them iff the first ends and
    the second starts a compound; nothing is lost or moved. *)
Theorem inline_spacing : forall l, exists r, spaced_with fragment_spacing l = OOk r /\ spaced_out l r.
Proof.
  intros l. exists (inter fragment_spacing l). split; [apply spaced_with_inter|].
  induction l as [|x l IH]; [constructor|]. destruct l as [|y l]; [constructor|].
  change (spaced_out (x :: y :: l) (x :: gap fragment_spacing x (y :: l) ++ inter fragment_spacing (y :: l))).
  cbn [gap]. destruct (fragment_spacing_iff x y) as [(Hx & Hy & ->)|[H ->]].
  - now constructor.
  - now constructor.
Qed.
Print Assumptions inline_spacing.

(** There is only one such way. *)
Theorem inline_spacing_unique : forall l r r', spaced_out l r -> spaced_out l r' -> r = r'.
Proof.
  intros l r r' H. revert r'. induction H as [|x|x y l r Hx Hy _ IH|x y l r Hn _ IH]; intros r' H'; inversion H'; subst; auto.
  - f_equal. f_equal. auto.
  - tauto.
  - tauto.
  - f_equal. auto.
Qed.
Print Assumptions inline_spacing_unique.

Example inline_spacing_ex :
  spaced_out [FToken (PIdent [IPIdent (lit "a")]); FToken (PPunct (ch ">") false);
              FToken (PIdent [IPIdent (lit "b")]); FToken (PPunct (ch "#") false); FToken (PLiteral (lit "1"))]
             [FToken (PIdent [IPIdent (lit "a")]); FToken (PPunct (ch ">") false);
              FToken (PIdent [IPIdent (lit "b")]); FStr (lit " "); FToken (PPunct (ch "#") false); FToken (PLiteral (lit "1"))].
Proof.
  constructor; [intros [_ H]; inversion H as [| |c j Hc]; apply mem_one_of in Hc; discriminate|].
  constructor; [intros [H _]; inversion H as [| | |c j Hc]; apply mem_one_of in Hc; discriminate|].
  constructor; [constructor|constructor; now apply mem_one_of|].
  constructor; [intros [H _]; inversion H as [| | |c j Hc]; apply mem_one_of in Hc; discriminate|].
  constructor.
Qed.

(** ** C44: what is accepted *)

(** The macro expands to a sheet iff the whole input reads as a stylesheet in which every token
    is allowed where it stands. *)
Theorem inline_macro_accepts_iff : forall expr_of input,
  (exists g, inline_macro expr_of input = IExpands g) <-> exists items, reads_sheet expr_of input items.
Proof.
  intros expr_of input. split.
  - intros [g H]. apply inline_sound in H. destruct H as (items & _ & H & _). eauto.
  - intros [items H]. apply inline_complete in H. destruct H as (out & H & _). eauto.
Qed.
Print Assumptions inline_macro_accepts_iff.

(** Otherwise there are compile errors, or a panic of the macro, which is one as well; the
    expression left behind for the compiler is an empty sheet. *)
Theorem inline_macro_rejects : forall expr_of input,
  ~ (exists items, reads_sheet expr_of input items) ->
  (exists errors g, inline_macro expr_of input = IErrors errors g /\ errors <> []
     /\ forall envs, exists vs, evaluate_all None envs g = Some vs
          /\ Forall (fun v => erase_sheet v = []) vs)
  \/ inline_macro expr_of input = ISyntaxError \/ inline_macro expr_of input = IPanic.
Proof.
  intros expr_of input N. pose proof (inline_no_fuel expr_of input) as F.
  rewrite <- (inline_macro_accepts_iff expr_of input) in N.
  assert (I : forall errors g, inline_macro expr_of input = IErrors errors g -> errors <> [] /\ g = no_sheet).
  { intros errors g. unfold inline_macro. destruct (root expr_of input) as [cs r| |]; try discriminate.
    destruct (root_output cs) as [[out [|e es]]| |]; try discriminate. intros H. injection H as <- <-. easy. }
  destruct (inline_macro expr_of input) as [g|errors g| | |] eqn:E; auto.
  - elim N. eauto.
  - destruct (I errors g eq_refl) as [I1 ->]. left. exists errors, no_sheet. split; auto. split; auto.
    induction envs as [|rho envs (vs & V1 & V2)]; [exists []; split; [reflexivity|constructor]|].
    exists (CowOwned [] :: vs). split; [|constructor; auto].
    change (option_map (cons (CowOwned [])) (evaluate_all None envs no_sheet) = Some (CowOwned [] :: vs)).
    now rewrite V1.
  - now elim F.
Qed.
Print Assumptions inline_macro_rejects.

(** ** C43: nothing is lost, doubled or moved *)

(** The sheet the expansion evaluates to, under the values that the expressions have each time,
    is the one the items of the input spell. *)
Theorem inline_macro_sheet : forall expr_of input items,
  reads_sheet expr_of input items ->
  exists g, inline_macro expr_of input = IExpands g
    /\ forall envs, exists vs, evaluate_all None envs g = Some vs
         /\ Forall2 (fun rho v => exists s, sheet_says rho items s
                       /\ sheet_joined (erase_sheet v) = s
                       /\ forall class, to_style_str class (erase_sheet v) = to_style_str class s) envs vs.
Proof.
  intros expr_of input items H. apply inline_complete in H. destruct H as (out & E & K & M).
  exists (expand out). split; auto. intros envs.
  destruct (interpolated_values_current out K) as [_ V]. destruct (V envs) as (vs & V1 & V2).
  exists vs. split; auto. eapply Forall2_mono; [|exact V2]. cbn beta. intros rho v [J _].
  exists (sheet_joined (sheet_meaning rho out)). split; [apply M|]. split; auto.
  intros class. now rewrite <- J, render_joined.
Qed.
Print Assumptions inline_macro_sheet.

(** There is one reading, and it spells one sheet. *)
Theorem inline_reading_unique : forall expr_of input a b,
  reads_sheet expr_of input a -> reads_sheet expr_of input b -> a = b.
Proof. exact reads_sheet_fun. Qed.
Print Assumptions inline_reading_unique.

Lemma block_says_fun : forall rho items a, block_says rho items a -> forall b, block_says rho items b -> a = b.
Proof.
  intros rho items a H. induction H as [|name values items l _ IH|name condition body bl items l _ IHb _ IH];
    intros b Hb; inversion Hb; subst; auto.
  - f_equal. auto.
  - f_equal; auto. f_equal. auto.
Qed.
Lemma same_run : forall d ds items d' ds' items',
  (forall i rest, items = i :: rest -> ~ is_declaration i) ->
  (forall i rest, items' = i :: rest -> ~ is_declaration i) ->
  map (fun d : iname * list cval => IDecl (fst d) (snd d)) (d :: ds) ++ items
  = map (fun d => IDecl (fst d) (snd d)) (d' :: ds') ++ items' ->
  d :: ds = d' :: ds' /\ items = items'.
Proof.
  intros d ds items d' ds' items' N N' E.
  assert (G : forall l l', map (fun d : iname * list cval => IDecl (fst d) (snd d)) l ++ items
            = map (fun d => IDecl (fst d) (snd d)) l' ++ items' -> l = l' /\ items = items').
  { induction l as [|[n v] l IH]; intros [|[n' v'] l'] H; cbn in H; auto.
    - exfalso. eapply N; [exact H|]. now exists n', v'.
    - exfalso. eapply N'; [symmetry; exact H|]. now exists n, v.
    - injection H as -> -> H. destruct (IH _ H) as [-> ->]. auto. }
  now apply G.
Qed.
Lemma scope_says_fun : forall rho items a, scope_says rho items a -> forall b, scope_says rho items b -> a = b.
Proof.
  intros rho items a H.
  induction H as [|d ds items l N _ IH|name condition body bl items l _ IHb _ IH|selectors groups body bl items l G B _ IH];
    intros b Hb.
  - inversion Hb; subst; auto.
  - remember (map (fun d : iname * list cval => IDecl (fst d) (snd d)) (d :: ds) ++ items) as all eqn:Ea.
    destruct Hb as [|d' ds' items' l' N' H'|n' c' b' bl' i' l' HB H'|s' g' b' bl' i' l' HG HB H']; try discriminate.
    apply same_run in Ea; auto. destruct Ea as [Ed ->]. rewrite Ed. f_equal. auto.
  - inversion Hb; subst. f_equal; auto. f_equal. auto.
  - inversion Hb as [|? ? ? ? ? ? Hx|?|s' g' b' bl' i' l' HG HB H']; subst; try discriminate.
    rewrite (comma_groups_fun _ _ _ G HG), (block_says_fun _ _ _ B _ HB). f_equal. auto.
Qed.
Theorem inline_sheet_unique : forall rho items a b, sheet_says rho items a -> sheet_says rho items b -> a = b.
Proof.
  intros rho items a b Ha Hb. pose proof (scope_says_fun _ _ _ Ha _ Hb) as E. clear Ha Hb. revert b E.
  induction a as [|x a IH]; intros [|y b] E; try discriminate; auto. cbn in E. injection E as Ex E.
  rewrite (IH b E). f_equal. destruct x, y; cbn in Ex; try discriminate; now injection Ex as -> ->.
Qed.
Print Assumptions inline_sheet_unique.

(** Tokens of Rust, as a way to write down inputs. *)
Definition id s := RIdent (lit s).
Definition pu (c : string) := RPunct (match lit c with x :: _ => x | [] => 0%N end) false.
Definition li s := RLit (lit s).
Definition any_expr : code -> option expr := fun c => Some (ECode c).

(** [color: ${c}; @media (min-width: 1px) { margin: 0 auto; } a, b > c { top: 0; @supports (x: y) { top: 1px; } }
    left: 0; top: 0;] *)
Definition example_input : list rtok :=
  [id "color"; pu ":"; pu "$"; RGroup Brace [id "c"]; pu ";";
   pu "@"; id "media"; RGroup Paren [id "min"; pu "-"; id "width"; pu ":"; li "1px"];
   RGroup Brace [id "margin"; pu ":"; li "0"; id "auto"; pu ";"];
   id "a"; pu ","; id "b"; pu ">"; id "c";
   RGroup Brace [id "top"; pu ":"; li "0"; pu ";";
                 pu "@"; id "supports"; RGroup Paren [id "x"; pu ":"; id "y"];
                 RGroup Brace [id "top"; pu ":"; li "1px"; pu ";"]];
   id "left"; pu ":"; li "0"; pu ";"; id "top"; pu ":"; li "0"; pu ";"].
Definition example_env : env := fun _ => lit "blue".
Definition example_sheet : sheet :=
  [SBlock [] [CAttr (mk_attr (lit "color") [lit "blue"])];
   SRule [lit "@media (min-width:1px)"] [CBlock [] [CAttr (mk_attr (lit "margin") [lit "0 auto"])]];
   SBlock [[lit "a"]; [lit "b>c"]]
     [CAttr (mk_attr (lit "top") [lit "0"]);
      CRule [lit "@supports (x:y)"] [CAttr (mk_attr (lit "top") [lit "1px"])]];
   SBlock [] [CAttr (mk_attr (lit "left") [lit "0"]); CAttr (mk_attr (lit "top") [lit "0"])]].

Example inline_macro_ex : exists items g v,
  reads_sheet any_expr example_input items
  /\ inline_macro any_expr example_input = IExpands g
  /\ evaluate_all None [example_env] g = Some [v]
  /\ sheet_joined (erase_sheet v) = example_sheet
  /\ sheet_says example_env items example_sheet.
Proof.
  destruct (inline_macro any_expr example_input) as [g|es g| | |] eqn:E; try (vm_compute in E; discriminate).
  destruct (proj1 (inline_macro_accepts_iff any_expr example_input) (ex_intro _ _ E)) as [items R].
  destruct (inline_macro_sheet _ _ _ R) as (g' & E' & V).
  assert (g' = g) as -> by congruence.
  destruct (V [example_env]) as (vs & V1 & V2). inversion V2 as [|? v ? l' S1 S2]; subst. inversion S2; subst.
  destruct S1 as (s & S1 & S & _).
  assert (sheet_joined (erase_sheet v) = example_sheet) as X.
  { clear -E V1. vm_compute in E. injection E as <-. vm_compute in V1. injection V1 as <-. vm_compute. reflexivity. }
  exists items, g, v. repeat split; auto. rewrite <- X, S. exact S1.
Qed.

(** Rejected: a brace where a selector is expected inside of a rule; an unknown at-rule; a token
    that no value can have; and there the errors are found in all of the items. *)
Example inline_macro_rejects_ex :
  inline_macro any_expr [id "a"; RGroup Brace [id "b"; RGroup Brace []]; pu "@"; id "font"; RGroup Brace [];
                         id "top"; pu ":"; pu "!"; pu ";"; id "left"; pu ":"; li "0"; pu ";"]
  = IErrors [ENested; EAtRule; ENotInAttribute] no_sheet.
Proof. vm_compute. reflexivity. Qed.

(** ** C45: selectors *)

(** The selectors of a rule are its prelude cut at the commas outside of brackets, each written
    as its tokens are. *)
Theorem inline_selectors : forall expr_of input selectors body groups,
  reads_sheet expr_of input [IRule selectors body] -> comma_groups selectors groups ->
  exists g, inline_macro expr_of input = IExpands g
    /\ forall envs, exists vs, evaluate_all None envs g = Some vs
         /\ Forall2 (fun rho v => exists bl, block_says rho body bl
              /\ sheet_joined (erase_sheet v) = [SBlock (map (fun g => [text rho g]) groups) bl]) envs vs.
Proof.
  intros expr_of input selectors body groups R G. destruct (inline_macro_sheet _ _ _ R) as (g & E & V).
  exists g. split; auto. intros envs. destruct (V envs) as (vs & V1 & V2). exists vs. split; auto.
  eapply Forall2_mono; [|exact V2]. cbn beta. intros rho v (s & S & -> & _). unfold sheet_says in S.
  destruct s as [|c s]; [inversion S|].
  inversion S as [|? ? ? ? ? ? Hx|?|s' g' b' bl' i' l' HG HB H' E1 E2]; subst; try discriminate.
  exists bl'. split; auto. destruct c as [cond l|cond l]; cbn in E2; try discriminate. injection E2 as <- <-.
  rewrite (comma_groups_fun _ _ _ G HG). f_equal. inversion H' as [E3| | |]. now destruct s.
Qed.
Print Assumptions inline_selectors.

(** Every prelude is cut in one way, and the parts in order, with their commas, are the prelude. *)
Theorem inline_selectors_cut : forall l, exists groups,
  comma_groups l groups /\ (forall other, comma_groups l other -> other = groups)
  /\ filter (fun c => negb (is_comma c)) l = List.concat groups.
Proof.
  intros l. destruct (batches_ok (List.length l) l (le_n _)) as (groups & _ & G & _). exists groups. split; auto.
  split; [intros other H; eapply comma_groups_fun; eauto|].
  assert (N : forall c, ~ comma c -> is_comma c = false).
  { intros c H. destruct (is_comma c) eqn:E; auto. elim H. destruct c as [| [c j| |] | |]; cbn in E; try discriminate.
    exists j. unfold char_eqb in E. apply N.eqb_eq in E. now subst c. }
  assert (F : forall g, Forall (fun c => ~ comma c) g -> filter (fun c => negb (is_comma c)) g = g).
  { induction g as [|c g IH]; intros H; inversion H; subst; auto. cbn [filter]. rewrite N by auto. cbn [negb]. now rewrite IH. }
  induction G as [|g _ H|g c rest gs H C _ IH]; [reflexivity| |].
  - cbn [List.concat]. now rewrite app_nil_r, F.
  - rewrite filter_app, F by auto. cbn [List.concat filter]. destruct C as [j ->]. cbn [is_comma].
    rewrite <- IH. reflexivity.
Qed.
Print Assumptions inline_selectors_cut.

(** [a , b(c, d) ,] *)
Example inline_selectors_ex :
  comma_groups [CToken (PIdent [IPIdent (lit "a")]); CToken (PPunct (ch ",") false);
                CFunction [IPIdent (lit "b")] [CToken (PIdent [IPIdent (lit "c")]); CToken (PPunct (ch ",") false); CToken (PIdent [IPIdent (lit "d")])];
                CToken (PPunct (ch ",") false)]
    [[CToken (PIdent [IPIdent (lit "a")])];
     [CFunction [IPIdent (lit "b")] [CToken (PIdent [IPIdent (lit "c")]); CToken (PPunct (ch ",") false); CToken (PIdent [IPIdent (lit "d")])]]].
Proof.
  apply (cg_more [_] (CToken (PPunct (ch ",") false))).
  - constructor; [intros [j H]; discriminate|constructor].
  - now exists false.
  - apply (cg_more [_] (CToken (PPunct (ch ",") false)) []).
    + constructor; [intros [j H]; discriminate|constructor].
    + now exists false.
    + constructor.
Qed.

(** ** C46: no panic *)

(** The macro comes to an end. *)
Theorem inline_macro_total : forall expr_of input, inline_macro expr_of input <> IFuel.
Proof. exact inline_no_fuel. Qed.
Print Assumptions inline_macro_total.

(** It can panic: [@media ({}) {}] and [:not({}) {}]. *)
Theorem inline_never_panics_refuted : exists expr_of input other,
  inline_macro expr_of input = IPanic /\ inline_macro expr_of other = IPanic
  /\ input = [pu "@"; id "media"; RGroup Paren [RGroup Brace []]; RGroup Brace []]
  /\ other = [pu ":"; id "not"; RGroup Paren [RGroup Brace []]; RGroup Brace []].
Proof. exists any_expr. do 2 eexists. split; [|split; [|split; reflexivity]]; vm_compute; reflexivity. Qed.
Print Assumptions inline_never_panics_refuted.

(** It does not if there are no braces inside of parentheses and brackets but those of
    expressions. *)
Theorem inline_never_panics_partial : forall expr_of input,
  braces_outside input -> inline_macro expr_of input <> IPanic.
Proof. exact inline_safe. Qed.
Print Assumptions inline_never_panics_partial.

Example inline_never_panics_ex : braces_outside example_input.
Proof.
  assert (T : forall t, match t with RGroup _ _ => false | _ => true end = true -> forall d g, t <> RGroup d g)
    by (intros t H d g ->; discriminate).
  unfold example_input.
  repeat first [apply bo_nil | apply bo_expr | apply bo_body | apply bf_nil | apply bf_expr
               | apply bo_group; [discriminate| |] | apply bf_group; [discriminate| |]
               | apply bo_token; [apply T; reflexivity|] | apply bf_token; [apply T; reflexivity|]].
Qed.

(** ** C54: neighbours stay apart *)

(** Identifiers, literals and functions next to each other are written with a space. *)
Definition word (c : cval) : Prop :=
  match c with CToken (PIdent _) | CToken (PLiteral _) | CFunction _ _ => True | _ => False end.
Lemma spell_app : forall a p q b,
  spell (a ++ p :: q :: b) = spell (a ++ [p]) ++ (if p_ends p && p_starts q then lit " " else []) ++ spell (q :: b).
Proof.
  induction a as [|x a IH]; intros p q b; [reflexivity|].
  cbn [app]. destruct a as [|y a]; [cbn [app]; cbn [spell]; now rewrite <- !app_assoc|].
  cbn [app] in *. change (spell (x :: y :: a ++ p :: q :: b))
    with (p_text x ++ (if p_ends x && p_starts y then lit " " else []) ++ spell (y :: a ++ p :: q :: b)).
  change (spell (x :: y :: a ++ [p]))
    with (p_text x ++ (if p_ends x && p_starts y then lit " " else []) ++ spell (y :: a ++ [p])).
  now rewrite IH, <- !app_assoc.
Qed.
Theorem inline_words_apart_partial : forall rho before x y after,
  word x -> word y ->
  text rho (before ++ x :: y :: after) = text rho (before ++ [x]) ++ lit " " ++ text rho (y :: after).
Proof.
  intros rho before x y after Hx Hy. unfold text. rewrite !flat_map_app.
  assert (Ex : exists a p, pieces rho x = a ++ [p] /\ p_ends p = true).
  { destruct x as [i args|[c j|t|i]|d cs|e]; try contradiction.
    - eexists (mk_piece true true (ident_text i) :: opens Paren :: flat_map (pieces rho) args), (closes Paren).
      split; reflexivity.
    - eexists [], _. split; reflexivity.
    - eexists [], _. split; reflexivity. }
  assert (Ey : exists q b, pieces rho y = q :: b /\ p_starts q = true).
  { destruct y as [i args|[c j|t|i]|d cs|e]; try contradiction; eexists _, _; split; reflexivity. }
  destruct Ex as (a & p & Ex & Hp). destruct Ey as (q & b & Ey & Hq).
  cbn [flat_map]. rewrite Ex, Ey, <- !app_assoc. cbn [app].
  rewrite (app_assoc (flat_map _ _) a), spell_app, Hp, Hq. cbn [andb]. now rewrite !app_assoc.
Qed.
Print Assumptions inline_words_apart_partial.

(** But the value of an expression runs into what stands next to it: with [w] being [1px],
    [border: ${w} solid;] sets the border to [1pxsolid]; and operators are written without the
    spaces that CSS needs: [width: calc(1px - 2px);] becomes [calc(1px-2px)]. *)
Definition declares (expr_of : code -> option expr) (input : list rtok) (rho : env) (name value : str) : Prop :=
  exists g v, inline_macro expr_of input = IExpands g /\ evaluate_all None [rho] g = Some [v]
    /\ sheet_joined (erase_sheet v) = [SBlock [] [CAttr (mk_attr name [value])]].
Theorem inline_words_apart_refuted :
  (exists rho, rho [id "w"] = lit "1px"
     /\ declares any_expr [id "border"; pu ":"; pu "$"; RGroup Brace [id "w"]; id "solid"; pu ";"] rho
          (lit "border") (lit "1pxsolid"))
  /\ (forall rho, declares any_expr
        [id "width"; pu ":"; id "calc"; RGroup Paren [li "1px"; pu "-"; li "2px"]; pu ";"] rho
          (lit "width") (lit "calc(1px-2px)")).
Proof.
  split.
  - exists (fun _ => lit "1px"). split; [reflexivity|]. eexists _, _.
    split; [vm_compute; reflexivity|]. split; vm_compute; reflexivity.
  - intros rho. eexists _, _. split; [vm_compute; reflexivity|]. split; vm_compute; reflexivity.
Qed.
Print Assumptions inline_words_apart_refuted.

(** ** C55: selectors that start with an element and a pseudo class *)

(** Such a rule is taken for a declaration: [a:hover { color: red; }] is refused, whatever the
    body, as [a] is taken for a property, while [a, b:hover { .. }] is fine. *)
Theorem inline_accepts_selectors_refuted : forall body,
  ~ (exists g, inline_macro any_expr [id "a"; pu ":"; id "hover"; RGroup Brace body] = IExpands g)
  /\ exists g, inline_macro any_expr [id "a"; pu ","; id "b"; pu ":"; id "hover"; RGroup Brace []] = IExpands g.
Proof.
  intros body. split; [|eexists; vm_compute; reflexivity].
  rewrite inline_macro_accepts_iff. intros [items H]. unfold reads_sheet in H.
  assert (I : reads any_expr [id "a"; pu ":"; id "hover"; RGroup Brace body]
                (CToken (PIdent [IPIdent (lit "a")])) [pu ":"; id "hover"; RGroup Brace body]).
  { apply rd_ident.
    - left. now eexists _, _.
    - eapply ri; [constructor|]. apply run_end. intros t q r E Hq. injection E as <- _. inversion Hq.
    - discriminate. }
  inversion H as [|nest l i r items' C _]; subst.
  assert (J : exists values j r', reads_until any_expr at_semicolon [id "hover"; RGroup Brace body] values (RPunct (ch ";") j :: r')).
  { inversion C as [nest' l' c name j l'' values j' r' Hc Hn Hu| |l' selectors g b r' _ Hd]; subst.
    - destruct (reads_fun _ _ _ _ _ _ Hc I) as [_ E]. injection E as _ ->. now exists values, j', r.
    - elim Hd. eexists _, _, _, _. split; [exact I|]. constructor. }
  destruct J as (values & j & r' & J). apply reads_until_suffix in J.
  destruct J as [J|(t & x & J)]; [discriminate|]. injection J as _ J.
  destruct x as [|t' [|? ?]]; discriminate.
Qed.
Print Assumptions inline_accepts_selectors_refuted.

(** ** C55, what holds *)

Section Selectors.
  Variable expr_of : code -> option expr.

  (** Where a selector ends in front of braces; a [$] there would make them an expression. *)
  Definition no_dollar_end (l : list rtok) : Prop := forall x j, l <> x ++ [RPunct (ch "$") j].
  Lemma run_brace p l ps r g t : run p l ps r -> run p (l ++ RGroup Brace g :: t) ps (r ++ RGroup Brace g :: t).
  Proof.
    induction 1 as [p l H|p u q l ps r Hu J _ IH]; [|now econstructor; eauto].
    apply run_end. intros u q r E Hq. destruct l as [|v l]; cbn in E.
    - injection E as <- _. inversion Hq.
    - injection E as -> _. exact (H u q l eq_refl Hq).
  Qed.
  Lemma starts_brace l g t : starts_ident (l ++ RGroup Brace g :: t) <-> starts_ident l.
  Proof.
    split.
    - intros [(s & r & E)|(j & u & p & r & E & Hp)].
      + destruct l as [|v l]; [discriminate|]. cbn in E. injection E as -> _. left. eauto.
      + destruct l as [|v [|v' l]]; cbn in E; try discriminate.
        * injection E as -> <- _. inversion Hp.
        * injection E as -> -> _. right. eauto 6.
    - intros [(s & r & ->)|(j & u & p & r & -> & Hp)]; [left; cbn; eauto|right]. cbn. eauto 6.
  Qed.
  Lemma reads_ident_brace l i r g t : reads_ident l i r -> reads_ident (l ++ RGroup Brace g :: t) i (r ++ RGroup Brace g :: t).
  Proof. intros H. inversion H; subst. cbn. econstructor; eauto. now apply run_brace. Qed.
  Lemma reads_brace l c r g t :
    reads expr_of l c r -> no_dollar_end l -> reads expr_of (l ++ RGroup Brace g :: t) c (r ++ RGroup Brace g :: t).
  Proof.
    intros H N. inversion H; subst; cbn.
    - now constructor.
    - now constructor.
    - eapply rd_function; [now apply starts_brace|apply (reads_ident_brace _ _ _ g t) in H1; exact H1|assumption].
    - eapply rd_ident; [now apply starts_brace|now apply reads_ident_brace|].
      intros g' r' E. destruct r as [|u r]; [discriminate|]. cbn in E. injection E as -> _. now elim (H2 g' r).
    - apply rd_punct; auto.
      + rewrite app_comm_cons, starts_brace. assumption.
      + intros -> g' r' E. destruct r as [|u r].
        * elim (N [] j). reflexivity.
        * cbn in E. injection E as -> _. now elim (H2 eq_refl g' r).
    - constructor.
  Qed.
  Lemma no_dollar_suffix x l : no_dollar_end (x ++ l) -> no_dollar_end l.
  Proof. intros N y j ->. apply (N (x ++ y) j). now rewrite app_assoc. Qed.
  Lemma reads_no_dollar l c r : reads expr_of l c r -> no_dollar_end l -> no_dollar_end r.
  Proof.
    intros H N. apply reads_proper in H. destruct H as (u & x & ->). now apply (no_dollar_suffix (u :: x)).
  Qed.
  Lemma reads_all_until l cs g t :
    reads_all expr_of l cs -> Forall no_braces cs -> no_dollar_end l ->
    reads_until expr_of at_brace (l ++ RGroup Brace g :: t) cs (RGroup Brace g :: t).
  Proof.
    intros H. induction H as [|l c r cs Hc _ IH]; intros NB N.
    - apply ru_stop. eexists _, _. reflexivity.
    - inversion NB as [|? ? N1 N2]; subst. eapply ru_more; [|eapply reads_brace; eauto|apply IH; auto; eapply reads_no_dollar; eauto].
      intros (g' & r' & E). destruct l as [|u l]; [inversion Hc; match goal with X : starts_ident [] |- _ => destruct X as [(?&?&?)|(?&?&?&?&?&?)]; discriminate end|].
      cbn in E. injection E as -> _. inversion Hc; subst.
      + inversion N1. congruence.
      + now apply starts_ident_no_group in H.
      + now apply starts_ident_no_group in H.
  Qed.
  (** Reading on, a semicolon would be a component. *)
  Lemma reads_semicolon l cs g t vs j r :
    reads_all expr_of l cs -> Forall no_braces cs -> no_dollar_end l -> t = [] ->
    reads_until expr_of at_semicolon (l ++ RGroup Brace g :: t) vs (RPunct (ch ";") j :: r) ->
    In (CToken (PPunct (ch ";") j)) cs.
  Proof.
    intros H. revert vs. induction H as [|l c r' cs Hc Ha IH]; intros vs NB N -> U.
    - exfalso. apply reads_until_suffix in U. destruct U as [U|(u & x & U)]; [discriminate|].
      cbn in U. injection U as _ U. destruct x; discriminate.
    - inversion NB as [|? ? N1 N2]; subst. inversion U as [l0 St E1 E2 E3|l0 c0 r0 cs0 r1 Nst Hc0 U0]; subst.
      + destruct l as [|u l].
        { inversion Hc; match goal with X : starts_ident [] |- _ => destruct X as [(?&?&?)|(?&?&?&?&?&?)]; discriminate end. }
        cbn in E3. injection E3 as -> _. left.
        assert (K : reads expr_of (RPunct (ch ";") j :: l) (CToken (PPunct (ch ";") j)) l).
        { apply rd_punct; [discriminate| |discriminate]. intros [(?&?&?)|(?&?&?&?&E&_)]; [discriminate|]. injection E as E _. discriminate. }
        now destruct (reads_fun _ _ _ _ _ _ Hc K) as [-> _].
      + right. pose proof (reads_brace _ _ _ g [] Hc N) as K. destruct (reads_fun _ _ _ _ _ _ K Hc0) as [_ <-].
        eapply IH; eauto. eapply reads_no_dollar; eauto.
  Qed.
  Lemma starts_decl_brace l cs g : reads_all expr_of l cs -> no_dollar_end l ->
    starts_declaration expr_of (l ++ [RGroup Brace g]) <-> starts_declaration expr_of l.
  Proof.
    intros H N. split.
    - intros (c & n & j & r & Hc & Hn). inversion H as [|l' c' r' cs' Hc' _]; subst.
      + exfalso. inversion Hc as [d g' cs' r' Hg| | | | |]; subst. 
        all: try (now apply starts_ident_no_group in H0).
      + pose proof (reads_brace _ _ _ g [] Hc' N) as K. destruct (reads_fun _ _ _ _ _ _ Hc K) as [<- E].
        destruct r' as [|u r']; [discriminate|]. cbn in E. injection E as <- _. exists c, n, j, r'. auto.
    - intros (c & n & j & r & Hc & Hn). exists c, n, j, (r ++ [RGroup Brace g]). split; auto.
      exact (reads_brace _ _ _ g [] Hc N).
  Qed.
End Selectors.

(** A rule whose selector is made of what is allowed in selectors is accepted, and read as that
    rule, exactly if the selector does not start with a name and a colon. *)
Theorem inline_accepts_selectors_partial : forall expr_of selector cs body items,
  reads_all expr_of selector cs -> Forall selector_ok cs -> Forall no_braces cs ->
  no_dollar_end selector -> ~ starts_at_rule selector -> contents expr_of false body items ->
  ((exists g, inline_macro expr_of (selector ++ [RGroup Brace body]) = IExpands g)
   <-> ~ starts_declaration expr_of selector)
  /\ (~ starts_declaration expr_of selector ->
      reads_sheet expr_of (selector ++ [RGroup Brace body]) [IRule cs items]).
Proof.
  intros expr_of selector cs body items Ha So Nb Nd At Hb.
  assert (R : ~ starts_declaration expr_of selector -> reads_sheet expr_of (selector ++ [RGroup Brace body]) [IRule cs items]).
  { intros Nst. eapply cs_cons; [|constructor]. eapply ct_rule.
    - intros (j & r & E). destruct selector as [|u l]; [discriminate|]. cbn in E. injection E as -> _. apply At. eexists _, _. reflexivity.
    - intros K. apply Nst. eapply starts_decl_brace; eauto.
    - eapply reads_all_until; eauto.
    - exact So.
    - exact Nb.
    - exact Hb. }
  split; [|exact R]. rewrite inline_macro_accepts_iff. split; [|intros N; eauto].
  intros [its H] (c & n & j & r & Hc & Hn). unfold reads_sheet in H.
  pose proof (reads_brace _ _ _ _ body [] Hc Nd) as Hc'.
  inversion H as [E|nest l i r' items' C _]; subst; [destruct selector; discriminate|].
  inversion C as [nest' l' c0 name j0 r0 values j' r1 Hc0 Hn0 Hu|nest' j0 l0 i0 r0 cond g0 body0 r1 Hi|l' selectors g b r0 _ Hd]; subst.
  - destruct (reads_fun _ _ _ _ _ _ Hc' Hc0) as [_ E]. cbn in E. injection E as _ <-.
    inversion Ha as [|? ? rr cs' Hc1 Ha']; subst. { inversion Hc; match goal with X : starts_ident [] |- _ => destruct X as [(?&?&?)|(?&?&?&?&?&?)]; discriminate end. }
    destruct (reads_fun _ _ _ _ _ _ Hc Hc1) as [<- <-]. inversion Ha' as [|? c2 r2 cs2 Hc2 Ha2]; subst.
    assert (Nd1 : no_dollar_end (RPunct (ch ":") j :: r)) by (eapply reads_no_dollar; eauto).
    assert (K : reads expr_of (RPunct (ch ":") j :: r) (CToken (PPunct (ch ":") j)) r).
    { apply rd_punct; [discriminate| |discriminate]. intros [(?&?&?)|(?&?&?&?&E&_)]; [discriminate|]. injection E as E _. discriminate. }
    destruct (reads_fun _ _ _ _ _ _ Hc2 K) as [-> ->].
    inversion Nb as [|? ? _ Nb1]; subst. inversion Nb1 as [|? ? _ Nb2]; subst.
    inversion So as [|? ? _ So1]; subst. inversion So1 as [|? ? _ So2]; subst.
    assert (I : In (CToken (PPunct (ch ";") j')) cs2).
    { eapply (reads_semicolon expr_of r cs2 body []); eauto. eapply reads_no_dollar; eauto. }
    rewrite Forall_forall in So2. apply So2 in I. inversion I as [| | | |c1 j1 O|]; subst. cbn in O. intuition discriminate.
  - destruct selector as [|u l].
    + match goal with X : RPunct _ _ :: _ = _ |- _ => discriminate X end.
    + match goal with X : RPunct _ _ :: _ = _ |- _ => cbn in X; injection X as X _; apply At; exists j0, l; now rewrite <- X end.
  - apply Hd. exists c, n, j, (r ++ [RGroup Brace body]). split; auto.
Qed.
Print Assumptions inline_accepts_selectors_partial.

(** [.card:hover, a > b { color: red; }], and [a:hover]. *)
Definition example_selector : list rtok :=
  [pu "."; id "card"; pu ":"; id "hover"; pu ","; id "a"; pu ">"; id "b"].
Example inline_accepts_selectors_ex : exists cs items,
  reads_all any_expr example_selector cs /\ Forall selector_ok cs /\ Forall no_braces cs
  /\ no_dollar_end example_selector /\ ~ starts_at_rule example_selector
  /\ contents any_expr false [id "color"; pu ":"; id "red"; pu ";"] items
  /\ ~ starts_declaration any_expr example_selector
  /\ starts_declaration any_expr [id "a"; pu ":"; id "hover"].
Proof.
  eexists _, _. split; [|split; [|split; [|split; [|split; [|split; [|split]]]]]].
  - unfold example_selector.
    repeat (eapply ra_cons; [apply component_iff; vm_compute; reflexivity|]). constructor.
  - repeat constructor; now apply mem_one_of.
  - repeat constructor.
  - intros x j E. apply (f_equal (@rev _)) in E. rewrite rev_app_distr in E. discriminate.
  - intros (j & r & E). discriminate.
  - eapply cs_cons; [|constructor]. eapply ct_declaration.
    + apply component_iff. vm_compute. reflexivity.
    + constructor.
    + eapply ru_more; [intros (j & r & E); discriminate|apply component_iff; vm_compute; reflexivity|].
      apply ru_stop. eexists _, _. reflexivity.
    + repeat constructor.
  - intros (c & n & j & r & Hc & Hn). apply component_iff in Hc. vm_compute in Hc. discriminate.
  - eexists _, _, _, _. split; [apply component_iff; vm_compute; reflexivity|constructor].
Qed.
