(** * Owned: the AST with its borrowed and owned parts told apart,
    /repo/packages/stylist-core/src/bow.rs and ast/*.rs.

    [Ast.v] forgets who owns what.  Here every [Cow] and [Bow] keeps it, and each derived or
    hand-written trait method is written on these types: [Deref], [PartialEq], [Clone], [Hash]. *)

From Coq Require Import String Ascii List NArith Bool Arith.
From Verif Require Import Str Ast Manager.
Import ListNotations.
Local Open Scope list_scope.

(** [Bow<'a, T>], bow.rs 10-13. *)
Inductive bow (A : Type) := Borrowed (a : A) | Boxed (a : A).
Arguments Borrowed {A} a.
Arguments Boxed {A} a.

(** [std::borrow::Cow].  A borrowed slice and an owned vector are both lists. *)
Inductive cow (A : Type) := CowBorrowed (a : A) | CowOwned (a : A).
Arguments CowBorrowed {A} a.
Arguments CowOwned {A} a.

(** [Deref for Bow], bow.rs 38-46, and [AsRef], 48-52. *)
Definition deref {A} (b : bow A) : A := match b with Borrowed a => a | Boxed a => a end.
(** [Deref for Cow]. *)
Definition cderef {A} (b : cow A) : A := match b with CowBorrowed a => a | CowOwned a => a end.

(** [Clone for Bow], bow.rs 54-64: a borrow stays a borrow. *)
Definition bow_clone {A} (f : A -> A) (b : bow A) : bow A :=
  match b with Borrowed a => Borrowed a | Boxed a => Boxed (f a) end.
Definition cow_clone {A} (f : A -> A) (b : cow A) : cow A :=
  match b with CowBorrowed a => CowBorrowed a | CowOwned a => CowOwned (f a) end.

(** [PartialEq for Bow], bow.rs 66-73, on what is pointed to; the same for [Cow]. *)
Definition bow_eqb {A} (e : A -> A -> bool) (a b : bow A) : bool := e (deref a) (deref b).
Definition cow_eqb {A} (e : A -> A -> bool) (a b : cow A) : bool := e (cderef a) (cderef b).

(** ** The AST *)

(** [StringFragment], ast/str_frag.rs 9-11. *)
Record ofrag := mk_ofrag { o_inner : cow str }.
(** [Selector], ast/selector.rs 14-16. *)
Record oselector := mk_oselector { o_fragments : cow (list ofrag) }.
(** [StyleAttribute], ast/style_attr.rs 12-15. *)
Record oattr := mk_oattr { o_key : cow str; o_value : cow (list ofrag) }.
(** [RuleBlockContent], ast/rule_block_content.rs 8-12, [Rule], ast/rule.rs 21-24, and [Block],
    ast/block.rs 17-24. *)
Inductive orbc :=
| OAttr (a : oattr)
| ORule (r : bow orule)
| OBlock (b : bow oblock)
with orule := mk_orule (cond : cow (list ofrag)) (content : cow (list orbc))
with oblock := mk_oblock (cond : cow (list oselector)) (content : cow (list orbc)).
(** [ScopeContent], ast/scope_content.rs 26-29. *)
Inductive oscope := OSBlock (b : oblock) | OSRule (r : orule).
(** [Sheet(Arc<Cow<'static, [ScopeContent]>>)], ast/sheet.rs 12; the [Arc] shares an immutable
    value. *)
Definition osheet := cow (list oscope).
(** [StyleKey], manager/key.rs 15-19. *)
Record okey := mk_okey { ok_global : bool; ok_prefix : cow str; ok_ast : osheet }.

Definition orule_cond (r : orule) := match r with mk_orule c _ => c end.
Definition orule_content (r : orule) := match r with mk_orule _ l => l end.
Definition oblock_cond (b : oblock) := match b with mk_oblock c _ => c end.
Definition oblock_content (b : oblock) := match b with mk_oblock _ l => l end.

(** ** The value behind: every pointer followed ([Deref] all the way down) *)

Definition erase_frag (f : ofrag) : str_fragment := cderef (o_inner f).
Definition erase_frags (l : cow (list ofrag)) : list str_fragment := map erase_frag (cderef l).
Definition erase_selector (s : oselector) : selector := erase_frags (o_fragments s).
Definition erase_attr (a : oattr) : attr := mk_attr (cderef (o_key a)) (erase_frags (o_value a)).
Fixpoint erase_rbc (c : orbc) : rbc :=
  match c with
  | OAttr a => CAttr (erase_attr a)
  | ORule r => match deref r with
               | mk_orule cond content =>
                   CRule (erase_frags cond) (map erase_rbc (cderef content))
               end
  | OBlock b => match deref b with
                | mk_oblock cond content =>
                    CBlock (map erase_selector (cderef cond)) (map erase_rbc (cderef content))
                end
  end.
Definition erase_scope (c : oscope) : scope_content :=
  match c with
  | OSBlock (mk_oblock cond content) =>
      SBlock (map erase_selector (cderef cond)) (map erase_rbc (cderef content))
  | OSRule (mk_orule cond content) => SRule (erase_frags cond) (map erase_rbc (cderef content))
  end.
Definition erase_sheet (s : osheet) : sheet := map erase_scope (cderef s).
Definition erase_key (k : okey) : key :=
  mk_key (ok_global k) (cderef (ok_prefix k)) (erase_sheet (ok_ast k)).

(** ** [derive(PartialEq)] *)

(** [PartialEq] of slices: the same length, and equal elements. *)
Definition slice_eqb {A} (e : A -> A -> bool) : list A -> list A -> bool :=
  fix go a b :=
    match a, b with
    | [], [] => true
    | x :: a', y :: b' => e x y && go a' b'
    | _, _ => false
    end.
Definition ofrag_eqb (a b : ofrag) : bool := cow_eqb str_eqb (o_inner a) (o_inner b).
Definition ofrags_eqb : cow (list ofrag) -> cow (list ofrag) -> bool :=
  cow_eqb (slice_eqb ofrag_eqb).
Definition oselector_eqb (a b : oselector) : bool := ofrags_eqb (o_fragments a) (o_fragments b).
Definition oattr_eqb (a b : oattr) : bool :=
  cow_eqb str_eqb (o_key a) (o_key b) && ofrags_eqb (o_value a) (o_value b).
Fixpoint orbc_eqb (a b : orbc) {struct a} : bool :=
  match a, b with
  | OAttr x, OAttr y => oattr_eqb x y
  | ORule x, ORule y =>
      bow_eqb (fun x y => match x, y with
        | mk_orule c l, mk_orule d m => ofrags_eqb c d && cow_eqb (slice_eqb orbc_eqb) l m
        end) x y
  | OBlock x, OBlock y =>
      bow_eqb (fun x y => match x, y with
        | mk_oblock c l, mk_oblock d m =>
            cow_eqb (slice_eqb oselector_eqb) c d && cow_eqb (slice_eqb orbc_eqb) l m
        end) x y
  | _, _ => false
  end.
Definition oscope_eqb (a b : oscope) : bool :=
  match a, b with
  | OSBlock (mk_oblock c l), OSBlock (mk_oblock d m) =>
      cow_eqb (slice_eqb oselector_eqb) c d && cow_eqb (slice_eqb orbc_eqb) l m
  | OSRule (mk_orule c l), OSRule (mk_orule d m) =>
      ofrags_eqb c d && cow_eqb (slice_eqb orbc_eqb) l m
  | _, _ => false
  end.
(** sheet.rs 11. *)
Definition osheet_eqb : osheet -> osheet -> bool := cow_eqb (slice_eqb oscope_eqb).
(** key.rs 14. *)
Definition okey_eqb (a b : okey) : bool :=
  Bool.eqb (ok_global a) (ok_global b) && cow_eqb str_eqb (ok_prefix a) (ok_prefix b)
  && osheet_eqb (ok_ast a) (ok_ast b).

(** ** [derive(Clone)] *)

Definition ofrag_clone (f : ofrag) : ofrag := mk_ofrag (cow_clone (fun s => s) (o_inner f)).
Definition ofrags_clone : cow (list ofrag) -> cow (list ofrag) := cow_clone (map ofrag_clone).
Definition oselector_clone (s : oselector) : oselector :=
  mk_oselector (ofrags_clone (o_fragments s)).
Definition oattr_clone (a : oattr) : oattr :=
  mk_oattr (cow_clone (fun s => s) (o_key a)) (ofrags_clone (o_value a)).
Fixpoint orbc_clone (c : orbc) : orbc :=
  match c with
  | OAttr a => OAttr (oattr_clone a)
  | ORule r =>
      ORule (bow_clone (fun r => match r with
        | mk_orule cond content => mk_orule (ofrags_clone cond) (cow_clone (map orbc_clone) content)
        end) r)
  | OBlock b =>
      OBlock (bow_clone (fun b => match b with
        | mk_oblock cond content =>
            mk_oblock (cow_clone (map oselector_clone) cond) (cow_clone (map orbc_clone) content)
        end) b)
  end.

(** ** Hash

    What a value writes into a [Hasher] ([derive(Hash)], and [Hash for Bow], bow.rs 77-81, which
    writes what is pointed to): enums their discriminant, slices their length and elements,
    strings and booleans themselves.  A binary serde format such as [bincode] (used by yew to
    send state to the client) stores exactly the same sequence for [derive(Serialize)]: variant
    indices, lengths, strings, booleans, and nothing for field names; [Serialize for Bow], bow.rs
    15-25, also writes what is pointed to. *)
Inductive tok := TVariant (n : nat) | TLen (n : nat) | TStr (s : str) | TBool (b : bool).

Definition slice_toks {A} (f : A -> list tok) (l : list A) : list tok :=
  TLen (List.length l) :: flat_map f l.
Definition ofrag_toks (f : ofrag) : list tok := [TStr (cderef (o_inner f))].
Definition ofrags_toks (l : cow (list ofrag)) : list tok := slice_toks ofrag_toks (cderef l).
Definition oselector_toks (s : oselector) : list tok := ofrags_toks (o_fragments s).
Definition oattr_toks (a : oattr) : list tok := TStr (cderef (o_key a)) :: ofrags_toks (o_value a).
Fixpoint orbc_toks (c : orbc) : list tok :=
  match c with
  | OAttr a => TVariant 0 :: oattr_toks a
  | ORule r =>
      match deref r with
      | mk_orule cond content =>
          TVariant 1 :: ofrags_toks cond ++ slice_toks orbc_toks (cderef content)
      end
  | OBlock b =>
      match deref b with
      | mk_oblock cond content =>
          TVariant 2 :: slice_toks oselector_toks (cderef cond)
            ++ slice_toks orbc_toks (cderef content)
      end
  end.
Definition oscope_toks (c : oscope) : list tok :=
  match c with
  | OSBlock (mk_oblock cond content) =>
      TVariant 0 :: slice_toks oselector_toks (cderef cond) ++ slice_toks orbc_toks (cderef content)
  | OSRule (mk_orule cond content) =>
      TVariant 1 :: ofrags_toks cond ++ slice_toks orbc_toks (cderef content)
  end.
Definition osheet_toks (s : osheet) : list tok := slice_toks oscope_toks (cderef s).
Definition okey_toks (k : okey) : list tok :=
  TBool (ok_global k) :: TStr (cderef (ok_prefix k)) :: osheet_toks (ok_ast k).

(** Induction through the pointers and lists. *)
Section OrbcInd.
  Variable P : orbc -> Prop.
  Variable Q : list orbc -> Prop.
  Hypothesis HA : forall a, P (OAttr a).
  Hypothesis HR : forall r, Q (cderef (orule_content (deref r))) -> P (ORule r).
  Hypothesis HB : forall b, Q (cderef (oblock_content (deref b))) -> P (OBlock b).
  Hypothesis Hnil : Q [].
  Hypothesis Hcons : forall c l, P c -> Q l -> Q (c :: l).

  Fixpoint orbc_ind2 (c : orbc) : P c :=
    let fix go (l : list orbc) : Q l :=
      match l with
      | [] => Hnil
      | c :: l' => Hcons c l' (orbc_ind2 c) (go l')
      end in
    match c with
    | OAttr a => HA a
    | ORule r => HR r (go (cderef (orule_content (deref r))))
    | OBlock b => HB b (go (cderef (oblock_content (deref b))))
    end.

  Fixpoint orbcs_ind2 (l : list orbc) : Q l :=
    match l with
    | [] => Hnil
    | c :: l' => Hcons c l' (orbc_ind2 c) (orbcs_ind2 l')
    end.
End OrbcInd.
