(** * Serde: reading and writing sheets, keys and style data,
    [derive(Serialize, Deserialize)] in /repo/packages/stylist-core/src/ast/*.rs, bow.rs and
    /repo/packages/stylist/src/manager/{key,mod}.rs.

    Two kinds of format.  A binary one ([bincode]) is the token sequence of [Owned.v]; a
    self-describing one ([serde_json]) is a tree of values.  Bytes and JSON text are left to
    those crates. *)

From Coq Require Import String Ascii List NArith Bool Arith.
From Verif Require Import Str Ast Manager Owned.
Import ListNotations.
Local Open Scope list_scope.

(** ** Style data *)

(** [StyleDataContent], manager/mod.rs 307-313; [StyleId] is a string (key.rs 26). *)
Record orecord := mk_orecord { or_key : okey; or_id : str; or_text : str }.
(** [StyleData(Arc<Vec<StyleDataContent>>)], mod.rs 327. *)
Definition odata := list orecord.

Definition erase_record (r : orecord) : record :=
  mk_record (erase_key (or_key r)) (or_id r) (or_text r).

(** [style_str] carries [#[serde(skip)]] (mod.rs 311): not written, [String::default()] when
    read. *)
Definition orecord_toks (r : orecord) : list tok := okey_toks (or_key r) ++ [TStr (or_id r)].
(** [Serialize for StyleData], mod.rs 328-335. *)
Definition odata_toks (d : odata) : list tok := slice_toks orecord_toks d.

(** ** Reading tokens *)

(** A reader returns a value and the rest, or an error; [TFuel] is not an outcome of the code
    (see [tokens_read_terminates]). *)
Inductive tres (A : Type) := TOk (a : A) (rest : list tok) | TErr | TFuel.
Arguments TOk {A} a rest.
Arguments TErr {A}.
Arguments TFuel {A}.

Definition tbind {A B} (r : tres A) (f : A -> list tok -> tres B) : tres B :=
  match r with TOk a rest => f a rest | TErr => TErr | TFuel => TFuel end.

Definition read_str (l : list tok) : tres str :=
  match l with TStr s :: l' => TOk s l' | _ => TErr end.
Definition read_bool (l : list tok) : tres bool :=
  match l with TBool b :: l' => TOk b l' | _ => TErr end.

(** [n] elements in a row. *)
Definition read_n {A} (f : list tok -> tres A) : nat -> list tok -> tres (list A) :=
  fix go n l :=
    match n with
    | O => TOk [] l
    | S n' => tbind (f l) (fun a l1 => tbind (go n' l1) (fun r l2 => TOk (a :: r) l2))
    end.
(** [Vec::deserialize]. *)
Definition read_vec {A} (f : list tok -> tres A) (l : list tok) : tres (list A) :=
  match l with TLen n :: l' => read_n f n l' | _ => TErr end.

(** [Cow::deserialize] reads the owned type. *)
Definition read_cow_str (l : list tok) : tres (cow str) :=
  tbind (read_str l) (fun s l1 => TOk (CowOwned s) l1).
Definition read_cow {A} (f : list tok -> tres A) (l : list tok) : tres (cow (list A)) :=
  tbind (read_vec f l) (fun s l1 => TOk (CowOwned s) l1).

Definition read_frag (l : list tok) : tres ofrag :=
  tbind (read_cow_str l) (fun s l1 => TOk (mk_ofrag s) l1).
Definition read_selector (l : list tok) : tres oselector :=
  tbind (read_cow read_frag l) (fun s l1 => TOk (mk_oselector s) l1).
Definition read_attr (l : list tok) : tres oattr :=
  tbind (read_cow_str l) (fun k l1 =>
  tbind (read_cow read_frag l1) (fun v l2 => TOk (mk_oattr k v) l2)).

Definition read_rule_with (f : list tok -> tres orbc) (l : list tok) : tres orule :=
  tbind (read_cow read_frag l) (fun c l1 =>
  tbind (read_cow f l1) (fun b l2 => TOk (mk_orule c b) l2)).
Definition read_block_with (f : list tok -> tres orbc) (l : list tok) : tres oblock :=
  tbind (read_cow read_selector l) (fun c l1 =>
  tbind (read_cow f l1) (fun b l2 => TOk (mk_oblock c b) l2)).

(** [Deserialize for Bow], bow.rs 27-36: always boxed. *)
Fixpoint read_rbc (fuel : nat) (l : list tok) : tres orbc :=
  match fuel with
  | O => TFuel
  | S f =>
      match l with
      | TVariant 0 :: l' => tbind (read_attr l') (fun a l1 => TOk (OAttr a) l1)
      | TVariant 1 :: l' =>
          tbind (read_rule_with (read_rbc f) l') (fun r l1 => TOk (ORule (Boxed r)) l1)
      | TVariant 2 :: l' =>
          tbind (read_block_with (read_rbc f) l') (fun b l1 => TOk (OBlock (Boxed b)) l1)
      | _ => TErr
      end
  end.
Definition read_scope (fuel : nat) (l : list tok) : tres oscope :=
  match l with
  | TVariant 0 :: l' =>
      tbind (read_block_with (read_rbc fuel) l') (fun b l1 => TOk (OSBlock b) l1)
  | TVariant 1 :: l' =>
      tbind (read_rule_with (read_rbc fuel) l') (fun r l1 => TOk (OSRule r) l1)
  | _ => TErr
  end.
(** [Deserialize for Sheet], ast/sheet.rs 23-32. *)
Definition read_sheet (fuel : nat) (l : list tok) : tres osheet := read_cow (read_scope fuel) l.
Definition read_key (fuel : nat) (l : list tok) : tres okey :=
  tbind (read_bool l) (fun g l1 =>
  tbind (read_cow_str l1) (fun p l2 =>
  tbind (read_sheet fuel l2) (fun s l3 => TOk (mk_okey g p s) l3))).
Definition read_record (fuel : nat) (l : list tok) : tres orecord :=
  tbind (read_key fuel l) (fun k l1 =>
  tbind (read_str l1) (fun id l2 => TOk (mk_orecord k id []) l2)).
(** [Deserialize for StyleData], mod.rs 337-346. *)
Definition read_data (l : list tok) : tres odata := read_vec (read_record (S (List.length l))) l.
Definition sheet_of_toks (l : list tok) : tres osheet := read_sheet (S (List.length l)) l.

(** ** Trees *)

(** [JOther] stands for numbers and [null]. *)
Inductive jval :=
| JBool (b : bool)
| JStr (s : str)
| JSeq (l : list jval)
| JObj (l : list (str * jval))
| JOther.

(** *** Writing: structs are objects with their fields, enums objects with the variant *)

Definition jfrag (f : ofrag) : jval := JObj [(lit "inner", JStr (cderef (o_inner f)))].
Definition jfrags (l : cow (list ofrag)) : jval := JSeq (map jfrag (cderef l)).
Definition jselector (s : oselector) : jval := JObj [(lit "fragments", jfrags (o_fragments s))].
Definition jattr (a : oattr) : jval :=
  JObj [(lit "key", JStr (cderef (o_key a))); (lit "value", jfrags (o_value a))].
Fixpoint jrbc (c : orbc) : jval :=
  match c with
  | OAttr a => JObj [(lit "StyleAttr", jattr a)]
  | ORule r =>
      match deref r with
      | mk_orule cond content =>
          JObj [(lit "Rule", JObj [(lit "condition", jfrags cond);
                                   (lit "content", JSeq (map jrbc (cderef content)))])]
      end
  | OBlock b =>
      match deref b with
      | mk_oblock cond content =>
          JObj [(lit "Block", JObj [(lit "condition", JSeq (map jselector (cderef cond)));
                                    (lit "content", JSeq (map jrbc (cderef content)))])]
      end
  end.
Definition jrule (r : orule) : jval :=
  match r with
  | mk_orule cond content =>
      JObj [(lit "condition", jfrags cond); (lit "content", JSeq (map jrbc (cderef content)))]
  end.
Definition jblock (b : oblock) : jval :=
  match b with
  | mk_oblock cond content =>
      JObj [(lit "condition", JSeq (map jselector (cderef cond)));
            (lit "content", JSeq (map jrbc (cderef content)))]
  end.
Definition jscope (c : oscope) : jval :=
  match c with
  | OSBlock b => JObj [(lit "Block", jblock b)]
  | OSRule r => JObj [(lit "Rule", jrule r)]
  end.
(** [Serialize for Sheet], ast/sheet.rs 14-21. *)
Definition jsheet (s : osheet) : jval := JSeq (map jscope (cderef s)).
Definition jkey (k : okey) : jval :=
  JObj [(lit "is_global", JBool (ok_global k)); (lit "prefix", JStr (cderef (ok_prefix k)));
        (lit "ast", jsheet (ok_ast k))].
Definition jrecord (r : orecord) : jval :=
  JObj [(lit "key", jkey (or_key r)); (lit "id", JStr (or_id r))].
Definition jdata (d : odata) : jval := JSeq (map jrecord d).

(** *** Reading *)

Fixpoint all_some {A} (l : list (option A)) : option (list A) :=
  match l with
  | [] => Some []
  | Some x :: l' => option_map (cons x) (all_some l')
  | None :: _ => None
  end.

Fixpoint look {A} (k : str) (l : list (str * A)) : option A :=
  match l with
  | [] => None
  | (k', v) :: l' => if str_eqb k' k then Some v else look k l'
  end.

(** The derived [visit_map]: fields in any order, a repeated or missing field is an error, other
    names are ignored. *)
Definition occurrences {A} (k : str) (l : list (str * A)) : nat :=
  List.length (filter (fun p => str_eqb (fst p) k) l).
Definition pick {A} (names : list str) (l : list (str * A)) : option (list A) :=
  if existsb (fun k => 1 <? occurrences k l) names then None
  else all_some (map (fun k => look k l) names).
(** The derived [visit_seq]: the fields in order, and no more. *)
Definition positional {A} (names : list str) (l : list A) : option (list A) :=
  if Nat.eqb (List.length l) (List.length names) then Some l else None.

Definition struct_fields (names : list str) (j : jval) : option (list jval) :=
  match j with
  | JObj l => pick names l
  | JSeq l => positional names l
  | _ => None
  end.

Definition get_str (j : jval) : option str := match j with JStr s => Some s | _ => None end.
Definition get_bool (j : jval) : option bool := match j with JBool b => Some b | _ => None end.
Definition get_vec {A} (f : jval -> option A) (j : jval) : option (list A) :=
  match j with JSeq l => all_some (map f l) | _ => None end.

Definition get_frag (j : jval) : option ofrag :=
  match struct_fields [lit "inner"] j with
  | Some [v] => option_map (fun s => mk_ofrag (CowOwned s)) (get_str v)
  | _ => None
  end.
Definition get_frags (j : jval) : option (cow (list ofrag)) :=
  option_map CowOwned (get_vec get_frag j).
Definition get_selector (j : jval) : option oselector :=
  match struct_fields [lit "fragments"] j with
  | Some [v] => option_map mk_oselector (get_frags v)
  | _ => None
  end.
Definition get_selectors (j : jval) : option (cow (list oselector)) :=
  option_map CowOwned (get_vec get_selector j).
Definition get_attr (j : jval) : option oattr :=
  match struct_fields [lit "key"; lit "value"] j with
  | Some [v; v'] =>
      match get_str v, get_frags v' with
      | Some k, Some l => Some (mk_oattr (CowOwned k) l)
      | _, _ => None
      end
  | _ => None
  end.

(** A value read as each of the recursive types: content, list of contents, rule, block. *)
Record readings := mk_readings
  { as_rbc : option orbc; as_rbcs : option (list orbc);
    as_rule : option orule; as_block : option oblock }.

Definition rule_of (o : option (list (jval * readings))) : option orule :=
  match o with
  | Some [(v, _); (_, d)] =>
      match get_frags v, as_rbcs d with
      | Some c, Some l => Some (mk_orule c (CowOwned l))
      | _, _ => None
      end
  | _ => None
  end.
Definition block_of (o : option (list (jval * readings))) : option oblock :=
  match o with
  | Some [(v, _); (_, d)] =>
      match get_selectors v, as_rbcs d with
      | Some c, Some l => Some (mk_oblock c (CowOwned l))
      | _, _ => None
      end
  | _ => None
  end.
Definition rbc_of (l : list (str * (jval * readings))) : option orbc :=
  match l with
  | [(k, (v, d))] =>
      if str_eqb k (lit "StyleAttr") then option_map OAttr (get_attr v)
      else if str_eqb k (lit "Rule") then option_map (fun r => ORule (Boxed r)) (as_rule d)
      else if str_eqb k (lit "Block") then option_map (fun b => OBlock (Boxed b)) (as_block d)
      else None
  | _ => None
  end.

Definition rule_fields : list str := [lit "condition"; lit "content"].

Fixpoint readings_of (j : jval) : readings :=
  match j with
  | JSeq l =>
      let ds := map (fun v => (v, readings_of v)) l in
      mk_readings None (all_some (map (fun p => as_rbc (snd p)) ds))
        (rule_of (positional rule_fields ds)) (block_of (positional rule_fields ds))
  | JObj l =>
      let ds := map (fun p => match p with (k, v) => (k, (v, readings_of v)) end) l in
      mk_readings (rbc_of ds) None (rule_of (pick rule_fields ds)) (block_of (pick rule_fields ds))
  | _ => mk_readings None None None None
  end.

Definition get_scope (j : jval) : option oscope :=
  match j with
  | JObj [(k, v)] =>
      if str_eqb k (lit "Block") then option_map OSBlock (as_block (readings_of v))
      else if str_eqb k (lit "Rule") then option_map OSRule (as_rule (readings_of v))
      else None
  | _ => None
  end.
(** [Deserialize for Sheet], ast/sheet.rs 23-32. *)
Definition get_sheet (j : jval) : option osheet := option_map CowOwned (get_vec get_scope j).
Definition get_key (j : jval) : option okey :=
  match struct_fields [lit "is_global"; lit "prefix"; lit "ast"] j with
  | Some [g; p; a] =>
      match get_bool g, get_str p, get_sheet a with
      | Some g, Some p, Some a => Some (mk_okey g (CowOwned p) a)
      | _, _, _ => None
      end
  | _ => None
  end.
Definition get_record (j : jval) : option orecord :=
  match struct_fields [lit "key"; lit "id"] j with
  | Some [k; i] =>
      match get_key k, get_str i with
      | Some k, Some i => Some (mk_orecord k i [])
      | _, _ => None
      end
  | _ => None
  end.
(** [Deserialize for StyleData], mod.rs 337-346. *)
Definition get_data (j : jval) : option odata := get_vec get_record j.
