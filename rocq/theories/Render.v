(** * Render: turning a sheet into CSS text.

    Models [/repo/packages/stylist-core/src/ast/context.rs] and the [ToStyleStr]
    implementations of the AST.  A [&mut String] writer is only ever appended to, so the
    functions return the text they append. *)

From Coq Require Import String Ascii List NArith Bool Arith.
From Verif Require Import Str Ast.
Import ListNotations.
Local Open Scope list_scope.

(** ** StyleContext *)

(** [StyleContext] (context.rs 7-16) without [class_name] (constant along the chain, a
    separate parameter here) and without [parent_ctx] (the tail of the chain). *)
Record frame := mk_frame {
  f_rules : list str;
  f_sel : option str;
  f_open : bool
}.

(** A context with its ancestors: the head is the context itself, the tail is the chain
    of [parent_ctx].  The [is_open] flags are mutable ([AtomicBool]), so functions return
    the updated chain. *)
Definition chain := list frame.

(** context.rs 20-29 *)
Definition new_frame : frame := mk_frame [] None false.

(** context.rs 35-37 *)
Definition set_open (b : bool) (f : frame) : frame := mk_frame (f_rules f) (f_sel f) b.

(** context.rs 59-64 *)
Definition conditions (f : frame) : list str :=
  f_rules f ++ match f_sel f with Some s => [s] | None => [] end.

(** context.rs 49-57; the argument is the chain of the parents. *)
Fixpoint open_parent (ps : chain) : option frame :=
  match ps with
  | [] => None
  | m :: ps' => if f_open m then Some m else open_parent ps'
  end.

Definition parent_conditions (ps : chain) : list str :=
  match open_parent ps with Some m => conditions m | None => [] end.

(** context.rs 66-72, [common_conditions().count()]: positions at which the open parent's
    conditions and the own conditions agree (a [zip] followed by a [filter_map]). *)
Fixpoint count_equal (a b : list str) : nat :=
  match a, b with
  | x :: a', y :: b' => (if str_eqb x y then 1 else 0) + count_equal a' b'
  | _, _ => 0
  end.
Definition common_count (self : frame) (ps : chain) : nat :=
  count_equal (parent_conditions ps) (conditions self).

(** context.rs 75-77 *)
Definition unique_conditions (self : frame) (ps : chain) : list str :=
  skipn (common_count self ps) (conditions self).

(** context.rs 80-85 *)
Definition differ_conditions (self : frame) (ps : chain) : list str :=
  skipn (common_count self ps) (parent_conditions ps).

(** context.rs 87-91 *)
Fixpoint padding (no : nat) : str :=
  match no with O => [] | S n => lit "    " ++ padding n end.

(** context.rs 113-122.  [c] is the context (head) with its parents. *)
Fixpoint close_lines (min_padding n : nat) : str :=
  match n with
  | O => []
  | S i => padding min_padding ++ padding i ++ lit "}" ++ nl ++ close_lines min_padding i
  end.

Definition finish (self : frame) (ps : chain) : frame * str :=
  (set_open false self,
   if f_open self
   then close_lines (common_count self ps) (List.length (unique_conditions self ps))
   else []).

(** context.rs 40-47.  The Rust loop repeatedly takes the nearest open parent, stops if the
    parent has no condition differing from [self], and otherwise finishes (closes) it.
    Finished parents stay closed, so one pass over the parents, nearest first, is the same
    loop (proved in RenderFacts.v, [close_until_is_loop]). *)
Fixpoint close_until_common_parent (self : frame) (ps : chain) : chain * str :=
  match ps with
  | [] => ([], [])
  | m :: ps' =>
      if f_open m then
        match differ_conditions self ps with
        | [] => (ps, [])
        | _ :: _ =>
            let (m', w1) := finish m ps' in
            let (ps'', w2) := close_until_common_parent self ps' in
            (m' :: ps'', w1 ++ w2)
        end
      else
        let (ps'', w2) := close_until_common_parent self ps' in
        (m :: ps'', w2)
  end.

(** context.rs 102-107, the loop writing the opened conditions. *)
Fixpoint open_lines (min_padding index : nat) (conds : list str) : str :=
  match conds with
  | [] => []
  | cond :: conds' =>
      padding min_padding ++ padding index ++ cond ++ lit " {" ++ nl ++ open_lines min_padding (S index) conds'
  end.

(** context.rs 98-110 *)
Definition start (self : frame) (ps : chain) : frame * chain * str :=
  if f_open self then (set_open true self, ps, [])
  else
    let (ps', w1) := close_until_common_parent self ps in
    (set_open true self, ps',
     w1 ++ open_lines (common_count self ps') 0 (unique_conditions self ps')).

(** context.rs 125-127 *)
Definition write_padding (self : frame) : str := padding (List.length (conditions self)).

(** context.rs 130-153; [class] is [class_name]. *)
Definition block_selector (class : option str) (self : frame) (cond : option str) : str :=
  match cond with
  | Some c => c
  | None =>
      match f_sel self with
      | Some s => s
      | None => match class with Some m => lit "." ++ m | None => lit ":root" end
      end
  end.
Definition with_block_condition (class : option str) (self : frame) (cond : option str) : frame :=
  mk_frame (f_rules self) (Some (block_selector class self cond)) false.

(** context.rs 156-168 *)
Definition with_rule_condition (self : frame) (cond : str) : frame :=
  mk_frame (f_rules self ++ [cond]) (f_sel self) false.

(** ** write_style *)

(** ast/selector.rs 18-54 *)
Definition write_selector (class : option str) (sel : selector) : str :=
  let joined := List.concat sel in
  match class with
  | Some m =>
      let scoped_class := lit "." ++ m in
      if contains_char (ch "&") joined || contains_str (lit ":root") joined
      then replace_str (lit ":root") scoped_class (replace_char (ch "&") scoped_class joined)
      else scoped_class
           ++ (if starts_with (lit ":") joined then [] else lit " ")
           ++ joined
  | None =>
      if contains_char (ch "&") joined
      then replace_char (ch "&") (lit ":root") joined
      else joined
  end.

(** ast/block.rs 27-42.  The loop writes [", "] after every selector but the last. *)
Definition cond_str (class : option str) (condition : list selector) : option str :=
  match condition with
  | [] => None
  | _ :: _ => Some (join (lit ", ") (map (write_selector class) condition))
  end.

(** ast/style_attr.rs 17-32 *)
Definition write_attr (a : attr) (self : frame) (ps : chain) : frame * chain * str :=
  let '(self', ps', w) := start self ps in
  (self', ps',
   w ++ write_padding self' ++ a_key a ++ lit ": " ++ List.concat (a_value a) ++ lit ";" ++ nl).

(** Writing a list of contents one after the other, in the same context. *)
Section WriteAll.
  Variable write : rbc -> frame -> chain -> frame * chain * str.
  Fixpoint write_all (cs : list rbc) (self : frame) (ps : chain) : frame * chain * str :=
    match cs with
    | [] => (self, ps, [])
    | c :: cs' =>
        let '(self1, ps1, w1) := write c self ps in
        let '(self2, ps2, w2) := write_all cs' self1 ps1 in
        (self2, ps2, w1 ++ w2)
    end.
End WriteAll.

(** ast/rule_block_content.rs (dispatch), ast/block.rs 45-58, ast/rule.rs 26-47.
    The result is the (possibly re-flagged) context and its parents, and the text.
    While the children are written, [self] is the innermost parent. *)
Fixpoint write_rbc (class : option str) (c : rbc) (self : frame) (ps : chain)
  : frame * chain * str :=
  match c with
  | CAttr a => write_attr a self ps
  | CBlock condition content =>
      let block_ctx := with_block_condition class self (cond_str class condition) in
      let '(block_ctx1, ps1, w1) := write_all (write_rbc class) content block_ctx (self :: ps) in
      let (_, w2) := finish block_ctx1 ps1 in
      match ps1 with
      | self' :: ps' => (self', ps', w1 ++ w2)
      | [] => (self, ps, w1 ++ w2) (* impossible: chains keep their length *)
      end
  | CRule condition content =>
      let cond := List.concat condition in
      let rule_ctx := with_rule_condition self cond in
      let '(rule_ctx0, ps0, w0) :=
        if starts_with (lit "@keyframes") cond
        then start rule_ctx (self :: ps) else (rule_ctx, self :: ps, []) in
      let '(rule_ctx1, ps1, w1) := write_all (write_rbc class) content rule_ctx0 ps0 in
      let (_, w2) := finish rule_ctx1 ps1 in
      match ps1 with
      | self' :: ps' => (self', ps', w0 ++ w1 ++ w2)
      | [] => (self, ps, w0 ++ w1 ++ w2) (* impossible: chains keep their length *)
      end
  end.

(** ast/scope_content.rs and ast/sheet.rs 73-79 *)
Definition write_sheet (class : option str) (s : sheet) (self : frame) (ps : chain)
  : frame * chain * str :=
  write_all (write_rbc class) (map rbc_of_scope s) self ps.

(** ast/to_style_str.rs 6-13 for [Sheet] *)
Definition to_style_str (class : option str) (s : sheet) : str :=
  let '(_, _, w) := write_sheet class s new_frame [] in w.
