(** * LitMacro: macros called with a string literal,
    /repo/packages/stylist-macros/src/literal/.

    [abort!] and [abort_call_site!] end the expansion with a compile error; so does returning
    one.  All of them are [None] here. *)

From Coq Require Import String Ascii List NArith Bool Arith.
From Verif Require Import Str Ast CssParser Tok Fstring Output.
Import ListNotations.
Local Open Scope list_scope.

(** [args: HashMap<String, Argument>] as a list with at most one entry for each name; the
    newest first.  Nothing depends on the order. *)
Definition args := list (str * code).

(** [args.get(name)] *)
Fixpoint arg_get (a : args) (name : str) : option code :=
  match a with
  | [] => None
  | (n, t) :: a' => if str_eqb n name then Some t else arg_get a' name
  end.

(** ** to_output_with_args

    [args_used] is threaded as the list of inserted names. *)
Definition used := list str.

(** The loop over scanned fragments, to_output_with_args.rs 132-148. *)
Fixpoint frags_to_output (a : args) (l : list ffrag) (u : used)
  : option (list out_frag * used) :=
  match l with
  | [] => Some ([], u)
  | FLiteral m :: l' =>
      match frags_to_output a l' u with
      | Some (o, u') => Some (FStr m :: o, u')
      | None => None
      end
  | FInterpolation m :: l' =>
      match arg_get a m with
      | None => None
      | Some t =>
          match frags_to_output a l' (m :: u) with
          | Some (o, u') => Some (FArg m t :: o, u')
          | None => None
          end
      end
  end.

(** [StringFragment], to_output_with_args.rs 117-152. *)
Definition str_to_output (a : args) (s : str_fragment) (u : used)
  : option (list out_frag * used) :=
  match scan s with
  | Scanned l => frags_to_output a l u
  | ScanRejected | ScanFuel => None
  end.

(** [for i in l { out.push(f(i)) }] with a threaded [args_used]. *)
Definition each_output {A B} (f : A -> used -> option (B * used))
  : list A -> used -> option (list B * used) :=
  fix go l u :=
    match l with
    | [] => Some ([], u)
    | x :: l' =>
        match f x u with
        | None => None
        | Some (y, u1) =>
            match go l' u1 with
            | None => None
            | Some (ys, u2) => Some (y :: ys, u2)
            end
        end
    end.

(** [for frag in l { out.extend(frag) }]: [Selector] (25-40), [Rule] conditions (162-166),
    [StyleAttribute] values (76-80). *)
Definition strs_to_output (a : args) (l : list str_fragment) (u : used)
  : option (list out_frag * used) :=
  match each_output (str_to_output a) l u with
  | Some (ls, u') => Some (List.concat ls, u')
  | None => None
  end.

(** [StyleAttribute], 67-88: the key is copied. *)
Definition attr_to_output (a : args) (x : attr) (u : used) : option (out_attr * used) :=
  match strs_to_output a (a_value x) u with
  | Some (values, u') => Some (mk_out_attr (CStr (a_key x)) values, u')
  | None => None
  end.

(** [Rule], 154-176, and [Block], 90-115. *)
Definition rule_to_output (f : rbc -> used -> option (out_rbc * used)) (a : args)
    (cond : list str_fragment) (content : list rbc) (u : used)
  : option (list out_frag * list out_rbc * used) :=
  match strs_to_output a cond u with
  | None => None
  | Some (c, u1) =>
      match each_output f content u1 with
      | None => None
      | Some (l, u2) => Some (c, l, u2)
      end
  end.
Definition block_to_output (f : rbc -> used -> option (out_rbc * used)) (a : args)
    (cond : list selector) (content : list rbc) (u : used)
  : option (list out_selector * list out_rbc * used) :=
  match each_output (strs_to_output a) cond u with
  | None => None
  | Some (c, u1) =>
      match each_output f content u1 with
      | None => None
      | Some (l, u2) => Some (c, l, u2)
      end
  end.

(** [RuleBlockContent], 42-65. *)
Fixpoint rbc_to_output (a : args) (x : rbc) (u : used) : option (out_rbc * used) :=
  match x with
  | CRule cond content =>
      match rule_to_output (rbc_to_output a) a cond content u with
      | Some (c, l, u') => Some (OutRule c l, u')
      | None => None
      end
  | CBlock cond content =>
      match block_to_output (rbc_to_output a) a cond content u with
      | Some (c, l, u') => Some (OutBlock c l, u')
      | None => None
      end
  | CAttr x =>
      match attr_to_output a x u with
      | Some (o, u') => Some (OutAttr o, u')
      | None => None
      end
  end.

(** [ScopeContent], 178-197. *)
Definition scope_to_output (a : args) (x : scope_content) (u : used)
  : option (out_scope * used) :=
  match x with
  | SBlock cond content =>
      match block_to_output (rbc_to_output a) a cond content u with
      | Some (c, l, u') => Some (OutSBlock c l, u')
      | None => None
      end
  | SRule cond content =>
      match rule_to_output (rbc_to_output a) a cond content u with
      | Some (c, l, u') => Some (OutSRule c l, u')
      | None => None
      end
  end.

(** [Sheet], 199-214. *)
Definition sheet_to_output (a : args) (x : sheet) (u : used) : option (out_sheet * used) :=
  each_output (scope_to_output a) x u.

(** ** macro_fn, literal/mod.rs 20-134 *)

(** The inner loop, 95-115: the tokens of one argument, up to the next comma at top level.
    [Some rest]: a comma was read. *)
Fixpoint arg_tokens (l : list rtok) : code * option (list rtok) :=
  match l with
  | [] => ([], None)
  | t :: l' =>
      if is_punct (ch ",") t then ([], Some l')
      else let (c, r) := arg_tokens l' in (t :: c, r)
  end.

(** [args.insert(name, arg)], 99-101 and 107-109: aborts if the name was there. *)
Definition arg_insert (a : args) (name : str) (c : code) : option args :=
  match arg_get a name with
  | Some _ => None
  | None => Some ((name, c) :: a)
  end.

(** The outer loop after its comma, 69-115: [Err] cases are [None].  Every round reads a token,
    so the number of tokens bounds the rounds; [fuel] running out is [None] of the outer
    option. *)
Fixpoint args_loop (fuel : nat) (l : list rtok) (a : args) : option (option args) :=
  match fuel with
  | O => None
  | S n =>
      match l with
      | [] => Some (Some a)
      | RIdent name :: l1 =>
          match l1 with
          | eq :: l2 =>
              if is_punct (ch "=") eq then
                let (c, r) := arg_tokens l2 in
                match arg_insert a name c with
                | None => Some None
                | Some a' =>
                    match r with
                    | None => Some (Some a')
                    | Some l3 => args_loop n l3 a'
                    end
                end
              else Some None
          | [] => Some None
          end
      | _ :: _ => Some None
      end
  end.

(** 55-67: the comma before the first argument. *)
Definition parse_args (l : list rtok) : option (option args) :=
  match l with
  | [] => Some (Some [])
  | t :: l' => if is_punct (ch ",") t then args_loop (S (List.length l')) l' [] else Some None
  end.

(** 122-130: every argument must have been used. *)
Definition all_used (a : args) (u : used) : bool :=
  forallb (fun e => existsb (str_eqb (fst e)) u) a.

Section Literals.
  (** [litrs::StringLit::try_from(token)] and its [value()]: the text a string literal token
      stands for; [None] for other tokens. *)
  Variable lit_value : rtok -> option str.

  Inductive expansion :=
  | Expands (g : gsheet)
  | CompileError
  | MacroFuel.

  Definition lit_macro (input : list rtok) : expansion :=
    match input with
    | [] => CompileError
    | first :: rest =>
        match lit_value first with
        | None => CompileError
        | Some css =>
            match parse css with
            | Rejected => CompileError
            | OutOfFuel => MacroFuel
            | Parsed sh =>
                match parse_args rest with
                | None => MacroFuel
                | Some None => CompileError
                | Some (Some a) =>
                    match sheet_to_output a sh [] with
                    | None => CompileError
                    | Some (out, u) =>
                        if all_used a u then Expands (expand out) else CompileError
                    end
                end
            end
        end
    end.
End Literals.
