(** * Attr: the attributes [styled_component] and [styled_component_impl],
    /repo/packages/stylist-macros/src/{styled_component,styled_component_impl}.rs.

    What the attribute makes of the tokens of a function.  The parser of items of [syn] is not
    modelled: it is an argument. *)

From Coq Require Import String Ascii List NArith Bool Arith.
From Verif Require Import Str Tok.
Import ListNotations.
Local Open Scope list_scope.

(** ** Tokens with hygiene *)

(** The span of an identifier as far as names are resolved by it: [Span::call_site()], which is
    also that of all tokens of the user, or [Span::mixed_site()]. *)
Inductive site := CallSite | MixedSite.
Definition site_eqb (a b : site) : bool :=
  match a, b with CallSite, CallSite | MixedSite, MixedSite => true | _, _ => false end.

Inductive htok :=
| HIdent (s : str) (h : site)
| HPunct (c : char) (joint : bool)
| HLit (text : str)
| HGroup (d : delim) (l : list htok).

(** A token of the user. *)
Fixpoint user (t : rtok) : htok :=
  match t with
  | RIdent s => HIdent s CallSite
  | RPunct c j => HPunct c j
  | RLit s => HLit s
  | RGroup d l => HGroup d (map user l)
  end.

(** ** The input *)

(** [syn::Item], as far as the attribute looks into it: an [ItemFn] with the tokens of its
    parts, or anything else.  The block is without its braces. *)
Record fn_item := mk_fn
  { i_attrs : list rtok; i_vis : list rtok; i_sig : list rtok; i_block : list rtok }.
Inductive item := IFn (f : fn_item) | IOther.

(** What [syn] does not accept as an identifier: the underscore and the keywords (syn 1,
    src/ident.rs, not in /repo). *)
Definition keywords : list str :=
  map lit ["_"; "abstract"; "as"; "async"; "await"; "become"; "box"; "break"; "const"; "continue";
           "crate"; "do"; "dyn"; "else"; "enum"; "extern"; "false"; "final"; "fn"; "for"; "if"; "impl";
           "in"; "let"; "loop"; "macro"; "match"; "mod"; "move"; "mut"; "override"; "priv"; "pub";
           "ref"; "return"; "Self"; "self"; "static"; "struct"; "super"; "trait"; "true"; "try";
           "type"; "typeof"; "unsafe"; "unsized"; "use"; "virtual"; "where"; "while"; "yield"]%string.

(** [StyledComponentArgs], styled_component.rs 9-25; [parse_macro_input!] wants all tokens used. *)
Inductive args := ANamed (n : str) | AEmpty.
Definition parse_args (l : list rtok) : option args :=
  match l with
  | [] => Some AEmpty
  | [RIdent n] => if existsb (str_eqb n) keywords then None else Some (ANamed n)
  | _ => None
  end.
(** [StyledComponentBaseArgs], styled_component_impl.rs 25-35. *)
Definition parse_no_args (l : list rtok) : option unit :=
  match l with [] => Some tt | _ => None end.

(** ** The output *)

(** The tokens of [quote!] have the span [call_site]. *)
Definition q (s : string) : htok := HIdent (lit s) CallSite.
Definition p (c : ascii) : htok := HPunct (ch c) false.
Definition pj (c : ascii) : htok := HPunct (ch c) true.
Definition colons : list htok := [pj ":"; p ":"].
Definition path (l : list string) : list htok := flat_map (fun s => colons ++ [q s]) l.
Definition parens (l : list htok) : htok := HGroup Paren l.
Definition braces (l : list htok) : htok := HGroup Brace l.
Definition attribute (l : list htok) : list htok := [p "#"; HGroup Bracket l].

(** styled_component_impl.rs 47 *)
Definition mgr_name : str := lit "__stylist_style_manager__".
Definition mgr_ident : htok := HIdent mgr_name MixedSite.

(** styled_component_impl.rs 48-58 *)
Definition macro_body : list htok :=
  path ["stylist"; "css"]%string
  ++ [p "!"; parens [p "$"; parens [p "$"; q "args"]; p "*"]; p "."; q "with_manager";
      parens [braces (attribute [q "allow"; parens [q "clippy"; pj ":"; p ":"; q "redundant_clone"]]
                      ++ [mgr_ident; p "."; q "clone"; parens []])]].
Definition macro_tokens : list htok :=
  attribute [q "allow"; parens [q "unused_macros"]]
  ++ [q "macro_rules"; p "!"; q "css";
      braces [parens [p "$"; parens [p "$"; q "args"; p ":"; q "tt"]; p "*"]; pj "="; p ">";
              braces macro_body]].

(** styled_component_impl.rs 62 *)
Definition let_manager : list htok :=
  [q "let"; mgr_ident; p "="]
  ++ path ["yew"; "functional"; "use_context"]%string ++ colons
  ++ [p "<"] ++ path ["stylist"; "manager"; "StyleManager"]%string ++ [p ">"; parens []; p ".";
      q "unwrap_or_default"; parens []; p ";"].

(** [styled_component_impl_impl], styled_component_impl.rs 37-69 *)
Definition new_body (f : fn_item) : list htok :=
  let_manager ++ macro_tokens ++ [braces (map user (i_block f))].
Definition expand_fn (f : fn_item) : list htok :=
  map user (i_attrs f) ++ map user (i_vis f) ++ map user (i_sig f) ++ [braces (new_body f)].

(** [styled_component_impl], styled_component.rs 42-59 *)
Definition expand_component (a : args) (f : fn_item) : list htok :=
  attribute (path ["yew"; "functional"; "function_component"]%string
             ++ [parens (match a with ANamed n => [HIdent n CallSite] | AEmpty => [] end)])
  ++ expand_fn f.

(** A compile error, in the order in which they are found. *)
Inductive outcome := Expanded (l : list htok) | BadItem | NotAFunction | BadArgs.

(** [macro_fn] of both files, styled_component.rs 61-71 and styled_component_impl.rs 71-81; the
    item is parsed before the arguments. *)
Definition styled_component (syn : list rtok -> option item) (attr tokens : list rtok) : outcome :=
  match syn tokens with
  | None => BadItem
  | Some IOther => NotAFunction
  | Some (IFn f) => match parse_args attr with Some a => Expanded (expand_component a f) | None => BadArgs end
  end.
Definition styled_component_impl (syn : list rtok -> option item) (attr tokens : list rtok) : outcome :=
  match syn tokens with
  | None => BadItem
  | Some IOther => NotAFunction
  | Some (IFn f) => match parse_no_args attr with Some _ => Expanded (expand_fn f) | None => BadArgs end
  end.
