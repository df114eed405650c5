(** * SpecReparse: sheets whose generated CSS the library can read back.

    Side conditions for C13, on the sheet and the class name only.  Written without reference
    to the renderer or the parser models. *)

From Coq Require Import String Ascii List NArith Bool.
From Verif Require Import Str Ast SpecRender SpecSays SpecGrammar.
Import ListNotations.
Local Open Scope list_scope.

(** Selector texts: double-quoted strings closed, and outside of them none of
    [$ , { } @ ;], and slashes only between other text and not in [/*].  [None] if the text
    is not of this form. *)
Inductive sel_mode := SOut | SSlash | SIn | SEsc.
Definition sel_step (m : sel_mode) (c : char) : option sel_mode :=
  match m with
  | SOut => if char_eqb c 34%N then Some SIn
            else if char_eqb c (ch "/") then Some SSlash
            else if mem c (lit "$,{}@;") then None else Some SOut
  | SSlash => if mem c (lit "$,{}@;*" ++ [34%N]) then None else Some SOut
  | SIn => if char_eqb c 34%N then Some SOut
           else if char_eqb c backslash then Some SEsc else Some SIn
  | SEsc => Some SIn
  end.
Fixpoint sel_scan (m : sel_mode) (s : str) : option sel_mode :=
  match s with
  | [] => Some m
  | c :: s' => match sel_step m c with Some m' => sel_scan m' s' | None => None end
  end.
Definition good_selector (s : str) : Prop := sel_scan SOut s = Some SOut /\ tight s.

(** Class names: as generated, with any prefix made of such chars. *)
Definition good_class (class : option str) : Prop :=
  match class with
  | None => True
  | Some c => c <> [] /\ Forall (fun x => ~ In x (lit "$,{}@;/&" ++ [34%N; backslash])
                                         /\ is_uni_ws x = false) c
  end.

Definition good_attr (a : attr) : Prop :=
  name (a_key a) /\ trim (a_key a) = a_key a
  /\ value_text (List.concat (a_value a)) /\ tight (List.concat (a_value a)).

(** [@name condition] *)
Definition good_at (names : list str) (t : str) : Prop :=
  exists n b, t = n ++ lit " " ++ b /\ In n names /\ cond_text b /\ tight b.

(** The condition of a frame: a selector list ([from], [50%], [0%, 100%], ...). *)
Definition good_frame_condition (t : str) : Prop :=
  (exists l, writes_sels (t ++ lit " ") l) /\ tight t /\ hd_error t <> Some (ch "/").

Inductive good_frame_content : rbc -> Prop :=
| gf_attr a : good_attr a -> good_frame_content (CAttr a)
| gf_rule cond content :
    good_at group_names (List.concat cond) -> Forall good_frame_content content ->
    good_frame_content (CRule cond content).

Inductive good_frame : rbc -> Prop :=
| g_frame cond content :
    good_frame_condition (List.concat cond) -> Forall good_frame_content content ->
    good_frame (CRule cond content).

Inductive good_block_content : rbc -> Prop :=
| gb_attr a : good_attr a -> good_block_content (CAttr a)
| gb_rule cond content :
    good_at group_names (List.concat cond) -> Forall good_block_content content ->
    good_block_content (CRule cond content)
| gb_block sels content :
    Forall (fun s => good_selector (List.concat s)) sels -> Forall good_block_content content ->
    good_block_content (CBlock sels content).

(** Outside of blocks.  A keyframes rule must contain a declaration. *)
Inductive good_top : rbc -> Prop :=
| gt_block sels content :
    Forall (fun s => good_selector (List.concat s)) sels -> Forall good_block_content content ->
    good_top (CBlock sels content)
| gt_rule cond content :
    good_at group_names (List.concat cond) -> Forall good_top content ->
    good_top (CRule cond content)
| gt_keyframes cond content :
    good_at [lit "@keyframes"] (List.concat cond) -> Forall good_frame content ->
    forallb silent content = false ->
    good_top (CRule cond content).

Definition good_sheet (s : sheet) : Prop := Forall (fun c => good_top (rbc_of_scope c)) s.

(** Every keyframes rule of the sheet contains a declaration. *)
Fixpoint keyframes_say (c : rbc) : Prop :=
  match c with
  | CAttr _ => True
  | CRule cond content =>
      (starts_with (lit "@keyframes") (List.concat cond) = true -> forallb silent content = false)
      /\ (fix all l := match l with [] => True | c :: l' => keyframes_say c /\ all l' end) content
  | CBlock _ content =>
      (fix all l := match l with [] => True | c :: l' => keyframes_say c /\ all l' end) content
  end.
Definition keyframes_say_something (s : sheet) : Prop :=
  Forall (fun c => keyframes_say (rbc_of_scope c)) s.
