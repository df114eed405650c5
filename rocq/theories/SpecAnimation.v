(** * SpecAnimation: what a page says about the animation of a name (C96). *)

From Coq Require Import String Ascii List NArith Bool Arith.
From Verif Require Import Str Ast Manager SpecManager SpecRender.
Import ListNotations.
Local Open Scope list_scope.

(** [cond] is [@keyframes] and the name [n], with white space around it. *)
Definition names_keyframes (n cond : str) : bool :=
  starts_with (lit "@keyframes") cond && str_eqb (trim (skipn 10 cond)) n.

(** The declarations of the last [@keyframes] rule of this name among the rules of a style sheet,
    if there is one: of two rules of one name CSS takes the last, and takes nothing from the
    other. *)
Fixpoint frames_after (n : str) (found : option (list item)) (l : list item) : option (list item) :=
  match l with
  | [] => found
  | i :: l' =>
      let found' :=
        match i with
        | IOpen [r] => if names_keyframes n r then Some [] else found
        | IOpen _ => found
        | IDecl (r :: _) _ _ => if names_keyframes n r then option_map (fun f => f ++ [i]) found else found
        | IDecl [] _ _ => found
        end in
      frames_after n found' l'
  end.
Definition frames (n : str) (l : list item) : option (list item) := frames_after n None l.

(** The texts of the style elements of the document, in document order. *)
Definition style_texts (d : dom) : list str :=
  flat_map (fun c => if n_in_document c
                     then flat_map (fun x => match x with EStyle _ t => [t] | EOther => [] end) (n_children c)
                     else []) d.

(** What one style element says about an animation. *)
Definition text_frames (n t : str) : option (list item) :=
  match read_css t with Some l => frames n l | None => None end.

(** What the style elements, one after the other, say about it. *)
Fixpoint animation (n : str) (texts : list str) : option (list item) :=
  match texts with
  | [] => None
  | t :: l => match animation n l with Some f => Some f | None => text_frames n t end
  end.

(** The declarations of the last [@keyframes] rule of this name that is written in a sheet. *)
Fixpoint sheet_frames_after (class : option str) (n : str) (found : option (list item)) (s : sheet)
  : option (list item) :=
  match s with
  | [] => found
  | SRule cond content :: s' =>
      sheet_frames_after class n
        (if names_keyframes n (trim (List.concat cond))
         then Some (map trim_item (flat_map (decls_of class [List.concat cond] None) content))
         else found) s'
  | SBlock _ _ :: s' => sheet_frames_after class n found s'
  end.
Definition sheet_frames (class : option str) (n : str) (s : sheet) : option (list item) :=
  sheet_frames_after class n None s.

(** No [@keyframes] in it, and no selector that looks like one. *)
Definition plain_start (s : str) : Prop :=
  match s with [] => False | c :: _ => c <> ch "@" /\ is_uni_ws c = false end.
Fixpoint no_keyframes (c : rbc) : Prop :=
  match c with
  | CAttr _ => True
  | CRule cond content =>
      starts_with (lit "@keyframes") (trim (List.concat cond)) = false
      /\ (fix all l := match l with [] => True | x :: l' => no_keyframes x /\ all l' end) content
  | CBlock sels content =>
      Forall (fun s => plain_start (List.concat s)) sels
      /\ (fix all l := match l with [] => True | x :: l' => no_keyframes x /\ all l' end) content
  end.

(** [@keyframes] rules are not inside of blocks, and no white space is before them. *)
Definition keyframes_outside (s : sheet) : Prop :=
  Forall (fun c => match c with
                   | SBlock sels content => no_keyframes (CBlock sels content)
                   | SRule cond _ => starts_with (lit "@keyframes") (trim (List.concat cond))
                                     = starts_with (lit "@keyframes") (List.concat cond)
                   end) s.
