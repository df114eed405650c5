(** * Manager: styles, managers and the document,
    /repo/packages/stylist/src/{style,global_style,arch}.rs and manager/*.rs.

    The state holds everything the API shares: the id counter, the heap of
    [Rc<StyleContent>] cells with their strong counts, the heap of [Rc<StyleManagerBuilder>]
    cells with theirs, the handles user code holds, and the document.  All of this is
    single-threaded ([Rc], [RefCell], [thread_local!]), so a program is a sequence of [op]s. *)

From Coq Require Import String Ascii List NArith Bool Arith.
From Verif Require Import Str Ast Render CssParser Ids.
Import ListNotations.
Local Open Scope list_scope.

(** ** Keys *)

(** [derive(PartialEq)] on the AST, stylist-core/src/ast/*.rs: structural, [Cow]s and [Bow]s
    compared by content. *)
Fixpoint list_eqb {A} (e : A -> A -> bool) (a b : list A) : bool :=
  match a, b with
  | [], [] => true
  | x :: a', y :: b' => e x y && list_eqb e a' b'
  | _, _ => false
  end.

Definition attr_eqb (a b : attr) : bool :=
  str_eqb (a_key a) (a_key b) && list_eqb str_eqb (a_value a) (a_value b).

Fixpoint rbc_eqb (a b : rbc) {struct a} : bool :=
  let fix go (l m : list rbc) : bool :=
    match l, m with
    | [], [] => true
    | x :: l', y :: m' => rbc_eqb x y && go l' m'
    | _, _ => false
    end in
  match a, b with
  | CAttr x, CAttr y => attr_eqb x y
  | CRule c l, CRule d m => list_eqb str_eqb c d && go l m
  | CBlock c l, CBlock d m => list_eqb (list_eqb str_eqb) c d && go l m
  | _, _ => false
  end.

Definition scope_content_eqb (a b : scope_content) : bool :=
  match a, b with
  | SBlock c l, SBlock d m => list_eqb (list_eqb str_eqb) c d && list_eqb rbc_eqb l m
  | SRule c l, SRule d m => list_eqb str_eqb c d && list_eqb rbc_eqb l m
  | _, _ => false
  end.

Definition sheet_eqb : sheet -> sheet -> bool := list_eqb scope_content_eqb.

(** [StyleKey], manager/key.rs 14-19, with its derived [PartialEq]. *)
Record key := mk_key { k_global : bool; k_prefix : str; k_ast : sheet }.

Definition key_eqb (a b : key) : bool :=
  Bool.eqb (k_global a) (k_global b) && str_eqb (k_prefix a) (k_prefix b)
  && sheet_eqb (k_ast a) (k_ast b).

(** ** The document *)

(** A child of a container: a [<style data-style=id>] element with its text, or any other
    node.  Other nodes are taken to contain no [style[data-style]] element. *)
Inductive child :=
| EStyle (id : str) (text : str)
| EOther.

(** A node usable as a container: whether [document.querySelector] reaches it (false for a
    node in a shadow tree, in another document or detached), whether it can have element
    children (false e.g. for a text node: [append_child] throws), and its children. *)
Record container := mk_container
  { n_in_document : bool; n_accepts : bool; n_children : list child }.

(** The containers in document order.  Simplification: containers are not nested. *)
Definition dom := list container.

(** ** Rust values *)

(** [StyleContent], manager/content.rs 6-13, in its [Rc] cell.  [c_mgr] is the manager cell
    the weak pointer designates.  [c_hydrated] is a ghost (read by no function): the content
    was made by [load_style_data]. *)
Record content := mk_content
  { c_id : str; c_key : key; c_text : str; c_mgr : nat; c_hydrated : bool;
    c_strong : nat }.

(** [StyleDataContent], manager/mod.rs 307-313. *)
Record record := mk_record { r_key : key; r_id : str; r_text : str }.

(** [StyleManagerBuilder], manager/mod.rs 34-44, in its [Rc] cell.  The registry
    ([HashMap<Rc<StyleKey>, Rc<StyleContent>>], registry.rs 8-10) is an association list.
    [m_data] is the value inside the [Arc<Mutex<StyleData>>]; it has one writer
    ([StaticWriter] is consumed by [writer], ssr.rs 71-74) and its copy-on-write sharing is
    modelled in [StaticData.v]. *)
Record mgr := mk_mgr
  { m_prefix : str; m_container : option nat; m_append : bool;
    m_data : option (list record); m_reg : list (key * nat); m_strong : nat }.

(** [w_handles]: [Style]/[GlobalStyle] values of the user program, [w_mhandles]:
    [StyleManager] values; [None] once dropped.  The default manager (mod.rs 289-297) is a
    manager whose first handle is never dropped. *)
Record world := mk_world
  { w_draws : nat; w_contents : list content; w_mgrs : list mgr; w_dom : dom;
    w_handles : list (option nat); w_mhandles : list (option nat) }.

(** The build and the host: target (mod.rs 221, 267 [cfg(target_arch)]), [document()] being
    available (arch.rs 11-13), [document.head] as a container (arch.rs 16-18), the debug
    re-parse (mod.rs 173) and the stream of entropy strings (utils.rs 19-26). *)
Record env := mk_env
  { e_wasm : bool; e_document : bool; e_head : option nat; e_debug : bool;
    e_draw : nat -> str }.

(** ** List updates *)

Fixpoint upd {A} (l : list A) (i : nat) (f : A -> A) : list A :=
  match l, i with
  | [], _ => []
  | x :: l', O => f x :: l'
  | x :: l', S i' => x :: upd l' i' f
  end.

Definition set_strong (n : nat) (c : content) : content :=
  mk_content (c_id c) (c_key c) (c_text c) (c_mgr c) (c_hydrated c) n.
Definition set_reg (r : list (key * nat)) (m : mgr) : mgr :=
  mk_mgr (m_prefix m) (m_container m) (m_append m) (m_data m) r (m_strong m).
Definition set_mstrong (n : nat) (m : mgr) : mgr :=
  mk_mgr (m_prefix m) (m_container m) (m_append m) (m_data m) (m_reg m) n.
Definition set_data (d : option (list record)) (m : mgr) : mgr :=
  mk_mgr (m_prefix m) (m_container m) (m_append m) d (m_reg m) (m_strong m).
Definition set_children (l : list child) (n : container) : container :=
  mk_container (n_in_document n) (n_accepts n) l.

Definition with_dom (w : world) (d : dom) : world :=
  mk_world (w_draws w) (w_contents w) (w_mgrs w) d (w_handles w) (w_mhandles w).
Definition with_contents (w : world) (l : list content) : world :=
  mk_world (w_draws w) l (w_mgrs w) (w_dom w) (w_handles w) (w_mhandles w).
Definition with_mgrs (w : world) (l : list mgr) : world :=
  mk_world (w_draws w) (w_contents w) l (w_dom w) (w_handles w) (w_mhandles w).
Definition with_handles (w : world) (l : list (option nat)) : world :=
  mk_world (w_draws w) (w_contents w) (w_mgrs w) (w_dom w) l (w_mhandles w).
Definition with_mhandles (w : world) (l : list (option nat)) : world :=
  mk_world (w_draws w) (w_contents w) (w_mgrs w) (w_dom w) (w_handles w) l.
Definition draw (w : world) : world :=
  mk_world (S (w_draws w)) (w_contents w) (w_mgrs w) (w_dom w) (w_handles w) (w_mhandles w).

(** ** Registry *)

(** [StyleRegistry::get], registry.rs 23-25 *)
Fixpoint reg_get (r : list (key * nat)) (k : key) : option nat :=
  match r with
  | [] => None
  | (k', c) :: r' => if key_eqb k' k then Some c else reg_get r' k
  end.

(** [HashMap::remove] in [StyleRegistry::unregister], registry.rs 19-21: the remaining map and
    the removed [Rc], which is then dropped. *)
Fixpoint reg_remove (r : list (key * nat)) (k : key) : list (key * nat) * option nat :=
  match r with
  | [] => ([], None)
  | (k', c) :: r' =>
      if key_eqb k' k then (r', Some c)
      else let (r'', o) := reg_remove r' k in ((k', c) :: r'', o)
  end.

(** ** Mounting *)

(** CSS identifiers written without escapes: what may stand unquoted in the attribute
    selector of mod.rs 255. *)
Definition ident_start (c : char) : bool :=
  is_ascii_alpha c || char_eqb c (ch "_") || (128 <=? c)%N.
Definition ident_char (c : char) : bool :=
  ident_start c || is_ascii_digit c || char_eqb c (ch "-").
Definition plain_ident (s : str) : bool :=
  match s with
  | [] => false
  | c :: s' =>
      if char_eqb c (ch "-") then
        match s' with
        | [] => false
        | d :: s'' => (ident_start d || char_eqb d (ch "-")) && forallb ident_char s''
        end
      else ident_start c && forallb ident_char s'
  end.

Definition is_elem (id : str) (c : child) : bool :=
  match c with EStyle i _ => str_eqb i id | EOther => false end.

(** [parent.remove_child(&m)] for the first matching child, mod.rs 256-257. *)
Fixpoint remove_child (id : str) (l : list child) : list child :=
  match l with
  | [] => []
  | c :: l' => if is_elem id c then l' else c :: remove_child id l'
  end.

(** [document.query_selector("style[data-style={id}]")] and the removal, mod.rs 255-259: the
    first match in document order, in the containers the document reaches. *)
Fixpoint remove_first (id : str) (d : dom) : dom :=
  match d with
  | [] => []
  | n :: d' =>
      if n_in_document n && existsb (is_elem id) (n_children n)
      then set_children (remove_child id (n_children n)) n :: d'
      else n :: remove_first id d'
  end.

(** [StyleManager::unmount], mod.rs 249-264 (wasm) and 277-280 (other targets); the error is
    ignored by the only caller (content.rs 46).  For an id that is no plain identifier the
    query is taken to throw a [SyntaxError].  Simplification: ids with CSS escapes, or with
    characters that extend the selector, are not interpreted. *)
Definition unmount (e : env) (id : str) (d : dom) : dom :=
  if e_wasm e && e_document e && plain_ident id then remove_first id d else d.

(** [StyleManager::mount], mod.rs 222-245 (wasm) and 269-272 (other targets); [None] is an
    error.  In prepend mode on a container with a first child [m] the code calls
    [m.insert_before(&style_element, Some(&m))] (237): the DOM's pre-insertion validity check
    demands that the reference child [m] be a child of the node it is inserted into, [m]
    itself, so it always throws ([NotFoundError], or [HierarchyRequestError] when [m] cannot
    have children). *)
Definition mount (e : env) (m : mgr) (id text : str) (d : dom) : option dom :=
  if negb (e_wasm e) then Some d
  else if negb (e_document e) then None
  else match m_container m with
       | None => None
       | Some k =>
           match nth_error d k with
           | None => None
           | Some n =>
               if negb (m_append m) && negb (match n_children n with [] => true | _ => false end)
               then None
               else if n_accepts n
                    then Some (upd d k (set_children (n_children n ++ [EStyle id text])))
                    else None
           end
       end.

(** ** Reference counts *)

(** [Rc::clone] of a content. *)
Definition retain (cid : nat) (w : world) : world :=
  with_contents w (upd (w_contents w) cid (fun c => set_strong (S (c_strong c)) c)).

(** Dropping an [Rc<StyleContent>]: at zero, [Drop for StyleContent], content.rs 43-48. *)
Definition release (e : env) (cid : nat) (w : world) : world :=
  match nth_error (w_contents w) cid with
  | None => w
  | Some c =>
      let n := Nat.pred (c_strong c) in
      let w1 := with_contents w (upd (w_contents w) cid (set_strong n)) in
      if Nat.eqb n 0 && negb (Nat.eqb (c_strong c) 0)
      then with_dom w1 (unmount e (c_id c) (w_dom w1)) else w1
  end.

Definition release_all (e : env) (l : list nat) (w : world) : world :=
  fold_left (fun w cid => release e cid w) l w.

(** ** Operations *)

(** Results: a new handle (its index), nothing, an [Err], a panic, read style data, or no
    such handle (excluded by Rust's ownership; the state is unchanged). *)
Inductive res :=
| RHandle (h : nat)
| RDone
| RErr
| RPanic
| RData (d : list record)
| RInvalid.

Definition handle_of (l : list (option nat)) (h : nat) : option nat :=
  match nth_error l h with Some (Some x) => Some x | _ => None end.

Definition is_parsed (r : parse_result) : bool :=
  match r with Parsed _ => true | _ => false end.

(** mod.rs 169: the text of a style. *)
Definition style_text (k : key) (id : str) : str :=
  to_style_str (if k_global k then None else Some id) (k_ast k).

(** The new content, registered and handed out: mod.rs 178-184 and 197/205; two references,
    one in the registry and one returned.  [register] (registry.rs 13-17) panics on an
    occupied key; [get] just found it vacant. *)
Definition admit_content (mi : nat) (k : key) (id text : str) (w : world) : world :=
  let cid := List.length (w_contents w) in
  mk_world (w_draws w)
    (w_contents w ++ [mk_content id k text mi false 2])
    (upd (w_mgrs w) mi (fun m => set_reg (m_reg m ++ [(k, cid)]) m))
    (w_dom w)
    (w_handles w ++ [Some cid])
    (w_mhandles w).

(** [get_or_register_style], mod.rs 155-208.  On a mount error the fresh [Rc] is dropped when
    the function returns, which unmounts its id. *)
Definition get_or_register (e : env) (mi : nat) (k : key) (w : world) : world * res :=
  match nth_error (w_mgrs w) mi with
  | None => (w, RInvalid)
  | Some m =>
      match reg_get (m_reg m) k with
      | Some cid =>
          let w1 := retain cid w in
          (with_handles w1 (w_handles w1 ++ [Some cid]), RHandle (List.length (w_handles w)))
      | None =>
          let id := new_id (k_global k) (k_prefix k) (e_draw e (w_draws w)) in
          let text := style_text k id in
          let w1 := draw w in
          if e_debug e && negb (is_parsed (parse text)) then (w1, RPanic)
          else
            match m_data m with
            | Some l =>
                let w2 := with_mgrs w1
                            (upd (w_mgrs w1) mi (set_data (Some (l ++ [mk_record k id text])))) in
                (admit_content mi k id text w2, RHandle (List.length (w_handles w)))
            | None =>
                match mount e m id text (w_dom w1) with
                | Some d =>
                    (admit_content mi k id text (with_dom w1 d),
                     RHandle (List.length (w_handles w)))
                | None => (with_dom w1 (unmount e id (w_dom w1)), RErr)
                end
            end
      end
  end.

(** [StyleManagerBuilder::build], mod.rs 96-106.  On wasm a missing container becomes the
    document's head, or an error. *)
Definition build (e : env) (prefix : str) (cont : option nat) (append static : bool)
    (w : world) : world * res :=
  let made c :=
    (with_mhandles
       (with_mgrs w (w_mgrs w ++
          [mk_mgr prefix c append (if static then Some [] else None) [] 1]))
       (w_mhandles w ++ [Some (List.length (w_mgrs w))]),
     RHandle (List.length (w_mhandles w))) in
  if e_wasm e
  then match cont with
       | Some c => made (Some c)
       | None => if e_document e
                 then match e_head e with Some h => made (Some h) | None => (w, RErr) end
                 else (w, RErr)
       end
  else made cont.

(** [StyleManager::clone], mod.rs 122. *)
Definition clone_manager (h : nat) (w : world) : world * res :=
  match handle_of (w_mhandles w) h with
  | None => (w, RInvalid)
  | Some mi =>
      (with_mhandles (with_mgrs w (upd (w_mgrs w) mi (fun m => set_mstrong (S (m_strong m)) m)))
         (w_mhandles w ++ [Some mi]), RHandle (List.length (w_mhandles w)))
  end.

(** Dropping a [StyleManager]: with the last one the builder goes, and its registry with it. *)
Definition drop_manager (e : env) (h : nat) (w : world) : world * res :=
  match handle_of (w_mhandles w) h with
  | None => (w, RInvalid)
  | Some mi =>
      match nth_error (w_mgrs w) mi with
      | None => (w, RInvalid)
      | Some m =>
          let n := Nat.pred (m_strong m) in
          let w1 := with_mhandles w (upd (w_mhandles w) h (fun _ => None)) in
          if Nat.eqb n 0
          then (release_all e (map snd (m_reg m))
                  (with_mgrs w1 (upd (w_mgrs w1) mi (fun m => set_mstrong 0 (set_reg [] m)))),
                RDone)
          else (with_mgrs w1 (upd (w_mgrs w1) mi (set_mstrong n)), RDone)
      end
  end.

(** [Style::clone], style.rs 75. *)
Definition clone_style (h : nat) (w : world) : world * res :=
  match handle_of (w_handles w) h with
  | None => (w, RInvalid)
  | Some cid =>
      let w1 := retain cid w in
      (with_handles w1 (w_handles w1 ++ [Some cid]), RHandle (List.length (w_handles w)))
  end.

(** Dropping a [Style] or [GlobalStyle]. *)
Definition drop_style (e : env) (h : nat) (w : world) : world * res :=
  match handle_of (w_handles w) h with
  | None => (w, RInvalid)
  | Some cid =>
      (release e cid (with_handles w (upd (w_handles w) h (fun _ => None))), RDone)
  end.

(** [Style::unregister], style.rs 219-221, content.rs 36-40, mod.rs 210-212, registry.rs
    19-21: by key, in the manager if it still exists. *)
Definition unregister_style (e : env) (h : nat) (w : world) : world * res :=
  match handle_of (w_handles w) h with
  | None => (w, RInvalid)
  | Some cid =>
      match nth_error (w_contents w) cid with
      | None => (w, RInvalid)
      | Some c =>
          match nth_error (w_mgrs w) (c_mgr c) with
          | None => (w, RInvalid)
          | Some m =>
              if Nat.eqb (m_strong m) 0 then (w, RDone)
              else
                let (r, o) := reg_remove (m_reg m) (c_key c) in
                let w1 := with_mgrs w (upd (w_mgrs w) (c_mgr c) (set_reg r)) in
                (match o with Some x => release e x w1 | None => w1 end, RDone)
          end
      end
  end.

(** [load_style_data], mod.rs 371-398: one record.  [None] is the failed assertion. *)
Definition load_one (mi : nat) (r : record) (w : world) : option world :=
  match nth_error (w_mgrs w) mi with
  | None => Some w
  | Some m =>
      match reg_get (m_reg m) (r_key r) with
      | Some cid =>
          match nth_error (w_contents w) cid with
          | Some c => if str_eqb (c_id c) (r_id r) then Some w else None
          | None => Some w
          end
      | None =>
          let cid := List.length (w_contents w) in
          let text := to_style_str (Some (r_id r)) (k_ast (r_key r)) in
          Some (with_mgrs
                  (with_contents w
                     (w_contents w ++ [mk_content (r_id r) (r_key r) text mi true 1]))
                  (upd (w_mgrs w) mi (fun m => set_reg (m_reg m ++ [(r_key r, cid)]) m)))
      end
  end.

Fixpoint load_data (mi : nat) (l : list record) (w : world) : world * res :=
  match l with
  | [] => (w, RDone)
  | r :: l' => match load_one mi r w with
               | Some w1 => load_data mi l' w1
               | None => (w, RPanic)
               end
  end.

(** [StyleManager::style_data().clone()] (ssr.rs 84-90, yew/provider.rs 48-53) or
    [StaticReader::read_style_data] (ssr.rs 20-25). *)
Definition read_data (mi : nat) (w : world) : res :=
  match nth_error (w_mgrs w) mi with
  | Some m => RData (match m_data m with Some l => l | None => [] end)
  | None => RInvalid
  end.

(** What a program does.  [OCreate h k] is [Style::create_with_manager] (style.rs 154-162, 83-101) or
    [GlobalStyle::new_with_manager] (global_style.rs 20-63) on the manager behind handle [h];
    [OInsertOther]/[ORemoveOther] are other code editing the page around our elements. *)
Inductive op :=
| OBuild (prefix : str) (cont : option nat) (append static : bool)
| OCloneManager (h : nat)
| ODropManager (h : nat)
| OCreate (h : nat) (k : key)
| OCloneStyle (h : nat)
| ODropStyle (h : nat)
| OUnregister (h : nat)
| OLoad (h : nat) (d : list record)
| ORead (h : nat)
| OInsertOther (n pos : nat)
| ORemoveOther (n pos : nat).

Fixpoint insert_at {A} (l : list A) (i : nat) (x : A) : list A :=
  match i, l with
  | S i', y :: l' => y :: insert_at l' i' x
  | _, _ => x :: l
  end.

Fixpoint remove_other (l : list child) (i : nat) : list child :=
  match l, i with
  | EOther :: l', O => l'
  | _, O => l
  | y :: l', S i' => y :: remove_other l' i'
  | [], _ => []
  end.

Definition step (e : env) (w : world) (o : op) : world * res :=
  match o with
  | OBuild p c a s => build e p c a s w
  | OCloneManager h => clone_manager h w
  | ODropManager h => drop_manager e h w
  | OCreate h k =>
      match handle_of (w_mhandles w) h with
      | None => (w, RInvalid)
      | Some mi => get_or_register e mi k w
      end
  | OCloneStyle h => clone_style h w
  | ODropStyle h => drop_style e h w
  | OUnregister h => unregister_style e h w
  | OLoad h d =>
      match handle_of (w_mhandles w) h with
      | None => (w, RInvalid)
      | Some mi => load_data mi d w
      end
  | ORead h =>
      match handle_of (w_mhandles w) h with
      | None => (w, RInvalid)
      | Some mi => (w, read_data mi w)
      end
  | OInsertOther n pos =>
      (with_dom w (upd (w_dom w) n
         (fun c => set_children (insert_at (n_children c) pos EOther) c)), RDone)
  | ORemoveOther n pos =>
      (with_dom w (upd (w_dom w) n
         (fun c => set_children (remove_other (n_children c) pos) c)), RDone)
  end.

(** Histories: the states and results of a program. *)
Fixpoint run (e : env) (w : world) (l : list op) : world * list res :=
  match l with
  | [] => (w, [])
  | o :: l' =>
      let (w1, r) := step e w o in
      let (w2, rs) := run e w1 l' in (w2, r :: rs)
  end.

(** The initial state of a program, in a page [d]. *)
Definition start (d : dom) : world := mk_world 0 [] [] d [] [].

(** What user code can ask of a handle: [get_class_name]/[id] (style.rs 179-181, 224-226) and
    [get_style_str] (201-203). *)
Definition handle_content (w : world) (h : nat) : option content :=
  match handle_of (w_handles w) h with
  | Some cid => nth_error (w_contents w) cid
  | None => None
  end.
Definition get_id (w : world) (h : nat) : option str := option_map c_id (handle_content w h).
Definition get_style_str (w : world) (h : nat) : option str :=
  option_map c_text (handle_content w h).

(** [Style::create]/[new_with_manager] and [GlobalStyle::new_with_manager] as keys:
    style.rs 91-95, 149, and global_style.rs 24-28. *)
Definition style_key (prefix : str) (s : sheet) : key := mk_key false prefix s.
Definition global_key (m : mgr) (s : sheet) : key := mk_key true (m_prefix m) s.
