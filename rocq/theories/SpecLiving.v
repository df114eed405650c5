(** * SpecLiving: the words in which the properties of a living application are stated. *)

From Coq Require Import String Ascii List NArith Bool Arith.
From Verif Require Import Str Ast Render Manager SpecManager SpecProgress Hooks SpecHooks Create SpecCreate
  Component SpecComponent Provider Tree SpecTree Living.
Import ListNotations.
Local Open Scope list_scope.

(** Of all components: [B] holds of the function; of all providers: [K] of the number of the
    manager, and of the data that came with the page: [D] if the provider waits, [M] if it is
    mounted. *)
Section All.
Variables (B : list bop -> Prop) (K : nat -> Prop) (D M : option (list record) -> Prop).
Fixpoint all_of_view (v : view) : Prop :=
  match v with
  | VEnd => True
  | VComp b ch nx => B b /\ all_of_view ch /\ all_of_view nx
  | VProv k d ch nx => (K k /\ D d) /\ all_of_view ch /\ all_of_view nx
  end.
Fixpoint all_of_node (n : node) : Prop :=
  match n with
  | NEnd => True
  | NWait b ch nx => B b /\ all_of_view ch /\ all_of_node nx
  | NComp _ b _ ch nx => B b /\ all_of_node ch /\ all_of_node nx
  | NProvWait k d ch nx => (K k /\ D d) /\ all_of_view ch /\ all_of_node nx
  | NProv k v ch nx => (K k /\ M (v_data v)) /\ all_of_node ch /\ all_of_node nx
  end.
Definition all_of_event (ev : event) : Prop :=
  match ev with
  | EUpdate _ b => B b
  | EMount _ v => all_of_view v
  | EManager _ k => K k
  | ERender _ | EUnmount _ _ | EDo _ => True
  end.
End All.

(** The program goes on owning the managers of the application [ms] and unregisters no style. *)
Definition other_code (ms : list nat) (ev : event) : Prop :=
  match ev with
  | EDo o => punregisters o = false /\ forall h, In h (pop_takes o) -> ~ In h ms
  | _ => True
  end.
(** Functions of components only use [css!], and the managers are among the [ms]. *)
Definition proper (ms : list nat) (ev : event) : Prop :=
  all_of_event (plain_body []) (fun k => k < List.length ms) (fun _ => True) ev /\ other_code ms ev.
Definition is_other (ev : event) : bool := match ev with EDo _ => true | _ => false end.

(** The components rendered so far: the number of the manager of the provider above (if there is
    one), whether the component is [fresh], its function, and its classes. *)
Fixpoint components (cur : option nat) (n : node)
    : list (option nat * bool * list bop * list (list str)) :=
  match n with
  | NEnd => []
  | NWait _ _ nx | NProvWait _ _ _ nx => components cur nx
  | NComp f b cls ch nx => (cur, f, b, cls) :: components cur ch ++ components cur nx
  | NProv k _ ch nx => components (Some k) ch ++ components cur nx
  end.
(** [mi] is the manager of a component: that of its provider, or the default one. *)
Definition manager_here (p : prog) (sm : nat -> nat) (cur : option nat) (mi : nat) : Prop :=
  match cur with
  | Some k => mi = sm k
  | None => exists d, a_default (p_app p) = Some d /\ owns (a_world (p_app p)) d mi
  end.

(** A manager of the application, or the default one. *)
Definition manager_used (p : prog) (ms : list nat) (sm : nat -> nat) (mi : nat) : Prop :=
  (exists k, k < List.length ms /\ mi = sm k) \/ manager_here p sm None mi.

(** Nothing is left to be rendered. *)
Fixpoint settled (n : node) : bool :=
  match n with
  | NEnd => true
  | NWait _ _ _ | NProvWait _ _ _ _ => false
  | NComp f _ _ ch nx => f && settled ch && settled nx
  | NProv _ _ ch nx => settled ch && settled nx
  end.

(** Styles can be put somewhere: the managers of the application, and a default manager if there
    has to be one, have a place for them. *)
Definition styles_ready (e : env) (page : dom) (p : prog) (ms : list nat) (sm : nat -> nat) : Prop :=
  can_style e page p None (lit "stylist")
  /\ forall k m, k < List.length ms -> nth_error (w_mgrs (a_world (p_app p))) (sm k) = Some m -> settles e page m.
(** The CSS of a function can be read back, whichever manager it is used with. *)
Definition rereads_all (e : env) (p : prog) (ms : list nat) (sm : nat -> nat) (b : list bop) : Prop :=
  forall x, In x (asks [] b) ->
    rereads e (mk_key false (lit "stylist") (snd x))
    /\ forall k m, k < List.length ms -> nth_error (w_mgrs (a_world (p_app p))) (sm k) = Some m ->
         rereads e (mk_key false (m_prefix m) (snd x)).
(** A tree all of whose nodes can be rendered: the CSS can be read back, and no provider that
    waits has data.  [M]: of the data of mounted providers. *)
Definition renders_all (e : env) (p : prog) (ms : list nat) (sm : nat -> nat)
    (M : option (list record) -> Prop) (n : node) : Prop :=
  all_of_node (rereads_all e p ms sm) (fun _ => True) (fun d => d = None) M n.
Definition event_renders (e : env) (p : prog) (ms : list nat) (sm : nat -> nat) (ev : event) : Prop :=
  all_of_event (rereads_all e p ms sm) (fun _ => True) (fun d => d = None) ev.
(** No component hands a source of styles to its children. *)
Definition hands_nothing : event -> Prop :=
  all_of_event (fun b => hands [] b = []) (fun _ => True) (fun _ => True).
(** An event that loads no style data. *)
Definition loads_nothing (ev : event) : Prop :=
  all_of_event (fun _ => True) (fun _ => True) (fun d => d = None) ev
  /\ forall o, ev = EDo o -> ploaded [o] = [].

(** The components a server has rendered: the number of the manager, the function, the classes. *)
Fixpoint served_components (cur : option nat) (l : live)
    : list (option nat * list bop * list (list str)) :=
  match l with
  | LEnd => []
  | LCompWait _ _ nx | LProvWait _ _ _ nx => served_components cur nx
  | LComp b cls ch nx => (cur, b, cls) :: served_components cur ch ++ served_components cur nx
  | LProv k _ ch nx | LProvDone k _ ch nx => served_components (Some k) ch ++ served_components cur nx
  end.
(** The tree at the end of hydration, as it goes on. *)
Fixpoint of_live (l : live) : node :=
  match l with
  | LEnd => NEnd
  | LCompWait b ch nx => NWait b ch (of_live nx)
  | LComp b cls ch nx => NComp true b cls (of_live ch) (of_live nx)
  | LProvWait k d ch nx => NProvWait k d ch (of_live nx)
  | LProv k v ch nx => NProv k v (of_live ch) (of_live nx)
  | LProvDone k _ ch nx => of_live nx (* not in the browser *)
  end.
