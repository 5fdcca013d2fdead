(** What the generated declarations, assignments and visits have to satisfy. *)
From Coq Require Import List NArith PeanoNat Bool.
From Verif Require Import Base ItemModel InlineSpec MembersModel.
Import ListNotations.

(** ** Names in the output, as C++ has it
    A variable is the one of the innermost scope that has its name; a scope has a
    name once; a member of the node is one of those of its struct; the type of a
    value is that of where it goes. *)
Inductive visible : list (list var) -> text -> bool * ctype -> Prop :=
| vis_here here outer x ty : In (x, ty) here -> visible (here :: outer) x ty
| vis_outer here outer x ty : ~ In x (map fst here) -> visible outer x ty -> visible (here :: outer) x ty.
Inductive well_named (struct : list var) : list (list var) -> list stmt -> Prop :=
| wn_nil sc : well_named struct sc []
| wn_var here outer v l : ~ In (fst v) (map fst here) -> well_named struct ((v :: here) :: outer) l -> well_named struct (here :: outer) (SVar v :: l)
| wn_member sc x ty l : In (x, ty) struct -> well_named struct sc l -> well_named struct sc (SMember x ty :: l)
| wn_assign sc x ty l : visible sc x ty -> well_named struct sc l -> well_named struct sc (SAssign x ty :: l)
| wn_use sc x ty l : visible sc x ty -> well_named struct sc l -> well_named struct sc (SUse x ty :: l)
| wn_block sc b l : well_named struct ([] :: sc) b -> well_named struct sc l -> well_named struct sc (SBlock b :: l).
(** The body of a function is in the scope of its parameters. *)
Definition good_method (struct : list var) (m : list var * list stmt) : Prop :=
  NoDup (map fst (fst m)) /\ well_named struct [fst m] (snd m).

(** ** What is declared *)
(** The annotations in an item, also in the rules inlined there. *)
Inductive annotated (g : grammar) : item -> text -> bool -> bool -> atom -> Prop :=
| an_here x m s a : annotated g (IAnn x m s a) x m s a
| an_inl n t r x m s a : target g n = Some t -> first_rule t (rules g) r -> annotated g (ritem r) x m s a -> annotated g (IInl n) x m s a
| an_plus i x m s a : annotated g i x m s a -> annotated g (IPlus i) x m s a
| an_star i x m s a : annotated g i x m s a -> annotated g (IStar i) x m s a
| an_act i x m s a : annotated g i x m s a -> annotated g (IAct i) x m s a
| an_cond i x m s a : annotated g i x m s a -> annotated g (ICond i) x m s a
| an_try i x m s a : annotated g i x m s a -> annotated g (ITry i) x m s a
| an_alt_l i j x m s a : annotated g i x m s a -> annotated g (IAlt i j) x m s a
| an_alt_r i j x m s a : annotated g j x m s a -> annotated g (IAlt i j) x m s a
| an_cons_l i j x m s a : annotated g i x m s a -> annotated g (ICons i j) x m s a
| an_cons_r i j x m s a : annotated g j x m s a -> annotated g (ICons i j) x m s a
| an_roll_l i j x m s a : annotated g i x m s a -> annotated g (IRollback i j) x m s a
| an_roll_r i j x m s a : annotated g j x m s a -> annotated g (IRollback i j) x m s a.
(** The rules inlined in an item, directly or not. *)
Inductive inlined_rule (g : grammar) : item -> rule -> Prop :=
| ir_here i n t r : inlined n i -> target g n = Some t -> first_rule t (rules g) r -> inlined_rule g i r
| ir_there i n t q r : inlined n i -> target g n = Some t -> first_rule t (rules g) q -> inlined_rule g (ritem q) r -> inlined_rule g i r.
(** An annotation declares the variable for a token or a node; the rules inlined
    come with their declarations. *)
Definition declared_in (g : grammar) (i : item) (d : decl) : Prop :=
  (exists x m s a, annotated g i x m s a /\
     d = Decl x m false (match a with ATerm _ => VToken | ANon _ => VNode end) s (match a with ATerm t => t | ANon t => t end)) \/
  (exists r, inlined_rule g i r /\ In d (rdecls r)).
Definition declared (g : grammar) (r : rule) (d : decl) : Prop := In d (rdecls r) \/ declared_in g (ritem r) d.
(** The statement occurs, in whatever block. *)
Inductive occurs (q : stmt) : list stmt -> Prop :=
| oc_here l : occurs q (q :: l)
| oc_there p l : occurs q l -> occurs q (p :: l)
| oc_block b l : occurs q b -> occurs q (SBlock b :: l).
(** What an annotation stores, and where. *)
Definition value_type (a : atom) : ctype := match a with ATerm _ => CInt | ANon s => CNode s end.
Definition store (x : text) (m s : bool) (a : atom) : stmt :=
  let target := if s then x ++ [83; 101; 113; 117; 101; 110; 99; 101]%N else x in
  if m then SMember target (s, value_type a) else SAssign target (s, value_type a).

(** ** What the grammar has to keep to *)
(** Declarations of one name are of one kind. *)
Definition consistent (P : decl -> Prop) : Prop :=
  forall d e, P d -> P e -> dname d = dname e -> dmember d = dmember e /\ as_var d = as_var e.
(** No name is another one with Sequence behind it, where that would matter. *)
Definition apart (P : decl -> Prop) : Prop := forall d e, P d -> P e -> shown d = shown e -> dname d = dname e.
(** Arguments are declared by the rule itself, each once. *)
Definition no_arguments (P : decl -> Prop) : Prop := forall d, P d -> dargument d = false.
Definition argument_names (ds : list decl) : list text := map dname (filter dargument ds).
(** Tokens are kept in the node, or in lists. *)
Definition tokens_kept (P : decl -> Prop) : Prop := forall d, P d -> dkind d = VToken -> dseq d = false -> dmember d = true.
(** Of the declarations of a rule, the first is of a node kept in the AST, if any is. *)
Definition node_member (d : decl) : bool := (dmember d && match dkind d with VNode => true | _ => false end)%bool.
Definition leads (r : rule) : Prop :=
  existsb node_member (rdecls r) = true -> exists d l, rdecls r = d :: l /\ node_member d = true.

(** ** The tree *)
(** A node: its address, its symbol, and for every member that holds nodes the
    nodes in it (for a member that is no list: none or one). *)
Inductive tree := Tree (id : nat) (s : text) (fields : list (text * list tree)).
Fixpoint preorder (t : tree) : list nat :=
  match t with Tree id _ fs => id :: flat_map (fun f => flat_map preorder (snd f)) fs end.
Definition symbol_of (t : tree) : text := match t with Tree _ s _ => s end.
Definition is_node_var (v : var) : bool := match snd (snd v) with CNode _ => true | _ => false end.
(** The node has the members of its struct. *)
Inductive conforms (struct : text -> list var) : tree -> Prop :=
| conforms_tree id s fs :
    Forall2 (fun f v => fst f = fst v /\ (fst (snd v) = true \/ length (snd f) <= 1)) fs (filter is_node_var (struct s)) ->
    Forall (fun f => Forall (conforms struct) (snd f)) fs ->
    conforms struct (Tree id s fs).
(** The calls of the default visitor, beginning with visitNode(t): the addresses of
    the nodes in the order of the calls.  [v]: the calls in the method of a
    symbol. *)
Fixpoint visit_all {A} (f : A -> option (list nat)) (l : list A) : option (list nat) :=
  match l with [] => Some [] | x :: l => do a <- f x; do b <- visit_all f l; Some (a ++ b) end.
Definition field (x : text) (fs : list (text * list tree)) : option (list tree) := option_map snd (find (fun f => teq (fst f) x) fs).
Fixpoint visit (v : text -> list (text * bool)) (fuel : nat) (t : tree) : option (list nat) :=
  match fuel with
  | 0 => None
  | S f =>
    match t with
    | Tree id s fs =>
      do l <- visit_all (fun c : text * bool => do ts <- field (fst c) fs; visit_all (visit v f) (if snd c then ts else firstn 1 ts)) (v s);
      Some (id :: l)
    end
  end.
