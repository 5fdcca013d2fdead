(** What an AST says about the text: derivations that keep the annotated pieces. *)
From Coq Require Import List Bool PeanoNat.
From Verif Require Import GrammarModel GrammarSpec ParserSpec TreeModel.
Import ListNotations.

(** An annotated piece: the variable and the token or node. *)
Definition capture := (var * val)%type.
(** What a variable holds after some pieces: a sequence all of them in order, any
    other variable the last one. *)
Definition pieces (x : var) (cs : list capture) : list val := map snd (filter (fun c => var_eqb x (fst c)) cs).
Definition last_of (l : list val) : list val := match rev l with [] => [] | v :: _ => [v] end.
Definition content (x : var) (cs : list capture) : list val := if snd x then pieces x cs else last_of (pieces x cs).

Section S.
Variable g : grammar.
Variable tok : nat -> id.
Variable decl : id -> var.
Notation kind := (kind g).
(** [matches n i j cs]: the tokens i ... j-1 can be derived from the item [n], and
    the annotated pieces are, from left to right, [cs].  A node for a symbol covers
    the tokens derived from it and holds the pieces of its rule. *)
Inductive matches : id -> nat -> nat -> list capture -> Prop :=
| k_zero n i : kind n = NZero -> matches n i i []
| k_term n i : kind n = NTerm -> tok i = n -> matches n i (S i) []
| k_non n s e b i j cs : kind n = NNon s -> In e (grules g) -> kind e = NEvolve b s -> matches b i j cs -> matches n i j []
| k_inl n s e b i j cs : kind n = NInl s -> In e (grules g) -> kind e = NEvolve b s -> matches b i j cs -> matches n i j cs
| k_plus_one n b x y i j cs : kind n = NPlus b x y -> matches b i j cs -> matches n i j cs
| k_plus n b x y i j k cs ds : kind n = NPlus b x y -> matches b i j cs -> matches n j k ds -> matches n i k (cs ++ ds)
| k_star_none n b x y i : kind n = NStar b x y -> matches n i i []
| k_star n b x y i j k cs ds : kind n = NStar b x y -> matches b i j cs -> matches n j k ds -> matches n i k (cs ++ ds)
| k_code n i : kind n = NAct None -> matches n i i []
| k_act n b i j cs : kind n = NAct (Some b) -> matches b i j cs -> matches n i j cs
| k_cond n b i j cs : kind n = NCond b -> matches b i j cs -> matches n i j cs
| k_left n l r i j cs : kind n = NAlt l r -> matches l i j cs -> matches n i j cs
| k_right n l r i j cs : kind n = NAlt l r -> matches r i j cs -> matches n i j cs
| k_cons n l r i j k cs ds : kind n = NCons l r -> matches l i j cs -> matches r j k ds -> matches n i k (cs ++ ds)
| k_try n t c i j cs : kind n = NTry t c -> matches t i j cs -> matches n i j cs
| k_catch n t c i j cs : kind n = NTry t (Some c) -> matches c i j cs -> matches n i j cs
| k_token n t i : kind n = NAnn t -> kind t = NTerm -> tok i = t -> matches n i (S i) [(decl n, VTok i)]
| k_node n m s e b i j cs vs : kind n = NAnn m -> kind m = NNon s -> In e (grules g) -> kind e = NEvolve b s -> matches b i j cs ->
    (forall x, lookup x vs = content x cs) -> matches n i j [(decl n, VNode s i j vs)].
(** The AST of the symbol [s] for the tokens i ... j-1. *)
Definition tree_of (s : id) (i j : nat) (v : val) : Prop :=
  exists e b cs vs, In e (grules g) /\ kind e = NEvolve b s /\ matches b i j cs /\ v = VNode s i j vs /\ forall x, lookup x vs = content x cs.

(** A repeated item is never empty. *)
Definition loops_not_empty : Prop := forall n b x y, kind n = NStar b x y \/ kind n = NPlus b x y -> ~ derives g b [].
(** No operator expressions. *)
Definition no_operators : Prop := forall n b ops x, kind n <> NOper b ops x.
(** An inlined rule can be left out without leaving out an annotated piece. *)
Definition inlined_can_go : Prop := forall n s, kind n = NInl s -> exists e b, In e (grules g) /\ kind e = NEvolve b s /\ forall i, matches b i i [].
(** Nothing is annotated in the first part of a try/rollback block. *)
Definition plain_attempts : Prop := exists Q : id -> Prop, (forall n t c, kind n = NTry t (Some c) -> Q t) /\ (forall n, Q n -> forall i, kind n <> NAnn i) /\
  (forall n m, Q n -> child g n m -> Q m) /\ (forall n s e b, Q n -> kind n = NInl s -> In e (grules g) -> kind e = NEvolve b s -> Q b).
End S.

(** The same tree: equal but for the way in which the variables are kept. *)
Inductive alike : val -> val -> Prop :=
| a_tok p : alike (VTok p) (VTok p)
| a_node s i j vs ws : (forall x, Forall2 alike (lookup x vs) (lookup x ws)) -> alike (VNode s i j vs) (VNode s i j ws).

(** The tokens of a tree, first and one past the last. *)
Definition lo (v : val) : nat := match v with VTok p => p | VNode _ i _ _ => i end.
Definition hi (v : val) : nat := match v with VTok p => S p | VNode _ _ j _ => j end.
(** One after the other between [i] and [j]. *)
Fixpoint in_order (i j : nat) (l : list val) : Prop :=
  match l with [] => i <= j | v :: l => i <= lo v /\ lo v <= hi v /\ in_order (hi v) j l end.
(** Everywhere in a tree: what a variable of a node holds lies inside the node,
    and what is to the left in a sequence is to the left in the text. *)
Inductive well_nested : val -> Prop :=
| ne_tok p : well_nested (VTok p)
| ne_node s i j vs : i <= j -> (forall x, in_order i j (lookup x vs)) -> (forall x v, In v (lookup x vs) -> well_nested v) -> well_nested (VNode s i j vs).
