(** What the dump of a tree should tell. *)
From Coq Require Import List NArith ZArith Bool Ascii String Decimal DecimalString.
From Verif Require Import FlexModel DebugModel.
Import ListNotations.

(** The nodes of a tree, parents first, with their depths. *)
Definition children (t : tree) : list tree := let (_, _, _, _, ms) := t in flat_map snd ms.
Inductive preorder : nat -> tree -> list (nat * tree) -> Prop :=
| preorder_node d t l : preorders (S d) (children t) l -> preorder d t ((d, t) :: l)
with preorders : nat -> list tree -> list (nat * tree) -> Prop :=
| preorders_nil d : preorders d [] []
| preorders_cons d t ts l l' : preorder d t l -> preorders d ts l' -> preorders d (t :: ts) (l ++ l').
(** Every member has a name. *)
Inductive named : tree -> Prop :=
| named_node o ty s e ms : (forall m, In m ms -> fst (fst m) <> []) -> Forall named (flat_map snd ms) -> named (Tree o ty s e ms).
(** Trees without what a dump cannot show: a node's type and what is said of its tokens, its members in
    order with their names and types, and the children. *)
Inductive shape := Shape (type : text) (from to : spot) (shown : text) (members : list (text * text * spot * spot * text)) (kids : list shape).
Section S.
Variable stream : list token.
Variable place : Z -> Z * Z.
Variable content : text.
Definition tells (t : tree) : spot * spot * text := (spot_of stream place (start_of t), spot_of stream place (stop_of t), token_string stream content (start_of t) (stop_of t)).
Inductive has_shape : tree -> shape -> Prop :=
| has_shape_node (o : bool) ty s e ms ls ks : Forall2 has_shape (flat_map snd ms) ks ->
    ls = (if o then [] else flat_map (fun m : text * text * list tree => map (fun t => (fst (fst m), snd (fst m), fst (fst (tells t)), snd (fst (tells t)), snd (tells t))) (snd m)) ms) ->
    has_shape (Tree o ty s e ms) (Shape ty (spot_of stream place s) (spot_of stream place e) (token_string stream content s e) ls ks).
End S.
(** The characters from [b] to [e], both included. *)
Definition segment (s : text) (b e : Z) (x : text) : Prop :=
  exists u v, s = u ++ x ++ v /\ Z.of_nat (List.length u) = b /\ (Z.of_nat (List.length u + List.length x) = e + 1)%Z.
(** Line ends written as in C++. *)
Inductive visible : text -> text -> Prop :=
| visible_nil : visible [] []
| visible_lf s t : visible s t -> visible ("010"%char :: s) (["\"; "n"]%char ++ t)
| visible_cr s t : visible s t -> visible ("013"%char :: s) (["\"; "r"]%char ++ t)
| visible_other c s t : c <> "010"%char -> c <> "013"%char -> visible s t -> visible (c :: s) (c :: t).
