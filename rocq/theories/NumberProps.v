(** C127: which numbers tokens get. *)
From Coq Require Import List NArith Ascii String.
From Verif Require Import FlexModel DescribeModel NumberSpec NumberProofs.
Import ListNotations.
Open Scope string_scope.
Open Scope list_scope.

(** EOF is 1000; the number of any other token is 1001 and the count of the tokens that come
    before it in the alphabet. *)
Theorem C127_numbers : forall ds n k, In (n, k) (numbers (all_terminals ds)) ->
  (n = chars "EOF" /\ k = 1000%N) \/
  (n <> chars "EOF" /\ exists l, lists l (fun m => In m (map fst ds) /\ m <> chars "EOF" /\ before m n) /\
     k = (1001 + N.of_nat (List.length l))%N).
Proof. exact number_exact. Qed.
Print Assumptions C127_numbers.

(** Numbers depend on which tokens are declared only, not on the order, on repetitions or on
    descriptions. *)
Theorem C127_order : forall ds ds', (forall n, In n (map fst ds) <-> In n (map fst ds')) ->
  numbers (all_terminals ds) = numbers (all_terminals ds').
Proof. exact same_numbers. Qed.
Print Assumptions C127_order.

Example C127_case :
  (forall n, In n (map fst [(chars "X", chars "X"); (chars "A", chars "an a")]) <->
             In n (map fst [(chars "A", chars "A"); (chars "X", chars "x"); (chars "A", chars "B")])) /\
  numbers (all_terminals [(chars "X", chars "X"); (chars "A", chars "an a")]) =
    [(chars "A", 1001%N); (chars "EOF", 1000%N); (chars "X", 1002%N)].
Proof. split; [intro n; cbn [map fst In]; tauto | reflexivity]. Qed.

(** Not so: that a token keeps its number when another one is declared in addition. *)
Theorem C127_stable_refuted : exists ds p n k k', In (n, k) (numbers (all_terminals ds)) /\
  In (n, k') (numbers (all_terminals (ds ++ [p]))) /\ n <> fst p /\ k <> k'.
Proof.
  exists [(chars "X", chars "X")], (chars "A", chars "A"), (chars "X"), 1001%N, 1002%N.
  split; [right; left; reflexivity|]. split; [right; right; left; reflexivity|]. split; discriminate.
Qed.
Print Assumptions C127_stable_refuted.
