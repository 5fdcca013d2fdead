(** Property theorems C09, C10 (typed block allocator). *)
From Coq Require Import List ZArith Lia Bool PeanoNat.
From Verif Require Import Base AllocatorModel AllocatorProofs.
Import ListNotations.
Local Open Scope Z_scope.

(** C09 for requests of at most one block (64 KiB) and fewer than 2^64
    requests: regions lie inside owned blocks and are pairwise disjoint.
    Missing for the full statement: larger requests, see the refutation. *)
Theorem C09_regions_disjoint_partial : forall tsize ns ps a,
  Forall (fun n => 0 <= n * tsize <= 65536) ns ->
  Z.of_nat (length ns) < 18446744073709551616 ->
  run tsize ns new_alloc = (ps, a) ->
  length ps = length ns /\
  (forall k p n, nth_error ps k = Some p -> nth_error ns k = Some n ->
     (fst p < storage a)%nat /\ 0 <= snd p /\ snd p + n * tsize <= 65536) /\
  (forall j k p q n m, (j < k)%nat -> nth_error ps j = Some p -> nth_error ps k = Some q ->
     nth_error ns j = Some n -> nth_error ns k = Some m ->
     fst p <> fst q \/ snd p + n * tsize <= snd q).
Proof.
  intros tsize ns ps a HF HL E.
  destruct (run_ok tsize ns new_alloc ps a inv_new HF HL E) as (_ & _ & L & _ & R & D).
  split; [exact L|]. split; [|exact D].
  intros k p n Hp Hn. destruct (R k p n Hp Hn) as (A & B & C & _).
  exact (conj A (conj B C)).
Qed.
Print Assumptions C09_regions_disjoint_partial.

Example C09_case : Forall (fun n => 0 <= n * 16 <= 65536) [1; 4096; 10; 4086; 1] /\
  run 16 [1; 4096; 10; 4086; 1] new_alloc =
   ([(0%nat, 0); (1%nat, 0); (2%nat, 0); (2%nat, 160); (3%nat, 0)],
    MkAlloc 3 16 true 4).
Proof. split; [repeat constructor; lia|vm_compute; reflexivity]. Qed.

(** Full C09 is false: a request above one block overlaps the memory behind
    the block. *)
Theorem C09_large_request_refuted : exists n p a,
  0 <= n * 1 < 18446744073709551616 /\
  allocate 1 n new_alloc = (p, a) /\ 65536 < snd p + n * 1 /\ storage a = 1%nat.
Proof.
  exists 65537. do 2 eexists. split; [lia|]. split; [vm_compute; reflexivity|].
  split; [cbn; lia|reflexivity].
Qed.
Print Assumptions C09_large_request_refuted.

(** C10 for allocators that were used at least once: contains(p) holds
    exactly for addresses in owned blocks. *)
Theorem C10_contains_exact_partial : forall tsize ns ps a (base : nat -> Z) p,
  ns <> [] -> Forall (fun n => 0 <= n * tsize <= 65536) ns ->
  Z.of_nat (length ns) < 18446744073709551616 ->
  run tsize ns new_alloc = (ps, a) ->
  exists b, contains base a p = Some b /\
    (b = true <-> exists j, (j < storage a)%nat /\ base j <= p < base j + 65536).
Proof.
  intros tsize ns ps a base p Hne HF HL E.
  destruct (run_ok tsize ns new_alloc ps a inv_new HF HL E) as (I & _ & _ & HB & _).
  destruct (contains_loop_ok base a p I (HB Hne) (S (storage a)) 0 (le_n _) (Nat.le_0_l _))
    as (b & E1 & E2).
  exists b. split; [exact E1|]. rewrite E2.
  split; intros (j & Hj & Hp); exists j; (split; [lia|exact Hp]).
Qed.
Print Assumptions C10_contains_exact_partial.

Example C10_case : exists ps a, run 24 [1; 2; 2730; 1] new_alloc = (ps, a) /\
  contains (fun i => 1000000 * (Z.of_nat i + 1)) a 2065535 = Some true /\
  contains (fun i => 1000000 * (Z.of_nat i + 1)) a 2065536 = Some false.
Proof. do 2 eexists. split; [vm_compute; reflexivity|]. split; vm_compute; reflexivity. Qed.

(** Full C10 is false: on an unused allocator the loop starts with
    sBlockIndex = size_t(-1) and dereferences a null table. *)
Theorem C10_contains_fresh_refuted : forall base p, contains base new_alloc p = None.
Proof. intros base p. reflexivity. Qed.
Print Assumptions C10_contains_fresh_refuted.
