(** Property theorems C12, C13 (bit arrays). *)
From Coq Require Import List NArith Lia Bool PeanoNat.
From Verif Require Import Base BitArrayModel BitArraySpec BitArrayProofs.
Import ListNotations.
Local Open Scope N_scope.

(** C12: for every size > 0 (and whatever value the undefined shift of
    setZerosAtEnd delivers), bits start as 0 and each write changes exactly
    its bit.  Size 0 is excluded, see below, hence partial. *)
Theorem C12_bits_independent_partial : forall ub n l x,
  0 < n -> (forall y v, In (y, v) l -> y < n) -> x < n ->
  exists a, build ub n l = Some a /\ bsize a = n /\ get a x = Some (content l x false).
Proof.
  intros ub n l x Hn Hl Hx. destruct (build_ok ub n l Hn Hl) as (a & E & W & S & B).
  exists a. split; [exact E|]. split; [exact S|].
  rewrite (wf_get a x W) by (rewrite S; exact Hx). rewrite B. reflexivity.
Qed.
Print Assumptions C12_bits_independent_partial.

Example C12_case : exists a, build 0 130 [(0, true); (127, true); (129, true); (127, false); (63, true)] = Some a
  /\ get a 127 = Some false /\ get a 63 = Some true /\ get a 129 = Some true /\ get a 128 = Some false.
Proof. eexists. split; [vm_compute; reflexivity|]. repeat split; vm_compute; reflexivity. Qed.

(** Full C12 is false: constructing an array of size 0 with BitArray(0)
    accesses the word before the storage. *)
Theorem C12_size_zero_refuted : forall ub, create ub 0 = None.
Proof. intros ub. reflexivity. Qed.
Print Assumptions C12_size_zero_refuted.

(** The "out of bounds" check lets index = size through: the read is outside
    the storage whenever the size is a multiple of 64. *)
Theorem C12_index_size_refuted : exists a, create 0 64 = Some a /\ get a 64 = None.
Proof. eexists. split; vm_compute; reflexivity. Qed.
Print Assumptions C12_index_size_refuted.

(** C13: equality is equality of size and bits; equal arrays have equal
    hashes; < is a strict total order compatible with ==. *)
Theorem C13_equality : forall ub n l ub' n' l' a b,
  0 < n -> 0 < n' -> (forall y v, In (y, v) l -> y < n) -> (forall y v, In (y, v) l' -> y < n') ->
  build ub n l = Some a -> build ub' n' l' = Some b ->
  (eqb a b = true <-> n = n' /\ forall x, x < n -> content l x false = content l' x false) /\
  (eqb a b = true -> hash a = hash b).
Proof.
  intros ub n l ub' n' l' a b Hn Hn' Hl Hl' EA EB.
  destruct (build_ok ub n l Hn Hl) as (a0 & E & W & S & B). rewrite EA in E. injection E as <-.
  destruct (build_ok ub' n' l' Hn' Hl') as (b0 & E & W' & S' & B'). rewrite EB in E. injection E as <-.
  split; [|exact (eqb_hash a b W W')].
  rewrite (eqb_ok a b W W'), S, S'. split; intros (H1 & H2); (split; [exact H1|]); intros x Hx;
    specialize (H2 x Hx); rewrite B, B' in *; exact H2.
Qed.
Print Assumptions C13_equality.

Theorem C13_order : forall ub n1 l1 n2 l2 n3 l3 a b c,
  0 < n1 -> 0 < n2 -> 0 < n3 ->
  (forall y v, In (y, v) l1 -> y < n1) -> (forall y v, In (y, v) l2 -> y < n2) ->
  (forall y v, In (y, v) l3 -> y < n3) ->
  build ub n1 l1 = Some a -> build ub n2 l2 = Some b -> build ub n3 l3 = Some c ->
  ltb a a = false /\
  (ltb a b = true -> ltb b c = true -> ltb a c = true) /\
  (ltb a b = false -> ltb b a = false -> eqb a b = true) /\
  (eqb a b = true -> ltb a b = false).
Proof.
  intros ub n1 l1 n2 l2 n3 l3 a b c H1 H2 H3 L1 L2 L3 EA EB EC.
  destruct (build_ok ub n1 l1 H1 L1) as (a0 & E & W1 & _). rewrite EA in E. injection E as <-.
  destruct (build_ok ub n2 l2 H2 L2) as (b0 & E & W2 & _). rewrite EB in E. injection E as <-.
  destruct (build_ok ub n3 l3 H3 L3) as (c0 & E & W3 & _). rewrite EC in E. injection E as <-.
  exact (ltb_order a b c W1 W2 W3).
Qed.
Print Assumptions C13_order.

Example C13_case : exists a b c,
  build 7 70 [(3, true); (69, true); (3, false)] = Some a /\
  build 9 70 [(69, true)] = Some b /\ build 0 70 [(0, true); (69, true)] = Some c /\
  eqb a b = true /\ hash a = hash b /\ ltb a c = true /\ eqb a c = false.
Proof.
  do 3 eexists. do 3 (split; [vm_compute; reflexivity|]). repeat split; vm_compute; reflexivity.
Qed.

(** Shrinking with resize() leaves stale bits behind: two arrays of the same
    size with the same readable bits compare different. *)
Theorem C13_resize_shrink_refuted : exists a b,
  build 0 70 [(5, true)] = Some a /\ build 0 3 [] = Some b /\
  bsize (resize 3 a) = bsize b /\
  (forall x, x < 3 -> get (resize 3 a) x = get b x) /\ eqb (resize 3 a) b = false.
Proof.
  do 2 eexists. do 2 (split; [vm_compute; reflexivity|]). split; [reflexivity|].
  split; [|vm_compute; reflexivity].
  intros x Hx. assert (x = 0 \/ x = 1 \/ x = 2) as [H|[H|H]] by lia; subst x; vm_compute; reflexivity.
Qed.
Print Assumptions C13_resize_shrink_refuted.
