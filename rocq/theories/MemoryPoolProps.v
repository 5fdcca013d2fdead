(** Property theorems C07, C08 (memory pool). *)
From Coq Require Import List ZArith Lia Bool PeanoNat.
From Verif Require Import Base MemoryPoolModel MemoryPoolSpec MemoryPoolProofs.
Import ListNotations.
Local Open Scope Z_scope.

(** C07: in every state a polite client can reach, the regions handed out are
    inside live blocks and pairwise disjoint ... *)
Theorem C07_regions_disjoint : forall fuel ops regs p,
  polite [] ops -> run fuel ops [] new_pool = Some (regs, p) ->
  (forall r, In r regs -> inside p r) /\
  (forall x y a b, nth_error regs x = Some a -> nth_error regs y = Some b -> x <> y -> disjoint a b).
Proof.
  intros fuel ops regs p HP E.
  pose proof (run_inv fuel ops [] new_pool regs p inv_new HP E) as (H1 & H2 & H3 & H4).
  split; [|exact H4]. intros [[i o] s] Hin. destruct (H3 i o s Hin) as (A & B & b & C & D).
  exists b. split; [exact C|]. split; [exact B|]. pose proof (H2 i b C). lia.
Qed.
Print Assumptions C07_regions_disjoint.

(** ... and a new region is zeroed while the bytes of all older ones are
    untouched by the allocation. *)
Theorem C07_regions_zeroed : forall fuel ops regs p size i o p',
  polite [] ops -> run fuel ops [] new_pool = Some (regs, p) ->
  0 <= size -> pool_allocate fuel size p = Some ((i, o), p') ->
  (forall q, o <= q < o + size -> load i q p' = Some 0) /\
  (forall j b s q, In (j, b, s) regs -> b <= q < b + s -> load j q p' = load j q p).
Proof.
  intros fuel ops regs p size i o p' HP E Hs EA.
  pose proof (run_inv fuel ops [] new_pool regs p inv_new HP E) as HI.
  unfold pool_allocate in EA.
  destruct (allocate fuel size (rightMost p) (chain p)) as [[[i1 o1] c]|] eqn:Ea; [|discriminate].
  injection EA as <- <- <-.
  pose proof (allocate_ok fuel size regs p (i1, o1, c) HI Hs Ea) as (_ & P2 & P3).
  split; [exact P2|]. intros j b s q Hin _. apply P3.
  destruct HI as (_ & _ & H3 & _). destruct (H3 j b s Hin) as (_ & _ & bl & Hb & _). exists bl. exact Hb.
Qed.
Print Assumptions C07_regions_zeroed.

Example C07_case : exists regs p,
  polite [] [Alloc 40; Store 0 3 77; Alloc 300; Alloc 0; Alloc 500; Store 1 0 5; Alloc 300] /\
  run 12 [Alloc 40; Store 0 3 77; Alloc 300; Alloc 0; Alloc 500; Store 1 0 5; Alloc 300] [] new_pool
    = Some (regs, p) /\
  regs = [(0%nat, 0, 40); (1%nat, 0, 300); (1%nat, 300, 0); (1%nat, 300, 500); (2%nat, 0, 300)].
Proof.
  do 2 eexists. split; [cbn; repeat split; try lia; eexists; (split; [reflexivity|lia])|].
  split; [vm_compute; reflexivity|reflexivity].
Qed.

(** C08, full statement: every request returns.  It is false: *)
Theorem C08_allocation_returns_refuted : exists size, 0 <= size < 2147483648 /\
  forall fuel, pool_allocate fuel size new_pool = None.
Proof.
  exists 1073741825. split; [lia|]. intros fuel. unfold pool_allocate.
  rewrite (diverge fuel 1073741825 [] new_pool inv_new ltac:(lia)). reflexivity.
Qed.
Print Assumptions C08_allocation_returns_refuted.

(** Small requests hang as well once 1 GiB has been handed out of the last
    block. *)
Theorem C08_exhaustion_refuted : exists regs p,
  run 12 [Alloc 1073741824] [] new_pool = Some (regs, p) /\
  forall fuel, pool_allocate fuel 1 p = None.
Proof.
  assert (HV : option_map (fun rp => (rightMost (snd rp),
                 map (fun b => (ptr b, bend b)) (skipn 11 (chain (snd rp)))))
                 (run 12 [Alloc 1073741824] [] new_pool)
               = Some (11%nat, [(1073741824, 1073741824)])) by (vm_compute; reflexivity).
  destruct (run 12 [Alloc 1073741824] [] new_pool) as [[regs p]|] eqn:E; [|discriminate HV].
  cbn [option_map snd] in HV.
  assert (HR : rightMost p = 11%nat) by congruence.
  assert (HS : map (fun b => (ptr b, bend b)) (skipn 11 (chain p)) = [(1073741824, 1073741824)]) by congruence.
  clear HV.
  exists regs, p. split; [reflexivity|]. intros fuel.
  assert (HP : polite (map snd (@nil region)) [Alloc 1073741824]) by (cbn [polite map]; repeat split; lia).
  pose proof (run_inv 12 _ [] new_pool regs p inv_new HP E) as HI.
  unfold pool_allocate. destruct (nth_error (chain p) (rightMost p)) as [b|] eqn:Eb.
  - assert (Hb : (ptr b, bend b) = (1073741824, 1073741824)).
    { rewrite HR in Eb. rewrite <- (firstn_skipn 11 (chain p)) in Eb.
      rewrite nth_error_app2 in Eb by (rewrite firstn_length; lia).
      assert (HL : (12 <= length (chain p))%nat).
      { assert (length (map (fun b => (ptr b, bend b)) (skipn 11 (chain p))) = 1%nat) as Hl1
          by (exact (f_equal (@length _) HS)).
        rewrite map_length, skipn_length in Hl1. lia. }
      rewrite firstn_length, Nat.min_l in Eb by lia.
      replace (11 - 11)%nat with 0%nat in Eb by lia.
      destruct (skipn 11 (chain p)) as [|x r]; [discriminate|].
      injection Eb as ->. cbn [map] in HS. congruence. }
    injection Hb as Hb1 Hb2.
    rewrite (diverge_late fuel 1 regs p b HI ltac:(lia)); [reflexivity|lia|exact Eb|lia].
  - apply nth_error_None in Eb. destruct HI as (H1 & _). lia.
Qed.
Print Assumptions C08_exhaustion_refuted.

(** C08 under the exact budget: programs requesting at most 2^30 bytes in
    total never hang or fault. *)
Theorem C08_allocation_returns_partial : forall ops,
  polite [] ops -> total ops <= 1073741824 ->
  exists regs p, run 12 ops [] new_pool = Some (regs, p).
Proof.
  intros ops HP HT.
  refine (run_progress 12 (le_n 12) ops [] new_pool inv_new HP _ _).
  - exact (le_n_S 0 11 (Nat.le_0_l 11)).
  - exact HT.
Qed.
Print Assumptions C08_allocation_returns_partial.

Example C08_case : polite [] [Alloc 1000000; Store 0 999999 1; Alloc 70000] /\
  total [Alloc 1000000; Store 0 999999 1; Alloc 70000] <= 1073741824.
Proof. split; [cbn; repeat split; try lia; eexists; (split; [reflexivity|lia])|cbn; lia]. Qed.
