From Coq Require Import List ZArith Lia Bool PeanoNat ZifyBool ZifyNat.
From Verif Require Import Base AllocatorModel.
Import ListNotations.
Local Open Scope Z_scope.

Lemma wrap_small x : 0 <= x < 18446744073709551616 -> wrap x = x.
Proof. intros H. unfold wrap. apply Z.mod_small. exact H. Qed.

(** Fewer than 2^64 blocks (each needs 64 KiB of memory). *)
Definition inv (a : alloc) : Prop :=
  Z.of_nat (storage a) < 18446744073709551616 /\
  (hasBlock a = true -> (1 <= storage a)%nat /\ blockIndex a = Z.of_nat (storage a) - 1) /\
  (hasBlock a = false -> storage a = 0%nat /\ blockIndex a = 18446744073709551615) /\
  0 <= currentIndex a <= blockSize.

Lemma inv_new : inv new_alloc.
Proof. unfold inv, new_alloc; cbn. repeat split; try lia; intros; try discriminate. Qed.

Definition fits (tsize n : Z) : Prop := 0 <= n * tsize <= blockSize.

Lemma allocate_ok tsize n a p a' : inv a -> fits tsize n ->
  Z.of_nat (storage a) + 1 < 18446744073709551616 ->
  allocate tsize n a = (p, a') ->
  inv a' /\ hasBlock a' = true /\ (storage a <= storage a' <= S (storage a))%nat /\
  fst p = (storage a' - 1)%nat /\ 0 <= snd p /\ snd p + n * tsize = currentIndex a' /\
  ((storage a' = storage a /\ snd p = currentIndex a) \/ (storage a' = S (storage a) /\ snd p = 0)).
Proof.
  intros (H1 & H2 & H3 & H4) Hf Hm E. unfold fits, blockSize in *. unfold allocate in E.
  rewrite (wrap_small (n * tsize)) in E by lia.
  rewrite (wrap_small (currentIndex a + n * tsize)) in E by lia.
  unfold blockSize in E.
  destruct (negb (hasBlock a) || (65536 <? currentIndex a + n * tsize)) eqn:C.
  - cbn [blockIndex currentIndex storage] in E. injection E as <- <-. cbn [fst snd blockIndex currentIndex storage hasBlock].
    try rewrite Z.add_0_l; rewrite (wrap_small (n * tsize)) by lia.
    split; [|repeat split; lia].
    unfold inv; cbn [blockIndex currentIndex storage hasBlock]. unfold blockSize. split; [lia|]. split; [|split; [discriminate|lia]].
    intros _. split; [lia|]. destruct (hasBlock a) eqn:HB.
    + destruct (H2 eq_refl) as (A & B). rewrite B. rewrite wrap_small by lia. lia.
    + destruct (H3 eq_refl) as (A & B). rewrite B, A. reflexivity.
  - assert (HB : hasBlock a = true) by (destruct (hasBlock a); [reflexivity|discriminate]).
    rewrite HB in C. cbn [negb orb] in C.
    injection E as <- <-. cbn [fst snd blockIndex currentIndex storage hasBlock].
    rewrite wrap_small by lia.
    split; [|repeat split; lia].
    unfold inv; cbn [blockIndex currentIndex storage hasBlock]. unfold blockSize.
    split; [lia|]. split; [|split; [discriminate|lia]].
    intros _. exact (H2 HB).
Qed.

(** Regions (block, offset, size) of a run, given the counts. *)
Definition region_of (tsize : Z) (pn : (nat * Z) * Z) : nat * Z * Z :=
  (fst (fst pn), snd (fst pn), snd pn * tsize).

Lemma run_ok tsize : forall ns a ps a', inv a -> Forall (fits tsize) ns ->
  Z.of_nat (storage a) + Z.of_nat (length ns) < 18446744073709551616 ->
  run tsize ns a = (ps, a') ->
  inv a' /\ (storage a <= storage a')%nat /\ length ps = length ns /\ (ns <> [] -> hasBlock a' = true) /\
  (* every region inside an owned block and at or after the fill mark of [a] *)
  (forall k p n, nth_error ps k = Some p -> nth_error ns k = Some n ->
     (fst p < storage a')%nat /\ 0 <= snd p /\ snd p + n * tsize <= blockSize /\
     ((storage a - 1 < fst p)%nat \/ storage a = 0%nat \/ (fst p = (storage a - 1)%nat /\ currentIndex a <= snd p))) /\
  (forall j k p q n m, (j < k)%nat -> nth_error ps j = Some p -> nth_error ps k = Some q ->
     nth_error ns j = Some n -> nth_error ns k = Some m ->
     fst p <> fst q \/ snd p + n * tsize <= snd q).
Proof.
  induction ns as [|n ns IH]; intros a ps a' HI HF HB E; cbn [run] in E.
  - injection E as <- <-. repeat split; try lia; try apply HI; try congruence;
      try (intros [|k] ? ? H; discriminate); try (intros ? [|k] ? ? ? ? ? ? H; discriminate).
    all: intros; destruct k; discriminate.
  - destruct (allocate tsize n a) as [p a1] eqn:E1. destruct (run tsize ns a1) as [ps2 a2] eqn:E2.
    injection E as <- <-. inversion HF as [|? ? Hf HF']; subst. cbn [length] in HB.
    destruct (allocate_ok tsize n a p a1 HI Hf ltac:(lia) E1) as (I1 & B1 & S1 & P1 & P2 & P3 & P4).
    destruct (IH a1 ps2 a2 I1 HF' ltac:(lia) E2) as (I2 & S2 & L2 & B2 & R2 & D2).
    pose proof I1 as (_ & J2 & _ & J4). specialize (J2 B1).
    split; [exact I2|]. split; [lia|]. split; [cbn; lia|]. split.
    { intros _. destruct ns; [cbn in E2; injection E2 as <- <-; exact B1|apply B2; discriminate]. }
    split.
    + intros k q m Hq Hm. destruct k as [|k]; cbn [nth_error] in Hq, Hm.
      * injection Hq as <-. injection Hm as <-. unfold fits, blockSize in *. repeat split; lia.
      * destruct (R2 k q m Hq Hm) as (A & B & C & D). unfold fits in Hf. repeat split; lia.
    + intros j k q r m1 m2 Hjk Hj Hk Hm1 Hm2. destruct k as [|k]; [lia|]. cbn [nth_error] in Hk, Hm2.
      destruct j as [|j]; cbn [nth_error] in Hj, Hm1.
      * injection Hj as <-. injection Hm1 as <-.
        destruct (R2 k r m2 Hk Hm2) as (A & B & C & D). lia.
      * apply (D2 j k q r m1 m2); try assumption. lia.
Qed.

Lemma contains_loop_ok base a p : inv a -> hasBlock a = true -> forall fuel i,
  (storage a < i + fuel)%nat -> (i <= storage a)%nat ->
  exists b, contains_loop fuel base a i p = Some b /\
    (b = true <-> exists j, (i <= j < storage a)%nat /\ base j <= p < base j + blockSize).
Proof.
  intros (H1 & H2 & H3 & H4) HB. destruct (H2 HB) as (A & B).
  induction fuel as [|f IH]; intros i Hf Hi; [lia|]. cbn [contains_loop].
  destruct (Z.of_nat i <=? blockIndex a) eqn:C.
  - replace (Nat.ltb i (storage a)) with true by lia.
    destruct ((base i <=? p) && (p <? base i + blockSize)) eqn:D.
    + exists true. split; [reflexivity|]. split; [|reflexivity]. intros _. exists i. lia.
    + destruct (IH (S i) ltac:(lia) ltac:(lia)) as (b & E & F). exists b. split; [exact E|].
      rewrite F. split; intros (j & Hj & Hp); exists j; split; try assumption; try lia.
      destruct (Nat.eq_dec j i) as [->|N]; lia.
  - exists false. split; [reflexivity|]. split; [discriminate|]. intros (j & Hj & _). lia.
Qed.
