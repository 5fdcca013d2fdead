From Coq Require Import List NArith ZArith Lia Bool PeanoNat ZifyBool ZifyN ZifyNat.
From Verif Require Import Base BitArrayModel BitArraySpec.
Import ListNotations.
Local Open Scope N_scope.
Ltac Zify.zify_post_hook ::= Z.div_mod_to_equations.

(** Bit x of the storage. *)
Definition bit (a : bitarray) (x : N) : bool :=
  N.testbit (nth (N.to_nat (x / 64)) (words a) 0) (x mod 64).

Definition wf (a : bitarray) : Prop :=
  0 < bsize a /\ length (words a) = N.to_nat (nwords (bsize a)) /\
  (forall i, (i < length (words a))%nat -> nth i (words a) 0 < 2 ^ 64) /\
  (forall x, bsize a <= x -> bit a x = false).

Lemma create_ok ub n : 0 < n -> create ub n = Some (MkBits n (repeat 0 (N.to_nat (nwords n)))).
Proof.
  intros Hn. unfold create, setZerosAtEnd. cbn [bsize words].
  replace (n =? 0) with false by lia.
  assert (H1 : 1 <= nwords n) by (unfold nwords, BPW; lia).
  set (i := N.to_nat (nwords n - 1)). set (m := N.to_nat (nwords n)).
  assert (Hi : (i < m)%nat) by (unfold i, m; lia).
  rewrite (nth_error_nth' _ 0) by (rewrite repeat_length; exact Hi). cbn [obind].
  rewrite nth_repeat, N.land_0_l.
  assert (R : forall k j, (j < k)%nat -> replace (repeat 0 k) j 0 = Some (repeat 0 k)).
  { induction k as [|k IH]; intros [|j] Hj; cbn; try lia; [reflexivity|].
    rewrite IH by lia. reflexivity. }
  rewrite R by exact Hi. reflexivity.
Qed.

Lemma repeat_bit n m x : bit (MkBits n (repeat 0 m)) x = false.
Proof.
  unfold bit. cbn [words].
  destruct (Nat.lt_ge_cases (N.to_nat (x / 64)) m) as [H|H].
  - rewrite nth_repeat. apply N.bits_0.
  - rewrite nth_overflow by (rewrite repeat_length; exact H). apply N.bits_0.
Qed.

Lemma create_wf ub n a : create ub n = Some a -> wf a /\ bsize a = n /\ forall x, bit a x = false.
Proof.
  intros E. destruct (N.eq_dec n 0) as [->|Hn]; [discriminate|].
  rewrite create_ok in E by lia. injection E as <-.
  split; [|split; [reflexivity|intros x; apply repeat_bit]].
  split; [cbn; lia|]. cbn [bsize words]. split; [apply repeat_length|]. split.
  - intros i Hi. rewrite nth_repeat. reflexivity.
  - intros x _. apply repeat_bit.
Qed.

Lemma byte_bit w j b : b < 8 -> N.testbit (byte_of w j) b = N.testbit w (8 * j + b).
Proof.
  intros H. unfold byte_of. rewrite N.land_spec, N.shiftr_spec by lia.
  replace (N.testbit 255 b) with true.
  - rewrite andb_true_r. f_equal. lia.
  - change 255 with (N.ones 8). rewrite N.ones_spec_low by lia. reflexivity.
Qed.

Lemma set_byte_bit w j v k : v < 256 ->
  N.testbit (set_byte w j v) k =
  if (8 * j <=? k) && (k <? 8 * j + 8) then N.testbit v (k - 8 * j) else N.testbit w k.
Proof.
  intros Hv. unfold set_byte. rewrite N.lor_spec, N.ldiff_spec.
  change 255 with (N.ones 8).
  destruct (8 * j <=? k) eqn:C.
  - rewrite !N.shiftl_spec_high' by lia.
    destruct (k <? 8 * j + 8) eqn:D; cbn [andb].
    + rewrite N.ones_spec_low by lia. cbn [negb]. rewrite andb_false_r. reflexivity.
    + rewrite N.ones_spec_high by lia. cbn [negb]. rewrite andb_true_r.
      assert (N.testbit v (k - 8 * j) = false) as ->; [|apply orb_false_r].
      destruct (N.eq_dec v 0) as [->|Hv0]; [apply N.bits_0|].
      apply N.bits_above_log2. assert (N.log2 v < 8); [|lia].
      apply N.log2_lt_pow2; [lia|exact Hv].
  - rewrite !N.shiftl_spec_low by lia. cbn [negb andb]. rewrite andb_true_r. apply orb_false_r.
Qed.

Lemma mask_test b i : i < 8 -> (N.land b (N.shiftl 1 i) =? N.shiftl 1 i) = N.testbit b i.
Proof.
  intros Hi. rewrite N.shiftl_1_l. destruct (N.testbit b i) eqn:E.
  - apply N.eqb_eq. apply N.bits_inj. intros k. rewrite N.land_spec.
    destruct (N.eq_dec k i) as [->|N0].
    + rewrite E, N.pow2_bits_true. reflexivity.
    + rewrite N.pow2_bits_false by congruence. apply andb_false_r.
  - apply N.eqb_neq. intros H.
    assert (N.testbit (N.land b (2 ^ i)) i = N.testbit (2 ^ i) i) by (rewrite H; reflexivity).
    rewrite N.land_spec, E, N.pow2_bits_true in H0. discriminate.
Qed.

Lemma shiftr3 x : N.shiftr x 3 = x / 8.
Proof. rewrite N.shiftr_div_pow2. reflexivity. Qed.
Lemma land7 x : N.land x 7 = x mod 8.
Proof. change 7 with (N.ones 3). rewrite N.land_ones. reflexivity. Qed.

Lemma get_ok a x : (N.to_nat (x / 64) < length (words a))%nat -> get a x = Some (bit a x).
Proof.
  intros H. unfold get, get_byte. rewrite shiftr3, land7.
  replace (x / 8 / 8) with (x / 64) by (rewrite N.div_div by lia; reflexivity).
  rewrite (nth_error_nth' _ 0) by exact H. cbn [obind].
  rewrite mask_test by (apply N.mod_lt; lia). f_equal.
  rewrite byte_bit by (apply N.mod_lt; lia). unfold bit. f_equal.
  assert (x / 8 mod 8 = (x mod 64) / 8) by lia. lia.
Qed.

Lemma byte_lt w j : byte_of w j < 256.
Proof. unfold byte_of. change 255 with (N.ones 8). rewrite N.land_ones. apply N.mod_lt. discriminate. Qed.

Lemma lt_pow2_bits w n : (forall k, n <= k -> N.testbit w k = false) -> w < 2 ^ n.
Proof.
  intros H. destruct (N.eq_dec w 0) as [->|Hw]; [apply N.neq_0_lt_0; apply N.pow_nonzero; lia|].
  apply N.log2_lt_pow2; [lia|]. apply N.nle_gt. intros C.
  specialize (H (N.log2 w) C). rewrite N.bit_log2 in H by exact Hw. discriminate.
Qed.

Lemma bits_lt_pow2 w n k : w < 2 ^ n -> n <= k -> N.testbit w k = false.
Proof.
  intros H Hk. destruct (N.eq_dec w 0) as [->|Hw]; [apply N.bits_0|].
  apply N.bits_above_log2. assert (N.log2 w < n); [|lia].
  apply N.log2_lt_pow2; [lia|exact H].
Qed.

Lemma newbyte_bit b i v k : i < 8 -> k < 8 -> b < 256 ->
  N.testbit (if v : bool then N.lor b (N.shiftl 1 i) else N.land b (N.ldiff 255 (N.shiftl 1 i))) k =
  if k =? i then v else N.testbit b k.
Proof.
  intros Hi Hk Hb. rewrite N.shiftl_1_l. destruct v.
  - rewrite N.lor_spec. destruct (k =? i) eqn:E.
    + apply N.eqb_eq in E. subst k. rewrite N.pow2_bits_true. apply orb_true_r.
    + rewrite N.pow2_bits_false by (apply N.eqb_neq in E; congruence). apply orb_false_r.
  - rewrite N.land_spec, N.ldiff_spec. change 255 with (N.ones 8). rewrite N.ones_spec_low by lia.
    destruct (k =? i) eqn:E.
    + apply N.eqb_eq in E. subst k. rewrite N.pow2_bits_true. apply andb_false_r.
    + rewrite N.pow2_bits_false by (apply N.eqb_neq in E; congruence). apply andb_true_r.
Qed.

Lemma newbyte_lt b i v : i < 8 -> b < 256 ->
  (if v : bool then N.lor b (N.shiftl 1 i) else N.land b (N.ldiff 255 (N.shiftl 1 i))) < 256.
Proof.
  intros Hi Hb. change 256 with (2 ^ 8). apply lt_pow2_bits. intros k Hk. destruct v.
  - rewrite N.lor_spec, N.shiftl_1_l, N.pow2_bits_false by lia.
    rewrite (bits_lt_pow2 b 8) by (exact Hb || exact Hk). reflexivity.
  - rewrite N.land_spec. rewrite (bits_lt_pow2 b 8) by (exact Hb || exact Hk). reflexivity.
Qed.

Lemma set_ok a x v : wf a -> x < bsize a ->
  exists a', set a x v = Some a' /\ wf a' /\ bsize a' = bsize a /\
    forall y, bit a' y = if y =? x then v else bit a y.
Proof.
  intros (W0 & W1 & W2 & W3) Hx.
  assert (Hw : (N.to_nat (x / 64) < length (words a))%nat) by (rewrite W1; unfold nwords, BPW; lia).
  unfold set, get_byte, put_byte. rewrite shiftr3, land7.
  replace (x / 8 / 8) with (x / 64) by (rewrite N.div_div by lia; reflexivity).
  rewrite (nth_error_nth' _ 0) by exact Hw. cbn [obind].
  set (w := nth (N.to_nat (x / 64)) (words a) 0).
  set (j := x / 8 mod 8). set (i := x mod 8).
  set (v' := if v then _ else _).
  destruct (replace_spec (words a) (N.to_nat (x / 64)) (set_byte w j v') Hw) as (ws & E & L & NE).
  rewrite E. cbn [obind]. eexists; split; [reflexivity|].
  assert (Hi : i < 8) by (apply N.mod_lt; lia). assert (Hj : j < 8) by (apply N.mod_lt; lia).
  assert (Hv' : v' < 256) by (apply newbyte_lt; [exact Hi|apply byte_lt]).
  assert (Hnth : forall q, nth q ws 0 = if Nat.eqb q (N.to_nat (x / 64)) then set_byte w j v' else nth q (words a) 0).
  { intros q. pose proof (NE q) as Hq.
    destruct (Nat.lt_ge_cases q (length ws)) as [C|C].
    - rewrite (nth_error_nth' ws 0 C) in Hq.
      destruct (Nat.eqb q (N.to_nat (x / 64))); [congruence|].
      rewrite (nth_error_nth' _ 0) in Hq by lia. congruence.
    - rewrite (nth_overflow ws) by exact C.
      replace (Nat.eqb q (N.to_nat (x / 64))) with false by lia.
      rewrite nth_overflow by lia. reflexivity. }
  assert (Hbit : forall y, bit (MkBits (bsize a) ws) y = if y =? x then v else bit a y).
  { intros y. unfold bit. cbn [words]. rewrite Hnth.
    destruct (Nat.eqb (N.to_nat (y / 64)) (N.to_nat (x / 64))) eqn:C.
    - assert (Hyx : y / 64 = x / 64) by lia. rewrite set_byte_bit by exact Hv'.
      destruct ((8 * j <=? y mod 64) && (y mod 64 <? 8 * j + 8)) eqn:D.
      + unfold v'. rewrite newbyte_bit; [|exact Hi|lia|apply byte_lt].
        assert (Ej : 8 * j = 8 * ((x mod 64) / 8)) by (unfold j; lia).
        assert (Ei : i = (x mod 64) mod 8) by (unfold i; lia).
        destruct (y =? x) eqn:F.
        * apply N.eqb_eq in F. subst y. replace (x mod 64 - 8 * j =? i) with true by lia. reflexivity.
        * replace (y mod 64 - 8 * j =? i) with false by lia.
          rewrite byte_bit by lia. unfold w. rewrite Hyx. f_equal. lia.
      + destruct (y =? x) eqn:F.
        * exfalso. apply N.eqb_eq in F. subst y. unfold j in D. lia.
        * unfold w. rewrite Hyx. reflexivity.
    - destruct (y =? x) eqn:F; [exfalso; lia|reflexivity]. }
  split; [|split; [reflexivity|exact Hbit]].
  split; [exact W0|]. split; [cbn [words bsize]; congruence|]. split.
  - intros q Hq. cbn [words] in *. rewrite Hnth.
    destruct (Nat.eqb q (N.to_nat (x / 64))); [|apply W2; lia].
    apply lt_pow2_bits. intros k Hk. rewrite set_byte_bit by exact Hv'.
    replace ((8 * j <=? k) && (k <? 8 * j + 8)) with false by lia.
    apply (bits_lt_pow2 w 64); [apply W2; exact Hw|exact Hk].
  - intros y Hy. cbn [bsize] in Hy. rewrite Hbit. replace (y =? x) with false by lia. apply W3. exact Hy.
Qed.

Lemma writes_ok : forall l a, wf a -> (forall x v, In (x, v) l -> x < bsize a) ->
  exists a', writes l a = Some a' /\ wf a' /\ bsize a' = bsize a /\
    forall y, bit a' y = content l y (bit a y).
Proof.
  induction l as [|[x v] l IH]; intros a W H; cbn [writes content].
  - exists a. repeat split; try reflexivity; apply W.
  - destruct (set_ok a x v W) as (a1 & E1 & W1 & S1 & B1); [apply (H x v); left; reflexivity|].
    rewrite E1. cbn [obind].
    destruct (IH a1 W1) as (a2 & E2 & W2 & S2 & B2).
    { intros y u Hin. rewrite S1. apply (H y u). right. exact Hin. }
    exists a2. split; [exact E2|]. split; [exact W2|]. split; [congruence|].
    intros y. rewrite B2, B1. reflexivity.
Qed.

Lemma build_ok ub n l : 0 < n -> (forall x v, In (x, v) l -> x < n) ->
  exists a, build ub n l = Some a /\ wf a /\ bsize a = n /\
    forall x, bit a x = content l x false.
Proof.
  intros Hn Hl. unfold build. rewrite create_ok by exact Hn. cbn [obind].
  destruct (create_wf ub n _ (create_ok ub n Hn)) as (W & S & B).
  destruct (writes_ok l _ W) as (a & E & W' & S' & B'); [rewrite S; exact Hl|].
  exists a. split; [exact E|]. split; [exact W'|]. split; [rewrite S', S; reflexivity|].
  intros x. rewrite B', B. reflexivity.
Qed.

Lemma wf_get a x : wf a -> x < bsize a -> get a x = Some (bit a x).
Proof.
  intros (W0 & W1 & _) Hx. apply get_ok. rewrite W1. unfold nwords, BPW. lia.
Qed.

Lemma words_eq_iff : forall u v, length u = length v -> words_eq u v = true <-> u = v.
Proof.
  induction u as [|x u IH]; intros [|y v] H; cbn in *; try discriminate; [tauto|].
  destruct (x =? y) eqn:E; cbn.
  - apply N.eqb_eq in E. subst. rewrite (IH v) by lia. split; [intros ->; reflexivity|intros Q; injection Q; auto].
  - apply N.eqb_neq in E. split; [discriminate|intros Q; injection Q; congruence].
Qed.

Lemma wf_words_ext a b : wf a -> wf b -> bsize a = bsize b ->
  (words a = words b <-> forall x, x < bsize a -> bit a x = bit b x).
Proof.
  intros (A0 & A1 & A2 & A3) (B0 & B1 & B2 & B3) HS. split.
  - intros E x _. unfold bit. rewrite E. reflexivity.
  - intros H.
    assert (Hall : forall x, bit a x = bit b x).
    { intros x. destruct (N.lt_ge_cases x (bsize a)) as [C|C]; [apply H; exact C|].
      rewrite A3 by exact C. rewrite B3 by (rewrite <- HS; exact C). reflexivity. }
    apply (nth_ext _ _ 0 0); [congruence|]. intros i Hi.
    apply N.bits_inj. intros k. destruct (N.lt_ge_cases k 64) as [C|C].
    + specialize (Hall (64 * N.of_nat i + k)). unfold bit in Hall.
      replace ((64 * N.of_nat i + k) / 64) with (N.of_nat i) in Hall by lia.
      replace ((64 * N.of_nat i + k) mod 64) with k in Hall by lia.
      rewrite Nat2N.id in Hall. exact Hall.
    + rewrite (bits_lt_pow2 _ 64) by (try exact C; apply A2; exact Hi).
      rewrite (bits_lt_pow2 _ 64) by (try exact C; apply B2; congruence). reflexivity.
Qed.

Lemma eqb_ok a b : wf a -> wf b ->
  (eqb a b = true <-> bsize a = bsize b /\ forall x, x < bsize a -> bit a x = bit b x).
Proof.
  intros WA WB. unfold eqb. destruct (bsize b =? bsize a) eqn:E; cbn.
  - apply N.eqb_eq in E. pose proof WA as (A0 & A1 & _). pose proof WB as (B0 & B1 & _).
    replace (bsize a =? 0) with false by lia.
    rewrite words_eq_iff by congruence. rewrite (wf_words_ext a b WA WB) by congruence.
    split; [intros H; split; [congruence|exact H]|intros (_ & H); exact H].
  - apply N.eqb_neq in E. split; [discriminate|intros (H & _); congruence].
Qed.

Lemma eqb_hash a b : wf a -> wf b -> eqb a b = true -> hash a = hash b.
Proof.
  intros WA WB H. apply eqb_ok in H; [|exact WA|exact WB]. destruct H as (H1 & H2).
  apply (wf_words_ext a b WA WB H1) in H2. unfold hash. rewrite H2. reflexivity.
Qed.

Lemma words_lt_irrefl : forall u, words_lt u u = false.
Proof. induction u as [|x u IH]; cbn; [reflexivity|]. rewrite N.ltb_irrefl. exact IH. Qed.

Lemma words_lt_trans : forall u v w, length u = length v -> length v = length w ->
  words_lt u v = true -> words_lt v w = true -> words_lt u w = true.
Proof.
  induction u as [|x u IH]; intros [|y v] [|z w] H1 H2; cbn in *; try discriminate.
  intros A B. destruct (x <? y) eqn:E1; destruct (y <? z) eqn:E2.
  - replace (x <? z) with true by lia. reflexivity.
  - destruct (z <? y) eqn:E3; [discriminate|]. replace (x <? z) with true by lia. reflexivity.
  - destruct (y <? x) eqn:E3; [discriminate|]. replace (x <? z) with true by lia. reflexivity.
  - destruct (y <? x) eqn:E3; [discriminate|]. destruct (z <? y) eqn:E4; [discriminate|].
    replace (x <? z) with false by lia. replace (z <? x) with false by lia.
    apply (IH v w); try lia; assumption.
Qed.

Lemma words_lt_total : forall u v, length u = length v ->
  words_lt u v = false -> words_lt v u = false -> u = v.
Proof.
  induction u as [|x u IH]; intros [|y v] H1; cbn in *; try discriminate; [reflexivity|].
  destruct (x <? y) eqn:E1; [discriminate|]. destruct (y <? x) eqn:E2; [discriminate|].
  intros A B. f_equal; [lia|apply IH; [lia|exact A|exact B]].
Qed.

Lemma ltb_order a b c : wf a -> wf b -> wf c ->
  ltb a a = false /\
  (ltb a b = true -> ltb b c = true -> ltb a c = true) /\
  (ltb a b = false -> ltb b a = false -> eqb a b = true) /\
  (eqb a b = true -> ltb a b = false).
Proof.
  intros WA WB WC. pose proof WA as (A0 & A1 & _). pose proof WB as (B0 & B1 & _).
  pose proof WC as (C0 & C1 & _). unfold ltb. repeat split.
  - rewrite N.ltb_irrefl. replace (bsize a =? 0) with false by lia. apply words_lt_irrefl.
  - intros H1 H2.
    replace (bsize a =? 0) with false in * by lia. replace (bsize b =? 0) with false in * by lia.
    destruct (bsize a <? bsize b) eqn:E1; destruct (bsize b <? bsize c) eqn:E2.
    + replace (bsize a <? bsize c) with true by lia. reflexivity.
    + destruct (bsize c <? bsize b) eqn:E3; [discriminate|].
      replace (bsize a <? bsize c) with true by lia. reflexivity.
    + destruct (bsize b <? bsize a) eqn:E3; [discriminate|].
      replace (bsize a <? bsize c) with true by lia. reflexivity.
    + destruct (bsize b <? bsize a) eqn:E3; [discriminate|].
      destruct (bsize c <? bsize b) eqn:E4; [discriminate|].
      replace (bsize a <? bsize c) with false by lia. replace (bsize c <? bsize a) with false by lia.
      assert (bsize a = bsize b) by lia. assert (bsize b = bsize c) by lia.
      apply (words_lt_trans (words a) (words b) (words c)); congruence.
  - intros H1 H2. replace (bsize a =? 0) with false in * by lia. replace (bsize b =? 0) with false in * by lia.
    destruct (bsize a <? bsize b) eqn:E1; [discriminate|]. destruct (bsize b <? bsize a) eqn:E2; [discriminate|].
    assert (HS : bsize a = bsize b) by lia. unfold eqb.
    replace (bsize b =? bsize a) with true by lia. cbn. replace (bsize a =? 0) with false by lia.
    apply words_eq_iff; [congruence|]. apply words_lt_total; congruence.
  - intros H. apply eqb_ok in H; [|exact WA|exact WB]. destruct H as (H1 & H2).
    apply (wf_words_ext a b WA WB H1) in H2. rewrite <- H1, N.ltb_irrefl.
    replace (bsize a =? 0) with false by lia. rewrite <- H2. apply words_lt_irrefl.
Qed.
