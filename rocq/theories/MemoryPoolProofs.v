From Coq Require Import List ZArith Lia Bool PeanoNat ZifyBool ZifyNat.
From Verif Require Import Base MemoryPoolModel MemoryPoolSpec.
Import ListNotations.
Local Open Scope Z_scope.

(** Capacity of the k-th block of the chain. *)
Fixpoint cap (k : nat) : Z :=
  match k with O => 256 | S j => to_int32 (cap j * 4) end.

Lemma to_int32_range x : -2147483648 <= to_int32 x <= 2147483647.
Proof. unfold to_int32. pose proof (Z.mod_pos_bound (x + 2147483648) 4294967296). lia. Qed.

Lemma cap_values : forall k, (k <= 11)%nat -> cap k = 256 * 4 ^ Z.of_nat k.
Proof.
  intros k Hk. do 12 (destruct k as [|k]; [vm_compute; reflexivity|]). lia.
Qed.

Lemma cap_zero : forall k, (12 <= k)%nat -> cap k = 0.
Proof.
  intros k Hk. replace k with ((k - 12) + 12)%nat by lia. generalize (k - 12)%nat as j. clear.
  induction j as [|j IH]; [vm_compute; reflexivity|]. cbn [Nat.add cap]. cbn in IH. rewrite IH. reflexivity.
Qed.

Lemma cap_nonneg k : 0 <= cap k.
Proof.
  destruct (Nat.le_gt_cases 12 k) as [H|H]; [rewrite cap_zero; lia|].
  rewrite cap_values by lia. lia.
Qed.

Definition inv (regs : list region) (p : pool) : Prop :=
  (rightMost p < length (chain p))%nat /\
  (forall k b, nth_error (chain p) k = Some b ->
     blockSize b = cap k /\ bend b = cap k /\ 0 <= ptr b <= bend b /\
     ((rightMost p < k)%nat -> ptr b = 0) /\
     (forall o, ptr b <= o < bend b -> bytes b o = Some 0) /\
     (forall o, 0 <= o < bend b -> exists v, bytes b o = Some v)) /\
  (forall i o s, In (i, o, s) regs -> 0 <= s /\ 0 <= o /\
     exists b, nth_error (chain p) i = Some b /\ o + s <= ptr b) /\
  (forall x y a b, nth_error regs x = Some a -> nth_error regs y = Some b -> x <> y -> disjoint a b).

Lemma inv_new : inv [] new_pool.
Proof.
  split; [simpl; lia|]. split.
  - intros [|[|k]] b Hb; simpl in Hb; try discriminate. injection Hb as <-. cbn.
    repeat split; try lia.
    + intros o Ho. replace ((0 <=? o) && (o <? 256)) with true by lia. reflexivity.
    + intros o Ho. replace ((0 <=? o) && (o <? 256)) with true by lia. eexists; reflexivity.
  - split; [intros i o s []|]. intros [|x] y a b H; discriminate.
Qed.

(** Adding a fresh block at the end of the chain keeps the invariant. *)
Lemma inv_grow regs p : inv regs p ->
  inv regs (MkPool (chain p ++ [init0 (cap (length (chain p)))]) (rightMost p)).
Proof.
  intros (H1 & H2 & H3 & H4). split; [cbn; rewrite app_length; simpl; lia|]. split; [|split].
  - intros k b Hb. cbn in *. destruct (Nat.lt_ge_cases k (length (chain p))) as [C|C].
    + rewrite nth_error_app1 in Hb by exact C. apply H2; exact Hb.
    + rewrite nth_error_app2 in Hb by exact C.
      destruct (k - length (chain p))%nat as [|m] eqn:E; [|destruct m; discriminate].
      injection Hb as <-. replace k with (length (chain p)) in * by lia.
      pose proof (cap_nonneg (length (chain p))). cbn. repeat split; try lia.
      * intros o Ho. replace ((0 <=? o) && (o <? cap (length (chain p)))) with true by lia. reflexivity.
      * intros o Ho. replace ((0 <=? o) && (o <? cap (length (chain p)))) with true by lia. eexists; reflexivity.
  - intros i o s Hin. destruct (H3 i o s Hin) as (A & B & b & Hb & C).
    split; [exact A|]. split; [exact B|]. exists b. split; [|exact C]. cbn.
    rewrite nth_error_app1; [exact Hb|]. apply nth_error_Some. congruence.
  - exact H4.
Qed.

Lemma inv_move regs p : inv regs p -> (S (rightMost p) < length (chain p))%nat ->
  inv regs (MkPool (chain p) (S (rightMost p))).
Proof.
  intros (H1 & H2 & H3 & H4) H. split; [exact H|]. split; [|split; assumption].
  intros k b Hb. destruct (H2 k b Hb) as (A & B & C & D & E & F). cbn.
  repeat split; try assumption; try lia; intros; apply D; lia.
Qed.

Lemma allocate_ok : forall fuel size regs p r,
  inv regs p -> 0 <= size ->
  allocate fuel size (rightMost p) (chain p) = Some r ->
  let '(i, o, c) := r in
  inv (regs ++ [(i, o, size)]) (MkPool c i) /\
  (forall q, o <= q < o + size -> load i q (MkPool c i) = Some 0) /\
  (forall j q, (exists b, nth_error (chain p) j = Some b) -> load j q (MkPool c i) = load j q p).
Proof.
  induction fuel as [|f IH]; intros size regs p r HI Hs E; cbn [allocate] in E; [discriminate|].
  pose proof HI as (H1 & H2 & H3 & H4).
  destruct (nth_error (chain p) (rightMost p)) as [b|] eqn:Eb; [|discriminate]. cbn [obind] in E.
  destruct (H2 _ _ Eb) as (A1 & A2 & A3 & A4 & A5 & A6).
  destruct (bend b <? ptr b + size) eqn:C.
  - set (c' := if Nat.ltb (S (rightMost p)) (length (chain p)) then chain p
               else chain p ++ [init0 (to_int32 (blockSize b * 4))]) in *.
    assert (HI' : inv regs (MkPool c' (S (rightMost p)))).
    { unfold c'. destruct (Nat.ltb (S (rightMost p)) (length (chain p))) eqn:D.
      - apply inv_move; [exact HI|lia].
      - assert (EL : length (chain p) = S (rightMost p)) by lia.
        rewrite A1. change (to_int32 (cap (rightMost p) * 4)) with (cap (S (rightMost p))).
        rewrite <- EL at 1.
        apply (inv_move regs (MkPool (chain p ++ [init0 (cap (length (chain p)))]) (rightMost p))).
        + apply inv_grow. exact HI.
        + cbn. rewrite app_length. simpl. lia. }
    specialize (IH size regs (MkPool c' (S (rightMost p))) r HI' Hs E).
    destruct r as [[i o] c]. destruct IH as (P1 & P2 & P3). split; [exact P1|]. split; [exact P2|].
    intros j q (bj & Hj).
    assert (Hc' : nth_error c' j = nth_error (chain p) j).
    { unfold c'. destruct (Nat.ltb (S (rightMost p)) (length (chain p))); [reflexivity|].
      rewrite nth_error_app1; [reflexivity|]. apply nth_error_Some. congruence. }
    rewrite P3; [unfold load; cbn; rewrite Hc'; reflexivity|].
    cbn. rewrite Hc'. eexists; exact Hj.
  - destruct (replace_spec (chain p) (rightMost p)
      (MkBlk (blockSize b) (bend b) (ptr b + size) (bytes b))) as (c & Ec & Lc & Nc); [exact H1|].
    rewrite Ec in E. cbn [obind] in E. injection E as <-.
    split; [|split].
    + split; [cbn; lia|]. split; [|split].
      * intros k b' Hb'. cbn [chain] in Hb'. rewrite Nc in Hb'. cbn [rightMost].
        destruct (Nat.eqb k (rightMost p)) eqn:D.
        -- apply Nat.eqb_eq in D. subst k. injection Hb' as <-. cbn.
           repeat split; try assumption; try lia; intros; apply A5 || apply A6; lia.
        -- apply H2. exact Hb'.
      * intros i o s Hin. apply in_app_or in Hin. cbn [chain]. destruct Hin as [Hin|[Hin|[]]].
        -- destruct (H3 i o s Hin) as (B1 & B2 & b' & B3 & B4). split; [exact B1|]. split; [exact B2|].
           rewrite Nc. destruct (Nat.eqb i (rightMost p)) eqn:D.
           ++ apply Nat.eqb_eq in D. subst i. rewrite Eb in B3. injection B3 as <-.
              eexists; split; [reflexivity|]. cbn. lia.
           ++ exists b'. split; assumption.
        -- injection Hin as <- <- <-. split; [exact Hs|]. split; [lia|].
           rewrite Nc, Nat.eqb_refl. eexists; split; [reflexivity|]. cbn. lia.
      * assert (Hnew : forall a, In a regs -> disjoint a (rightMost p, ptr b, size) /\
                                   disjoint (rightMost p, ptr b, size) a).
        { intros [[i o] s] Hin. destruct (H3 i o s Hin) as (B1 & B2 & b' & B3 & B4).
          destruct (Nat.eq_dec i (rightMost p)) as [->|N].
          - rewrite Eb in B3. injection B3 as <-. unfold disjoint. split; lia.
          - unfold disjoint. split; left; congruence. }
        intros x y a b0 Hx Hy Hxy.
        destruct (Nat.lt_ge_cases x (length regs)) as [Cx|Cx];
        destruct (Nat.lt_ge_cases y (length regs)) as [Cy|Cy].
        -- rewrite nth_error_app1 in Hx, Hy by assumption. apply (H4 x y); assumption.
        -- rewrite nth_error_app1 in Hx by assumption. rewrite nth_error_app2 in Hy by assumption.
           destruct (y - length regs)%nat as [|m]; [|destruct m; discriminate].
           injection Hy as <-. apply Hnew. apply nth_error_In in Hx. exact Hx.
        -- rewrite nth_error_app2 in Hx by assumption. rewrite nth_error_app1 in Hy by assumption.
           destruct (x - length regs)%nat as [|m]; [|destruct m; discriminate].
           injection Hx as <-. apply Hnew. apply nth_error_In in Hy. exact Hy.
        -- exfalso.
           assert (x < length (regs ++ [(rightMost p, ptr b, size)]))%nat by (apply nth_error_Some; congruence).
           assert (y < length (regs ++ [(rightMost p, ptr b, size)]))%nat by (apply nth_error_Some; congruence).
           rewrite app_length in *. simpl in *. lia.
    + intros q Hq. unfold load. cbn [chain]. rewrite Nc, Nat.eqb_refl. cbn. apply A5. lia.
    + intros j q (bj & Hj). unfold load. cbn [chain]. rewrite Nc.
      destruct (Nat.eqb j (rightMost p)) eqn:D; [|reflexivity].
      apply Nat.eqb_eq in D. subst j. rewrite Eb. reflexivity.
Qed.

Lemma store_ok regs p k o v i b s : inv regs p -> nth_error regs k = Some (i, b, s) -> 0 <= o < s ->
  exists p', store i (b + o) v p = Some p' /\ inv regs p'.
Proof.
  intros (H1 & H2 & H3 & H4) Hk Ho.
  destruct (H3 i b s (nth_error_In _ _ Hk)) as (B1 & B2 & bl & B3 & B4).
  unfold store. rewrite B3. cbn [obind].
  destruct (replace_spec (chain p) i (MkBlk (blockSize bl) (bend bl) (ptr bl)
     (fun o' => if o' =? b + o then Some v else bytes bl o'))) as (c & Ec & Lc & Nc).
  { apply nth_error_Some. congruence. }
  rewrite Ec. cbn [obind]. eexists; split; [reflexivity|].
  split; [cbn; lia|]. split; [|split].
  - intros j b' Hb'. cbn [chain rightMost] in *. rewrite Nc in Hb'.
    destruct (Nat.eqb j i) eqn:D; [|apply H2; exact Hb'].
    apply Nat.eqb_eq in D. subst j. injection Hb' as <-.
    destruct (H2 i bl B3) as (A1 & A2 & A3 & A4 & A5 & A6). cbn.
    repeat split; try assumption; try lia.
    + intros q Hq. replace (q =? b + o) with false by lia. apply A5; lia.
    + intros q Hq. destruct (q =? b + o); [eexists; reflexivity|]. apply A6; lia.
  - intros j q t Hin. destruct (H3 j q t Hin) as (C1 & C2 & b' & C3 & C4).
    split; [exact C1|]. split; [exact C2|]. cbn [chain]. rewrite Nc.
    destruct (Nat.eqb j i) eqn:D.
    + apply Nat.eqb_eq in D. subst j. rewrite B3 in C3. injection C3 as <-.
      eexists; split; [reflexivity|]. exact C4.
    + exists b'. split; assumption.
  - exact H4.
Qed.

Lemma run_inv fuel : forall ops regs p regs' p',
  inv regs p -> polite (map snd regs) ops -> run fuel ops regs p = Some (regs', p') ->
  inv regs' p'.
Proof.
  induction ops as [|[size|k o v] ops IH]; intros regs p regs' p' HI HP E; cbn [run polite] in *.
  - injection E as <- <-. exact HI.
  - destruct HP as (Hs & HP). unfold pool_allocate in E.
    destruct (allocate fuel size (rightMost p) (chain p)) as [[[i o] c]|] eqn:Ea; [|discriminate].
    cbn [obind fst snd] in E.
    pose proof (allocate_ok fuel size regs p (i, o, c) HI Hs Ea) as (P1 & _).
    apply (IH _ _ _ _ P1); [|exact E]. rewrite map_app. exact HP.
  - destruct HP as ((s & Hk & Ho) & HP).
    destruct (nth_error regs k) as [[[i b] s']|] eqn:Er; [|discriminate]. cbn [obind] in E.
    assert (Es : s' = s).
    { rewrite (map_nth_error _ _ _ Er) in Hk. cbn in Hk. congruence. }
    subst s'. destruct (store_ok regs p k o v i b s HI Er Ho) as (p1 & E1 & I1).
    rewrite E1 in E. cbn [obind] in E. apply (IH _ _ _ _ I1 HP E).
Qed.

(** Sum of what was taken from block k is ptr; used for the success bound. *)
Definition used (p : pool) : Z := fold_right Z.add 0 (map ptr (chain p)).

Lemma allocate_progress : forall fuel size regs p,
  inv regs p -> 0 <= size -> (length (chain p) <= 12)%nat ->
  (12 <= rightMost p + fuel)%nat -> used p + size <= 1073741824 ->
  exists i o c, allocate fuel size (rightMost p) (chain p) = Some (i, o, c) /\
    (length c <= 12)%nat /\ used (MkPool c i) = used p + size.
Proof.
  induction fuel as [|f IH]; intros size regs p HI Hs HL Hf HU.
  - exfalso. destruct HI as (H1 & _). lia.
  - pose proof HI as (H1 & H2 & H3 & H4). cbn [allocate].
    destruct (nth_error (chain p) (rightMost p)) as [b|] eqn:Eb.
    2:{ apply nth_error_None in Eb. lia. }
    cbn [obind]. destruct (H2 _ _ Eb) as (A1 & A2 & A3 & A4 & A5 & A6).
    assert (Hub : ptr b <= used p).
    { unfold used. assert (Hnn : forall l x, (forall y, In y l -> 0 <= ptr y) -> In x l ->
         ptr x <= fold_right Z.add 0 (map ptr l)).
      { clear. induction l as [|y l IH]; intros x Hl Hx; [destruct Hx|]. cbn.
        assert (0 <= fold_right Z.add 0 (map ptr l)).
        { clear - Hl. assert (H: forall y, In y l -> 0 <= ptr y) by (intros; apply Hl; right; assumption).
          clear Hl. induction l as [|z l IH]; cbn; [lia|].
          specialize (IH ltac:(intros; apply H; right; assumption)).
          specialize (H z (or_introl eq_refl)). lia. }
        destruct Hx as [->|Hx]; [lia|].
        specialize (IH x ltac:(intros; apply Hl; right; assumption) Hx).
        specialize (Hl y (or_introl eq_refl)). lia. }
      apply Hnn; [|apply nth_error_In in Eb; exact Eb].
      intros y Hy. apply In_nth_error in Hy. destruct Hy as (k & Hk). apply H2 in Hk. lia. }
    destruct (bend b <? ptr b + size) eqn:C.
    + assert (HR : (S (rightMost p) < 12)%nat).
      { destruct (Nat.eq_dec (rightMost p) 11) as [E|N]; [|lia]. exfalso.
        rewrite A2, E in C. change (cap 11) with 1073741824 in C. lia. }
      set (c' := if Nat.ltb (S (rightMost p)) (length (chain p)) then chain p
               else chain p ++ [init0 (to_int32 (blockSize b * 4))]).
      assert (HI' : inv regs (MkPool c' (S (rightMost p)))).
      { unfold c'. destruct (Nat.ltb (S (rightMost p)) (length (chain p))) eqn:D.
        - apply inv_move; [exact HI|lia].
        - assert (EL : length (chain p) = S (rightMost p)) by lia.
          rewrite A1. change (to_int32 (cap (rightMost p) * 4)) with (cap (S (rightMost p))).
          rewrite <- EL at 1.
          apply (inv_move regs (MkPool (chain p ++ [init0 (cap (length (chain p)))]) (rightMost p))).
          + apply inv_grow. exact HI.
          + cbn. rewrite app_length. simpl. lia. }
      assert (HU' : used (MkPool c' (S (rightMost p))) = used p).
      { unfold used, c'. cbn [chain]. destruct (Nat.ltb (S (rightMost p)) (length (chain p))); [reflexivity|].
        rewrite map_app, fold_right_app. cbn. reflexivity. }
      destruct (IH size regs (MkPool c' (S (rightMost p))) HI' Hs) as (i & o & c & E & L & U).
      * unfold c'. cbn [chain]. destruct (Nat.ltb (S (rightMost p)) (length (chain p))) eqn:D; [lia|].
        rewrite app_length. cbn [length]. lia.
      * cbn. lia.
      * rewrite HU'. exact HU.
      * exists i, o, c. split; [exact E|]. split; [exact L|]. rewrite U, HU'. reflexivity.
    + destruct (replace_spec (chain p) (rightMost p)
        (MkBlk (blockSize b) (bend b) (ptr b + size) (bytes b))) as (c & Ec & Lc & Nc); [exact H1|].
      rewrite Ec. cbn [obind]. do 3 eexists. split; [reflexivity|]. split; [lia|].
      unfold used. cbn [chain]. clear - Ec Eb. revert c Ec Eb.
      generalize (rightMost p). induction (chain p) as [|x l IHl]; intros [|n] c Ec Eb;
        cbn in Ec, Eb; try discriminate.
      * injection Ec as <-. injection Eb as ->. cbn. lia.
      * destruct (replace l n _) as [l'|] eqn:El; [|discriminate]. injection Ec as <-.
        cbn. rewrite (IHl n l' El Eb). lia.
Qed.

Lemma total_nonneg : forall ops sizes, polite sizes ops -> 0 <= total ops.
Proof.
  induction ops as [|[s|k o v] ops IH]; intros sizes HP; cbn in *; [lia| |].
  - destruct HP as (H & HP). specialize (IH _ HP). lia.
  - destruct HP as (_ & HP). exact (IH _ HP).
Qed.

Lemma store_used i o v p p' : store i o v p = Some p' -> used p' = used p /\ length (chain p') = length (chain p).
Proof.
  unfold store. destruct (nth_error (chain p) i) as [b|] eqn:Eb; [|discriminate]. cbn [obind].
  destruct (replace (chain p) i _) as [c|] eqn:Ec; [|discriminate]. cbn [obind].
  intros E. injection E as <-. unfold used. cbn [chain].
  revert i c Ec Eb. induction (chain p) as [|x l IHl]; intros [|n] c Ec Eb; cbn in Ec, Eb; try discriminate.
  - injection Ec as <-. injection Eb as ->. split; reflexivity.
  - destruct (replace l n _) as [l'|] eqn:El; [|discriminate]. injection Ec as <-.
    destruct (IHl n l' El Eb) as (U & V). cbn. lia.
Qed.

Lemma run_progress fuel : (12 <= fuel)%nat -> forall ops regs p,
  inv regs p -> polite (map snd regs) ops -> (length (chain p) <= 12)%nat ->
  used p + total ops <= 1073741824 ->
  exists regs' p', run fuel ops regs p = Some (regs', p').
Proof.
  intros Hf. induction ops as [|[size|k o v] ops IH]; intros regs p HI HP HL HU; cbn [run polite total] in *.
  - do 2 eexists; reflexivity.
  - destruct HP as (Hs & HP).
    pose proof (total_nonneg ops _ HP) as HT.
    destruct (allocate_progress fuel size regs p HI Hs HL ltac:(lia) ltac:(lia)) as (i & o & c & E & L & U).
    unfold pool_allocate. rewrite E. cbn [obind fst snd].
    pose proof (allocate_ok fuel size regs p (i, o, c) HI Hs E) as (P1 & _).
    apply (IH _ _ P1); [rewrite map_app; exact HP|exact L|rewrite U; lia].
  - destruct HP as ((s & Hk & Ho) & HP).
    destruct (nth_error regs k) as [[[i b] s']|] eqn:Er.
    2:{ exfalso. apply nth_error_None in Er.
        assert (Hlt : (k < length (map snd regs))%nat) by (apply nth_error_Some; congruence).
        rewrite map_length in Hlt. lia. }
    assert (Es : s' = s).
    { rewrite (map_nth_error _ _ _ Er) in Hk. cbn in Hk. congruence. }
    subst s'. destruct (store_ok regs p k o v i b s HI Er Ho) as (p1 & E1 & I1).
    cbn [obind]. rewrite E1. cbn [obind].
    destruct (store_used _ _ _ _ _ E1) as (U & V).
    apply (IH _ _ I1 HP); [lia|rewrite U; exact HU].
Qed.

(** A request that fits in no block never returns. *)
Lemma diverge : forall fuel size regs p, inv regs p -> 1073741824 < size ->
  allocate fuel size (rightMost p) (chain p) = None.
Proof.
  induction fuel as [|f IH]; intros size regs p HI Hs; [reflexivity|].
  pose proof HI as (H1 & H2 & H3 & H4). cbn [allocate].
  destruct (nth_error (chain p) (rightMost p)) as [b|] eqn:Eb; [|reflexivity]. cbn [obind].
  destruct (H2 _ _ Eb) as (A1 & A2 & A3 & A4 & A5 & A6).
  assert (Hcap : cap (rightMost p) <= 1073741824).
  { destruct (Nat.le_gt_cases 12 (rightMost p)) as [H|H]; [rewrite cap_zero; lia|].
    rewrite cap_values by lia. assert (4 ^ Z.of_nat (rightMost p) <= 4 ^ 11) by (apply Z.pow_le_mono_r; lia).
    change (4 ^ 11) with 4194304 in H0. lia. }
  replace (bend b <? ptr b + size) with true by lia.
  set (c' := if Nat.ltb (S (rightMost p)) (length (chain p)) then chain p
             else chain p ++ [init0 (to_int32 (blockSize b * 4))]).
  assert (HI' : inv regs (MkPool c' (S (rightMost p)))).
  { unfold c'. destruct (Nat.ltb (S (rightMost p)) (length (chain p))) eqn:D.
    - apply inv_move; [exact HI|lia].
    - assert (EL : length (chain p) = S (rightMost p)) by lia.
      rewrite A1. change (to_int32 (cap (rightMost p) * 4)) with (cap (S (rightMost p))).
      rewrite <- EL at 1.
      apply (inv_move regs (MkPool (chain p ++ [init0 (cap (length (chain p)))]) (rightMost p))).
      + apply inv_grow. exact HI.
      + cbn. rewrite app_length. simpl. lia. }
  exact (IH size regs (MkPool c' (S (rightMost p))) HI' Hs).
Qed.

(** Once the 1 GiB block cannot serve a (non-empty) request, none can. *)
Lemma diverge_late : forall fuel size regs p b, inv regs p -> 0 < size ->
  (11 <= rightMost p)%nat -> nth_error (chain p) (rightMost p) = Some b -> bend b < ptr b + size ->
  allocate fuel size (rightMost p) (chain p) = None.
Proof.
  induction fuel as [|f IH]; intros size regs p b HI Hs HR Eb HF; [reflexivity|].
  pose proof HI as (H1 & H2 & H3 & H4). cbn [allocate]. rewrite Eb. cbn [obind].
  destruct (H2 _ _ Eb) as (A1 & A2 & A3 & A4 & A5 & A6).
  replace (bend b <? ptr b + size) with true by lia.
  set (c' := if Nat.ltb (S (rightMost p)) (length (chain p)) then chain p
             else chain p ++ [init0 (to_int32 (blockSize b * 4))]).
  assert (HI' : inv regs (MkPool c' (S (rightMost p)))).
  { unfold c'. destruct (Nat.ltb (S (rightMost p)) (length (chain p))) eqn:D.
    - apply inv_move; [exact HI|lia].
    - assert (EL : length (chain p) = S (rightMost p)) by lia.
      rewrite A1. change (to_int32 (cap (rightMost p) * 4)) with (cap (S (rightMost p))).
      rewrite <- EL at 1.
      apply (inv_move regs (MkPool (chain p ++ [init0 (cap (length (chain p)))]) (rightMost p))).
      + apply inv_grow. exact HI.
      + cbn. rewrite app_length. simpl. lia. }
  pose proof HI' as (G1 & G2 & _). cbn [rightMost chain] in G1, G2.
  destruct (nth_error c' (S (rightMost p))) as [b'|] eqn:Eb'.
  2:{ apply nth_error_None in Eb'. lia. }
  destruct (G2 _ _ Eb') as (_ & B2 & B3 & _).
  rewrite cap_zero in B2 by lia.
  apply (IH size regs (MkPool c' (S (rightMost p))) b' HI' Hs); cbn; [lia|exact Eb'|lia].
Qed.
