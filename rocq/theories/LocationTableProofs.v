From Coq Require Import List ZArith Lia Bool ZifyBool ZifyNat PeanoNat.
From Verif Require Import Base LocationTableModel LocationTableSpec.
Import ListNotations.
Local Open Scope Z_scope.

(** Line starts for the newlines seen so far. *)
Definition starts (nls : list Z) : list Z := 0 :: map (fun o => o + 1) nls.

Definition increasing (s : list Z) : Prop :=
  forall i j, (i < j < length s)%nat -> nth i s 0 < nth j s 0.

Definition last_of (nls : list Z) : Z := last nls (-1).

Definition rep (nls : list Z) (t : table) : Prop :=
  currentLine t = length (starts nls) /\
  (length (starts nls) <= length (cells t))%nat /\
  (forall i, (i < length (starts nls))%nat ->
     nth_error (cells t) i = Some (Some (nth i (starts nls) 0))).

Lemma starts_len nls : length (starts nls) = S (length nls).
Proof. unfold starts; simpl; rewrite map_length; reflexivity. Qed.

Lemma getLine_rep nls t i : rep nls t -> (i < S (length nls))%nat ->
  getLine t i = Some (nth i (starts nls) 0).
Proof.
  intros (Hc & Hl & Hn) Hi. unfold getLine. rewrite Hn; [reflexivity|].
  rewrite starts_len; exact Hi.
Qed.

Lemma filter_firstn {A} (f : A -> bool) (d : A) : forall l i,
  (i <= length l)%nat ->
  (forall j, (j < i)%nat -> f (nth j l d) = true) ->
  (forall j, (i <= j < length l)%nat -> f (nth j l d) = false) ->
  filter f l = firstn i l.
Proof.
  induction l as [|h t IH]; intros i Hi H1 H2; simpl in *.
  - destruct i; reflexivity.
  - destruct i as [|i]; simpl.
    + rewrite (H2 0%nat ltac:(lia)).
      rewrite (IH 0%nat); [reflexivity|lia| |].
      * intros; lia.
      * intros j Hj. apply (H2 (S j)); lia.
    + rewrite (H1 0%nat ltac:(lia)). f_equal. apply IH; [lia| |].
      * intros j Hj. apply (H1 (S j)); lia.
      * intros j Hj. apply (H2 (S j)); lia.
Qed.

Lemma fold_max_bound : forall l v, 0 <= v -> (forall z, In z l -> z <= v) ->
  (v = 0 \/ In v l) -> fold_right Z.max 0 l = v.
Proof.
  induction l as [|h t IH]; intros v Hv Hle Hin; simpl.
  - destruct Hin as [?|[]]; lia.
  - destruct Hin as [E|[E|Hin]].
    + subst v. rewrite (IH 0); [| lia | intros; apply Hle; right; assumption | left; reflexivity].
      specialize (Hle h (or_introl eq_refl)). lia.
    + subst h.
      assert (fold_right Z.max 0 t <= v).
      { clear IH. assert (Ht: forall z, In z t -> z <= v) by (intros; apply Hle; right; assumption).
        clear Hle. induction t as [|a t IH]; simpl; [lia|].
        specialize (IH ltac:(intros; apply Ht; right; assumption)).
        specialize (Ht a (or_introl eq_refl)). lia. }
      lia.
    + rewrite (IH v); [| lia | intros; apply Hle; right; assumption | right; assumption].
      specialize (Hle h (or_introl eq_refl)). lia.
Qed.

Lemma nth_starts_S nls j : (j < length nls)%nat ->
  nth (S j) (starts nls) 0 = nth j nls 0 + 1.
Proof.
  intros H. unfold starts. simpl.
  rewrite (nth_indep _ 0 ((fun o => o + 1) 0)) by (rewrite map_length; exact H).
  rewrite (map_nth (fun o => o + 1)). reflexivity.
Qed.

Lemma spec_unique nls x i :
  increasing (starts nls) -> 0 <= x ->
  (i < S (length nls))%nat ->
  nth i (starts nls) 0 <= x ->
  (forall j, (i < j < S (length nls))%nat -> x < nth j (starts nls) 0) ->
  spec_position nls x = (Z.of_nat i, x - nth i (starts nls) 0).
Proof.
  intros Hinc Hx Hi Hle Hgt.
  pose proof (starts_len nls) as HL.
  unfold spec_position. replace (x <? 0) with false by lia.
  assert (HB : before nls x = firstn i nls).
  { unfold before. apply (filter_firstn _ 0); [lia| |].
    - intros j Hj.
      assert (nth (S j) (starts nls) 0 <= nth i (starts nls) 0).
      { destruct (Nat.eq_dec (S j) i) as [E|NE]; [rewrite E; lia|].
        specialize (Hinc (S j) i ltac:(lia)). lia. }
      rewrite nth_starts_S in H by lia. lia.
    - intros j Hj. specialize (Hgt (S j) ltac:(lia)).
      rewrite nth_starts_S in Hgt by lia. lia. }
  rewrite HB. rewrite firstn_length, Nat.min_l by lia.
  f_equal. f_equal.
  apply fold_max_bound.
  - destruct i as [|i]; [simpl; lia|].
    specialize (Hinc 0%nat (S i) ltac:(lia)). simpl in *. lia.
  - intros z Hz. apply in_map_iff in Hz. destruct Hz as (o & E & Ho).
    apply (In_nth _ _ 0) in Ho. destruct Ho as (k & Hk & E2).
    rewrite firstn_length in Hk.
    assert (Hk2 : (k < i)%nat) by lia.
    assert (E3 : nth k nls 0 = o).
    { rewrite <- E2. clear - Hk2. revert i nls Hk2.
      induction k as [|k IH]; intros [|i] [|a nls] H; simpl; try reflexivity; try lia.
      apply IH; lia. }
    assert (nth (S k) (starts nls) 0 <= nth i (starts nls) 0).
    { destruct (Nat.eq_dec (S k) i) as [E4|NE]; [rewrite E4; lia|].
      specialize (Hinc (S k) i ltac:(lia)). lia. }
    rewrite nth_starts_S in H by lia. lia.
  - destruct i as [|i]; [left; reflexivity|]. right.
    rewrite nth_starts_S by lia.
    apply in_map_iff. exists (nth i nls 0). split; [reflexivity|].
    assert (G : nth i nls 0 = nth i (firstn (S i) nls) 0).
    { assert (Hi' : (i < length nls)%nat) by lia. clear - Hi'. revert nls Hi'.
      induction i as [|i IH]; intros [|a nls] H; simpl in *; try reflexivity; try lia.
      rewrite (IH nls ltac:(lia)). reflexivity. }
    rewrite G. apply nth_In. rewrite firstn_length. lia.
Qed.

(** The halving loop returns the first index whose line start is >= x. *)
Lemma lowerBound_ok nls t x : rep nls t -> increasing (starts nls) ->
  forall fuel len first,
  (len <= fuel)%nat -> (first + len <= S (length nls))%nat ->
  (forall j, (j < first)%nat -> nth j (starts nls) 0 < x) ->
  (forall j, (first + len <= j < S (length nls))%nat -> x <= nth j (starts nls) 0) ->
  exists r, lowerBound fuel t first len x = Some r /\ (first <= r <= first + len)%nat /\
    (forall j, (j < r)%nat -> nth j (starts nls) 0 < x) /\
    (forall j, (r <= j < S (length nls))%nat -> x <= nth j (starts nls) 0).
Proof.
  intros HR Hinc. pose proof (starts_len nls) as HL.
  induction fuel as [|f IH]; intros len first Hf Hb Hlo Hhi.
  - assert (len = 0%nat) by lia. subst len. simpl. exists first.
    split; [reflexivity|]. split; [lia|]. split; [exact Hlo|].
    intros j Hj; apply Hhi; lia.
  - destruct len as [|l]; [simpl; exists first; split; [reflexivity|]; split; [lia|]; split;
      [exact Hlo| intros j Hj; apply Hhi; lia]|].
    remember (S l) as len eqn:Elen.
    assert (Hh : (Nat.div2 len < len)%nat) by (apply Nat.lt_div2; lia).
    assert (Hunf : lowerBound (S f) t first len x =
      do v <- getLine t (first + Nat.div2 len);
      if v <? x then lowerBound f t (first + Nat.div2 len + 1) (len - Nat.div2 len - 1) x
      else lowerBound f t first (Nat.div2 len) x) by (subst len; reflexivity).
    rewrite Hunf.
    rewrite (getLine_rep nls) by (assumption || lia). cbn [obind].
    destruct (nth (first + Nat.div2 len) (starts nls) 0 <? x) eqn:E.
    + destruct (IH (len - Nat.div2 len - 1)%nat (first + Nat.div2 len + 1)%nat) as (r & E1 & E2 & E3 & E4);
        [lia|lia| | |].
      * intros j Hj. destruct (Nat.eq_dec j (first + Nat.div2 len)) as [->|N]; [lia|].
        specialize (Hinc j (first + Nat.div2 len)%nat ltac:(lia)). lia.
      * intros j Hj. apply Hhi; lia.
      * exists r. split; [exact E1|]. split; [lia|]. split; assumption.
    + destruct (IH (Nat.div2 len) first) as (r & E1 & E2 & E3 & E4);
        [lia|lia|exact Hlo| |].
      * intros j Hj. destruct (Nat.eq_dec j (first + Nat.div2 len)) as [->|N]; [lia|].
        specialize (Hinc (first + Nat.div2 len)%nat j ltac:(lia)). lia.
      * exists r. split; [exact E1|]. split; [lia|]. split; assumption.
Qed.

Lemma positionAt_ok nls t x : rep nls t -> increasing (starts nls) ->
  exists l, positionAt x t = Some (spec_position nls x, MkTable (cells t) (currentLine t) l).
Proof.
  intros HR Hinc. pose proof (starts_len nls) as HL. pose proof HR as (Hc & Hlen & Hn).
  unfold positionAt. destruct (x <? 0) eqn:Ex.
  { exists (lastLine t). unfold spec_position. rewrite Ex. destruct t; reflexivity. }
  rewrite Hc, HL. rewrite (getLine_rep nls) by (assumption || lia). cbn [obind].
  destruct (nth (length nls) (starts nls) 0 <? x) eqn:Etop.
  { exists (lastLine t). rewrite (spec_unique nls x (length nls)); try assumption; try lia.
    destruct t; simpl in *; subst; rewrite HL; reflexivity. }
  match goal with |- context [obind ?E _] => set (fast := E) end.
  assert (Hfast : fast = Some None \/ exists i, fast = Some (Some i) /\ (i < S (length nls))%nat /\
    nth i (starts nls) 0 <= x /\ (forall j, (i < j < S (length nls))%nat -> x < nth j (starts nls) 0)).
  { subst fast. destruct (Nat.ltb (lastLine t + 1) (S (length nls))) eqn:E1; [|left; reflexivity].
    rewrite !(getLine_rep nls) by (assumption || lia). cbn [obind].
    destruct (nth (lastLine t) (starts nls) 0 <=? x) eqn:E2; [|left; reflexivity].
    destruct (x <? nth (lastLine t + 1) (starts nls) 0) eqn:E3.
    { right. exists (lastLine t). split; [reflexivity|]. split; [lia|]. split; [lia|].
      intros j Hj. destruct (Nat.eq_dec j (lastLine t + 1)) as [->|N]; [lia|].
      specialize (Hinc (lastLine t + 1)%nat j ltac:(lia)). lia. }
    destruct (Nat.ltb (lastLine t + 2) (S (length nls))) eqn:E4; [|left; reflexivity].
    rewrite !(getLine_rep nls) by (assumption || lia). cbn [obind].
    destruct (x <? nth (lastLine t + 2) (starts nls) 0) eqn:E5; [|left; reflexivity].
    right. exists (lastLine t + 1)%nat. split; [reflexivity|]. split; [lia|]. split; [lia|].
    intros j Hj. destruct (Nat.eq_dec j (lastLine t + 2)) as [->|N]; [lia|].
    specialize (Hinc (lastLine t + 2)%nat j ltac:(lia)). lia. }
  destruct Hfast as [-> | (i & -> & Hi & H1 & H2)]; cbn [obind].
  - destruct (lowerBound_ok nls t x HR Hinc (S (length nls)) (S (length nls)) 0%nat)
      as (r & E1 & E2 & E3 & E4); [lia|lia|intros; lia|intros; lia|].
    rewrite E1. cbn [obind].
    destruct (Nat.eqb r (S (length nls))) eqn:Er.
    { exfalso. specialize (E3 (length nls) ltac:(lia)). lia. }
    rewrite (getLine_rep nls) by (assumption || lia). cbn [obind].
    destruct (nth r (starts nls) 0 =? x) eqn:Ev.
    + cbn [obind]. rewrite (getLine_rep nls) by (assumption || lia). cbn [obind].
      exists r. rewrite (spec_unique nls x r); try assumption; try lia.
      * try rewrite Hc; try rewrite HL; reflexivity.
      * intros j Hj. specialize (Hinc r j ltac:(lia)). lia.
    + destruct r as [|r].
      * exfalso. specialize (E4 0%nat ltac:(lia)). change (nth 0 (starts nls) 0) with 0 in *. lia.
      * cbn [obind]. rewrite (getLine_rep nls) by (assumption || lia). cbn [obind].
        exists r. rewrite (spec_unique nls x r); try assumption; try lia.
        -- try rewrite Hc; try rewrite HL; reflexivity.
        -- specialize (E3 r ltac:(lia)). lia.
        -- intros j Hj. pose proof (E4 (S r) ltac:(lia)).
           destruct (Nat.eq_dec j (S r)) as [->|N]; [lia|].
           specialize (Hinc (S r) j ltac:(lia)). lia.
  - rewrite (getLine_rep nls) by (assumption || lia). cbn [obind].
    exists i. rewrite (spec_unique nls x i); try assumption; try lia.
    try rewrite Hc; try rewrite HL; reflexivity.
Qed.

Lemma rep_cache nls t l : rep nls t -> rep nls (MkTable (cells t) (currentLine t) l).
Proof. intros H; exact H. Qed.

Lemma resize_ok nls t n : rep nls t -> (S (length nls) <= n)%nat ->
  exists t', resize n t = Some t' /\ rep nls t' /\ length (cells t') = n.
Proof.
  intros (Hc & Hlen & Hn) H. rewrite starts_len in *. unfold resize.
  destruct n as [|n]; [lia|]. eexists; split; [reflexivity|].
  assert (HLn : length (firstn (S n) (cells t) ++ repeat None (S n - length (cells t))) = S n).
  { rewrite app_length, firstn_length, repeat_length. lia. }
  split; [|exact HLn].
  split; [cbn [currentLine]; rewrite starts_len; exact Hc|].
  split; [cbn [cells]; rewrite HLn, starts_len; lia|].
  intros i Hi. rewrite starts_len in Hi. cbn [cells].
  rewrite nth_error_app1 by (rewrite firstn_length; lia).
  rewrite <- Hn by lia.
  generalize (cells t); intros l. assert (Hi2: (i < S n)%nat) by lia. clear - Hi2.
  revert l n Hi2. induction i as [|i IH]; intros [|a l] n Hn; try reflexivity.
  cbn. destruct n; [lia|]. apply IH; lia.
Qed.

Lemma starts_app nls o : starts (nls ++ [o]) = starts nls ++ [o + 1].
Proof. unfold starts. rewrite map_app. reflexivity. Qed.

Lemma newline_ok nls t o : rep nls t -> o < int64_max ->
  exists t', newline o t = Some t' /\ rep (nls ++ [o]) t'.
Proof.
  intros HR Ho. unfold newline.
  assert (exists t1, (if Nat.eqb (currentLine t) (length (cells t))
      then resize (currentLine t * 2) t else Some t) = Some t1 /\ rep nls t1 /\
      (S (length nls) < length (cells t1))%nat) as (t1 & E1 & R1 & L1).
  { pose proof HR as (Hc & Hlen & Hn). rewrite starts_len in *.
    destruct (Nat.eqb (currentLine t) (length (cells t))) eqn:E.
    - destruct (resize_ok nls t (currentLine t * 2) HR ltac:(lia)) as (t1 & A & B & C).
      exists t1. split; [exact A|]. split; [exact B|]. rewrite C. lia.
    - exists t. split; [reflexivity|]. split; [exact HR|]. lia. }
  rewrite E1. cbn [obind]. replace (o + 1 <=? int64_max) with true by lia.
  pose proof R1 as (Hc & Hlen & Hn). rewrite starts_len in *.
  destruct (replace_spec (cells t1) (currentLine t1) (Some (o + 1))) as (c & Ec & Lc & Nc); [lia|].
  rewrite Ec. cbn [obind]. eexists; split; [reflexivity|].
  split; [cbn [currentLine]; rewrite starts_len, app_length; simpl; lia|].
  split; [cbn [cells]; rewrite starts_len, app_length; simpl; lia|].
  intros i Hi. cbn [cells]. rewrite Nc. rewrite starts_len, app_length in Hi; simpl in Hi.
  rewrite starts_app. pose proof (starts_len nls) as HL.
  destruct (Nat.eqb i (currentLine t1)) eqn:E.
  - rewrite app_nth2 by lia. replace (i - length (starts nls))%nat with 0%nat by lia. reflexivity.
  - rewrite app_nth1 by lia. apply Hn. lia.
Qed.

Lemma increasing_snoc nls o : increasing (starts nls) -> -1 <= last_of nls ->
  last_of nls < o -> increasing (starts (nls ++ [o])).
Proof.
  intros Hinc H0 Ho. rewrite starts_app. pose proof (starts_len nls) as HL.
  assert (Htop : nth (length nls) (starts nls) 0 = last_of nls + 1).
  { destruct nls as [|a r] using rev_ind; [reflexivity|].
    unfold last_of. rewrite last_last. rewrite app_length; cbn [length].
    replace (length r + 1)%nat with (S (length r)) by lia.
    rewrite nth_starts_S by (rewrite app_length; simpl; lia).
    rewrite app_nth2 by lia. replace (length r - length r)%nat with 0%nat by lia. reflexivity. }
  intros i j Hij. rewrite app_length in Hij; cbn [length] in Hij.
  destruct (Nat.eq_dec j (length (starts nls))) as [->|N].
  - rewrite (app_nth1 _ _ _ (n := i)) by lia.
    rewrite (app_nth2 _ _ _ (n := length (starts nls))) by lia.
    rewrite Nat.sub_diag. change (nth 0 [o + 1] 0) with (o + 1).
    destruct (Nat.eq_dec i (length nls)) as [->|N2]; [lia|].
    specialize (Hinc i (length nls) ltac:(lia)). lia.
  - rewrite !app_nth1 by (simpl in *; lia). apply Hinc; lia.
Qed.

Lemma run_ok : forall ops nls t,
  rep nls t -> increasing (starts nls) -> -1 <= last_of nls ->
  legal (last_of nls) (S (length nls)) ops ->
  exists t', run ops t = Some (spec_answers nls ops, t') /\ rep (nls ++ newlines ops) t' /\
             increasing (starts (nls ++ newlines ops)).
Proof.
  induction ops as [|[o|x|n] ops IH]; intros nls t HR Hinc Hl Hleg.
  - exists t. simpl. rewrite app_nil_r. split; [reflexivity|]. split; assumption.
  - destruct Hleg as (H1 & H2 & H3).
    destruct (newline_ok nls t o HR ltac:(unfold int64_max; lia)) as (t1 & E1 & R1).
    assert (EL : last_of (nls ++ [o]) = o) by (unfold last_of; apply last_last).
    destruct (IH (nls ++ [o]) t1 R1) as (t' & E2 & R2 & I2).
    + apply increasing_snoc; assumption.
    + rewrite EL; lia.
    + rewrite EL, app_length. simpl. replace (length nls + 1)%nat with (S (length nls)) by lia. exact H3.
    + exists t'. cbn [run newlines spec_answers]. rewrite E1. cbn [obind].
      rewrite E2. rewrite <- app_assoc in R2, I2. simpl in R2, I2.
      split; [reflexivity|]. split; assumption.
  - destruct (positionAt_ok nls t x HR Hinc) as (l & E1).
    destruct (IH nls _ (rep_cache nls t l HR) Hinc Hl Hleg) as (t' & E2 & R2 & I2).
    exists t'. cbn [run newlines spec_answers]. rewrite E1. cbn [obind]. rewrite E2. cbn [obind].
    split; [reflexivity|]. split; assumption.
  - destruct Hleg as (H1 & H2).
    destruct (resize_ok nls t n HR H1) as (t1 & E1 & R1 & _).
    destruct (IH nls t1 R1 Hinc Hl H2) as (t' & E2 & R2 & I2).
    exists t'. cbn [run newlines spec_answers]. rewrite E1. cbn [obind].
    split; [exact E2|]. split; assumption.
Qed.

Lemma create_ok n : (1 <= n)%nat -> exists t, create n = Some t /\ rep [] t.
Proof.
  intros H. unfold create, resize. destruct n as [|n]; [lia|].
  simpl. eexists; split; [reflexivity|].
  split; [reflexivity|]. split; [simpl; lia|].
  intros [|i] Hi; simpl in *; [reflexivity|lia].
Qed.

Lemma run_from_create n ops : (1 <= n)%nat -> legal (-1) 1 ops ->
  exists t0 t', create n = Some t0 /\ run ops t0 = Some (spec_answers [] ops, t') /\
    rep (newlines ops) t' /\ increasing (starts (newlines ops)).
Proof.
  intros Hn Hleg. destruct (create_ok n Hn) as (t0 & E0 & R0).
  destruct (run_ok ops [] t0 R0) as (t' & E & R & I).
  - intros i j Hij; simpl in Hij; lia.
  - unfold last_of; simpl; lia.
  - exact Hleg.
  - exists t0, t'. split; [exact E0|]. split; [exact E|]. split; assumption.
Qed.

Lemma history_free n1 n2 ops1 ops2 x a1 a2 t1 t2 t1' t2' r1 r2 :
  (1 <= n1)%nat -> (1 <= n2)%nat -> legal (-1) 1 ops1 -> legal (-1) 1 ops2 ->
  newlines ops1 = newlines ops2 ->
  create n1 = Some t1 -> create n2 = Some t2 ->
  run ops1 t1 = Some (r1, t1') -> run ops2 t2 = Some (r2, t2') ->
  positionAt x t1' = Some a1 -> positionAt x t2' = Some a2 -> fst a1 = fst a2.
Proof.
  intros H1 H2 L1 L2 EN C1 C2 R1 R2 P1 P2.
  destruct (run_from_create n1 ops1 H1 L1) as (u & u' & A1 & A2 & A3 & A4).
  destruct (run_from_create n2 ops2 H2 L2) as (v & v' & B1 & B2 & B3 & B4).
  rewrite C1 in A1; injection A1 as <-. rewrite C2 in B1; injection B1 as <-.
  rewrite R1 in A2; injection A2 as _ <-. rewrite R2 in B2; injection B2 as _ <-.
  destruct (positionAt_ok _ _ x A3 A4) as (l1 & Q1).
  destruct (positionAt_ok _ _ x B3 B4) as (l2 & Q2).
  rewrite P1 in Q1; injection Q1 as ->. rewrite P2 in Q2; injection Q2 as ->.
  simpl. rewrite EN. reflexivity.
Qed.

Lemma lines_kept n ops : (1 <= n)%nat -> legal (-1) 1 ops ->
  exists t0 r t', create n = Some t0 /\ run ops t0 = Some (r, t') /\
    forall k, (k <= length (newlines ops))%nat ->
      getLine t' k = Some (match k with O => 0 | S j => nth j (newlines ops) 0 + 1 end).
Proof.
  intros Hn Hleg. destruct (run_from_create n ops Hn Hleg) as (t0 & t' & A & B & R & I).
  exists t0, (spec_answers [] ops), t'. split; [exact A|]. split; [exact B|].
  intros k Hk. rewrite (getLine_rep _ _ _ R) by lia.
  destruct k as [|k]; [reflexivity|]. rewrite nth_starts_S by lia. reflexivity.
Qed.
