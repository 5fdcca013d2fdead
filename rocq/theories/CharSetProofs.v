From Coq Require Import List NArith ZArith Lia Bool PeanoNat ZifyBool ZifyN ZifyNat Permutation Sorted.
From Verif Require Import Base CharSetModel CharSetSpec.
Import ListNotations.
Local Open Scope N_scope.

(** Weakly canonical lists: the last range may be the empty range (sz, sz). *)
Fixpoint weak_from (k sz : N) (d : range_list) : Prop :=
  match d with
  | [] => True
  | (a, b) :: r => k <= a /\ (a < b \/ a = sz /\ b = sz) /\ b <= sz /\ weak_from (b + 1) sz r
  end.
Definition strict (d : range_list) : Prop := Forall (fun p => fst p < snd p) d.

(** Boolean membership. *)
Definition mem (d : range_list) (x : N) : bool :=
  existsb (fun p => (fst p <=? x) && (x <? snd p)) d.

Lemma mem_inside d x : mem d x = true <-> inside d x.
Proof.
  unfold mem, inside. rewrite existsb_exists. split.
  - intros ([a b] & H1 & H2). exists a, b. split; [exact H1|]. cbn in H2. lia.
  - intros (a & b & H1 & H2). exists (a, b). split; [exact H1|]. cbn. lia.
Qed.

Lemma mem_cons a b d x : mem ((a, b) :: d) x = ((a <=? x) && (x <? b)) || mem d x.
Proof. reflexivity. Qed.

Lemma canonical_weak : forall d k sz, canonical_from k sz d <-> weak_from k sz d /\ strict d.
Proof.
  induction d as [|[a b] d IH]; intros k sz; cbn.
  - split; [intros _; split; [exact I|constructor]|intros _; exact I].
  - rewrite IH. unfold strict. split.
    + intros (H1 & H2 & H3 & H4 & H5). repeat split; try lia; try assumption. constructor; [exact H2|exact H5].
    + intros ((H1 & H2 & H3 & H4) & H5). inversion H5; subst. cbn in *. repeat split; try lia; assumption.
Qed.

Lemma weak_le : forall d k k' sz, k' <= k -> weak_from k sz d -> weak_from k' sz d.
Proof. intros [|[a b] d] k k' sz H; cbn; [tauto|]. intros (H1 & H2). split; [lia|exact H2]. Qed.

Lemma mem_low : forall d k sz x, weak_from k sz d -> x < k -> mem d x = false.
Proof.
  induction d as [|[a b] d IH]; intros k sz x; cbn [weak_from]; [reflexivity|].
  intros (H1 & H2 & H3 & H4) Hx. rewrite mem_cons, (IH (b + 1) sz x H4) by lia. lia.
Qed.

Lemma mem_high : forall d k sz x, weak_from k sz d -> sz <= x -> mem d x = false.
Proof.
  induction d as [|[a b] d IH]; intros k sz x; cbn [weak_from]; [reflexivity|].
  intros (H1 & H2 & H3 & H4) Hx. rewrite mem_cons, (IH (b + 1) sz x H4) by lia. lia.
Qed.

Ltac lows x :=
  repeat match goal with
  | H : weak_from ?k ?sz ?d |- _ =>
    lazymatch goal with
    | _ : x < k -> mem d x = false |- _ => fail
    | _ => pose proof (mem_low d k sz x H)
    end
  end.

(** ** Union *)
Definition act (b : bool) (start : N) (d : range_list) (x : N) : bool :=
  b && match d with (_, e) :: _ => (start <=? x) && (x <? e) | [] => false end.

Definition b2n (b : bool) : nat := if b then 1 else 0.

Lemma union_exit fuel t o inT inO start k sz : t = [] \/ o = [] ->
  weak_from k sz t -> weak_from k sz o ->
  (inT = true -> t <> []) -> (inO = true -> o <> []) ->
  (inT || inO = true -> k <= start /\ weak_from start sz t /\ weak_from start sz o) ->
  exists r, union_loop fuel t o inT inO start = Some r /\ weak_from k sz r /\
    (strict t -> strict o -> strict r) /\
    forall x, mem r x = mem t x || mem o x || act inT start t x || act inO start o x.
Proof.
  intros E Wt Wo NT NO Act.
  set (rt := if inT then match t with [] => None | (_, ts) :: t' => Some ((start, ts) :: t') end else Some t).
  set (ro := if inO then match o with [] => None | (_, os) :: o' => Some ((start, os) :: o') end else Some o).
  assert (U : union_loop fuel t o inT inO start = do a <- rt; do b <- ro; Some (a ++ b)).
  { destruct E as [->| ->]; destruct fuel; try destruct t as [|[? ?] ?]; reflexivity. }
  rewrite U. unfold rt, ro. clear U rt ro.
  destruct E as [-> | ->].
  - destruct inT; [exfalso; apply (NT eq_refl); reflexivity|]. cbn [obind].
    destruct inO.
    + destruct o as [|[of os] o']; [exfalso; apply (NO eq_refl); reflexivity|].
      destruct (Act eq_refl) as (A1 & _ & A2). cbn [obind app].
      eexists; split; [reflexivity|]. cbn [weak_from] in *. split; [|split].
      * repeat split; try lia; apply A2.
      * intros _ H. inversion H; subst. constructor; [cbn in *; lia|assumption].
      * intros x. rewrite !mem_cons. cbn [act mem existsb andb]. lia.
    + cbn [obind app]. eexists; split; [reflexivity|]. split; [exact Wo|]. split; [auto|].
      intros x. cbn. rewrite !orb_false_r. reflexivity.
  - destruct inO; [exfalso; apply (NO eq_refl); reflexivity|].
    destruct inT.
    + destruct t as [|[tf ts] t']; [exfalso; apply (NT eq_refl); reflexivity|].
      destruct (Act eq_refl) as (A1 & A2 & _). cbn [obind]. rewrite app_nil_r.
      eexists; split; [reflexivity|]. cbn [weak_from] in *. split; [|split].
      * repeat split; try lia; apply A2.
      * intros H _. inversion H; subst. constructor; [cbn in *; lia|assumption].
      * intros x. rewrite !mem_cons. cbn [act mem existsb andb]. lia.
    + cbn [obind]. rewrite app_nil_r. eexists; split; [reflexivity|]. split; [exact Wt|]. split; [auto|].
      intros x. cbn. rewrite !orb_false_r. reflexivity.
Qed.

Lemma strict_cons a b d : strict ((a, b) :: d) <-> a < b /\ strict d.
Proof.
  unfold strict. split.
  - intros H. inversion H; subst. split; assumption.
  - intros (H1 & H2). constructor; assumption.
Qed.

Lemma union_ok : forall fuel t o inT inO start k sz,
  (3 * (length t + length o) <= fuel + b2n inT + b2n inO)%nat ->
  weak_from k sz t -> weak_from k sz o ->
  (inT = true -> t <> []) -> (inO = true -> o <> []) ->
  (inT || inO = true -> k <= start /\ weak_from start sz t /\ weak_from start sz o) ->
  exists r, union_loop fuel t o inT inO start = Some r /\ weak_from k sz r /\
    (strict t -> strict o -> strict r) /\
    forall x, mem r x = mem t x || mem o x || act inT start t x || act inO start o x.
Proof.
  induction fuel as [|f IH]; intros t o inT inO start k sz Hf Wt Wo NT NO Act;
  (destruct t as [|[tf ts] t']; [apply union_exit; auto|]);
  (destruct o as [|[of os] o']; [apply union_exit; auto|]).
  { exfalso. cbn [length] in Hf. destruct inT, inO; cbn [b2n] in Hf; lia. }
  pose proof Wt as (T1 & T2 & T3 & T4). pose proof Wo as (O1 & O2 & O3 & O4).
  cbn [length] in Hf. cbn [union_loop].
  destruct inT, inO; cbn [b2n orb] in Hf, Act; try destruct (Act eq_refl) as (A1 & A2 & A3);
    try (pose proof A2 as (B1 & B2 & B3 & B4); pose proof A3 as (C1 & C2 & C3 & C4)).
  - destruct (ts <=? os) eqn:E.
    + destruct (IH t' ((of, os) :: o') false true start k sz) as (r & R1 & R2 & R3 & R4).
      * cbn [length b2n]. lia.
      * apply (weak_le _ (ts + 1)); [lia|exact T4].
      * exact Wo.
      * discriminate.
      * discriminate.
      * intros _. split; [exact A1|]. split; [apply (weak_le _ (ts + 1)); [lia|exact T4]|exact A3].
      * exists r. split; [exact R1|]. split; [exact R2|]. split.
        -- intros H1 H2. apply R3; [apply strict_cons in H1; tauto|exact H2].
        -- intros x. rewrite R4, !mem_cons. cbn [act andb]. lia.
    + destruct (IH ((tf, ts) :: t') o' true false start k sz) as (r & R1 & R2 & R3 & R4).
      * cbn [length b2n]. lia.
      * exact Wt.
      * apply (weak_le _ (os + 1)); [lia|exact O4].
      * discriminate.
      * discriminate.
      * intros _. split; [exact A1|]. split; [exact A2|]. apply (weak_le _ (os + 1)); [lia|exact O4].
      * exists r. split; [exact R1|]. split; [exact R2|]. split.
        -- intros H1 H2. apply R3; [exact H1|apply strict_cons in H2; tauto].
        -- intros x. rewrite R4, !mem_cons. cbn [act andb]. lia.
  - destruct (ts <? of) eqn:E.
    + destruct (IH t' ((of, os) :: o') false false start (ts + 1) sz) as (r & R1 & R2 & R3 & R4).
      * cbn [length b2n]. lia.
      * exact T4.
      * cbn [weak_from]. repeat split; try lia. exact O4.
      * discriminate.
      * discriminate.
      * discriminate.
      * rewrite R1. cbn [obind]. eexists; split; [reflexivity|].
        destruct (start =? ts) eqn:F.
        -- split; [apply (weak_le _ (ts + 1)); [lia|exact R2]|]. split.
           ++ intros H1 H2. apply R3; [apply strict_cons in H1; tauto|exact H2].
           ++ intros x. rewrite R4, !mem_cons. cbn [act andb]. lia.
        -- split; [cbn [weak_from]; repeat split; try lia; exact R2|]. split.
           ++ intros H1 H2. apply strict_cons in H1. apply strict_cons. split; [lia|]. apply R3; tauto.
           ++ intros x. rewrite !mem_cons, R4, !mem_cons. cbn [act andb]. lia.
    + destruct (IH ((tf, ts) :: t') ((of, os) :: o') true true start k sz) as (r & R1 & R2 & R3 & R4);
        try assumption; try discriminate.
      * cbn [length b2n]. lia.
      * exists r. split; [exact R1|]. split; [exact R2|]. split; [exact R3|].
        intros x. rewrite R4, !mem_cons. cbn [act andb]. lia.
  - destruct (os <? tf) eqn:E.
    + destruct (IH ((tf, ts) :: t') o' false false start (os + 1) sz) as (r & R1 & R2 & R3 & R4).
      * cbn [length b2n]. lia.
      * cbn [weak_from]. repeat split; try lia. exact T4.
      * exact O4.
      * discriminate.
      * discriminate.
      * discriminate.
      * rewrite R1. cbn [obind]. eexists; split; [reflexivity|].
        destruct (start =? os) eqn:F.
        -- split; [apply (weak_le _ (os + 1)); [lia|exact R2]|]. split.
           ++ intros H1 H2. apply R3; [exact H1|apply strict_cons in H2; tauto].
           ++ intros x. rewrite R4, !mem_cons. cbn [act andb]. lia.
        -- split; [cbn [weak_from]; repeat split; try lia; exact R2|]. split.
           ++ intros H1 H2. apply strict_cons in H2. apply strict_cons. split; [lia|]. apply R3; tauto.
           ++ intros x. rewrite !mem_cons, R4, !mem_cons. cbn [act andb]. lia.
    + destruct (IH ((tf, ts) :: t') ((of, os) :: o') true true start k sz) as (r & R1 & R2 & R3 & R4);
        try assumption; try discriminate.
      * cbn [length b2n]. lia.
      * exists r. split; [exact R1|]. split; [exact R2|]. split; [exact R3|].
        intros x. rewrite R4, !mem_cons. cbn [act andb]. lia.
  - destruct (tf <? of) eqn:E.
    + destruct (IH ((tf, ts) :: t') ((of, os) :: o') true false tf k sz) as (r & R1 & R2 & R3 & R4);
        try assumption; try discriminate.
      * cbn [length b2n]. lia.
      * intros _. cbn [weak_from]. repeat split; try lia; assumption.
      * exists r. split; [exact R1|]. split; [exact R2|]. split; [exact R3|].
        intros x. rewrite R4, !mem_cons. cbn [act andb]. lia.
    + destruct (IH ((tf, ts) :: t') ((of, os) :: o') false true of k sz) as (r & R1 & R2 & R3 & R4);
        try assumption; try discriminate.
      * cbn [length b2n]. lia.
      * intros _. cbn [weak_from]. repeat split; try lia; assumption.
      * exists r. split; [exact R1|]. split; [exact R2|]. split; [exact R3|].
        intros x. rewrite R4, !mem_cons. cbn [act andb]. lia.
Qed.

Lemma seq_union_ok sz a b : weak_from 0 sz (sdata a) -> weak_from 0 sz (sdata b) ->
  exists r, seq_union a b = Some r /\ seps r = false /\ weak_from 0 sz (sdata r) /\
    (strict (sdata a) -> strict (sdata b) -> strict (sdata r)) /\
    forall x, mem (sdata r) x = mem (sdata a) x || mem (sdata b) x.
Proof.
  intros WA WB. unfold seq_union.
  destruct (union_ok (3 * (length (sdata a) + length (sdata b))) (sdata a) (sdata b) false false 0 0 sz)
    as (r & R1 & R2 & R3 & R4); try assumption; try discriminate.
  - cbn [b2n]. lia.
  - rewrite R1. cbn [obind]. eexists; split; [reflexivity|]. cbn [sdata seps]. repeat split; try assumption.
    intros x. rewrite R4. cbn [act andb]. rewrite !orb_false_r. reflexivity.
Qed.

(** ** Intersection *)
Lemma inter_ok : forall fuel t o kt ko sz, (length t + length o <= fuel)%nat ->
  weak_from kt sz t -> weak_from ko sz o ->
  exists r, inter_loop fuel t o = Some r /\ weak_from kt sz r /\ weak_from ko sz r /\
    (strict t -> strict o -> strict r) /\ forall x, mem r x = mem t x && mem o x.
Proof.
  induction fuel as [|f IH]; intros t o kt ko sz Hf Wt Wo;
  (destruct t as [|[tf ts] t'];
    [eexists; split; [reflexivity|]; split; [exact I|]; split; [exact I|]; split; [constructor|]; reflexivity|]);
  (destruct o as [|[of os] o'];
    [eexists; split; [reflexivity|]; split; [exact I|]; split; [exact I|]; split; [constructor|];
      intros x; cbn [mem existsb]; rewrite andb_false_r; reflexivity|]).
  { exfalso. cbn [length] in Hf. lia. }
  pose proof Wt as (T1 & T2 & T3 & T4). pose proof Wo as (O1 & O2 & O3 & O4).
  cbn [length] in Hf. cbn [inter_loop].
  destruct (os <=? tf) eqn:E1; [|destruct (ts <=? of) eqn:E2].
  - destruct (IH ((tf, ts) :: t') o' kt (os + 1) sz) as (r & R1 & R2 & R2' & R3 & R4).
    + cbn [length]. lia.
    + exact Wt.
    + exact O4.
    + exists r. split; [exact R1|]. split; [exact R2|]. split; [apply (weak_le _ (os + 1)); [lia|exact R2']|]. split.
      * intros H1 H2. apply R3; [exact H1|apply strict_cons in H2; tauto].
      * intros x. rewrite R4, !mem_cons. lows x. lia.
  - destruct (IH t' ((of, os) :: o') (ts + 1) ko sz) as (r & R1 & R2 & R2' & R3 & R4).
    + cbn [length]. lia.
    + exact T4.
    + exact Wo.
    + exists r. split; [exact R1|]. split; [apply (weak_le _ (ts + 1)); [lia|exact R2]|]. split; [exact R2'|]. split.
      * intros H1 H2. apply R3; [apply strict_cons in H1; tauto|exact H2].
      * intros x. rewrite R4, !mem_cons. lows x. lia.
  - destruct (os <? ts) eqn:E3.
    + destruct (IH ((tf, ts) :: t') o' kt (os + 1) sz) as (r & R1 & R2 & R2' & R3 & R4).
      * cbn [length]. lia.
      * exact Wt.
      * exact O4.
      * rewrite R1. cbn [obind]. eexists; split; [reflexivity|].
        replace (N.min os ts) with os by lia.
        split; [cbn [weak_from]; repeat split; try lia; exact R2'|].
        split; [cbn [weak_from]; repeat split; try lia; exact R2'|]. split.
        -- intros H1 H2. apply strict_cons in H2. apply strict_cons. split; [lia|]. apply R3; tauto.
        -- intros x. rewrite !mem_cons, R4, !mem_cons. lows x. lia.
    + destruct (IH t' ((of, os) :: o') (ts + 1) ko sz) as (r & R1 & R2 & R2' & R3 & R4).
      * cbn [length]. lia.
      * exact T4.
      * exact Wo.
      * rewrite R1. cbn [obind]. eexists; split; [reflexivity|].
        replace (N.min os ts) with ts by lia.
        split; [cbn [weak_from]; repeat split; try lia; exact R2|].
        split; [cbn [weak_from]; repeat split; try lia; exact R2|]. split.
        -- intros H1 H2. apply strict_cons in H1. apply strict_cons. split; [lia|]. apply R3; tauto.
        -- intros x. rewrite !mem_cons, R4, !mem_cons. lows x. lia.
Qed.

Lemma seq_intersection_ok sz a b : weak_from 0 sz (sdata a) -> weak_from 0 sz (sdata b) ->
  exists r, seq_intersection a b = Some r /\ seps r = false /\ weak_from 0 sz (sdata r) /\
    (strict (sdata a) -> strict (sdata b) -> strict (sdata r)) /\
    forall x, mem (sdata r) x = mem (sdata a) x && mem (sdata b) x.
Proof.
  intros WA WB. unfold seq_intersection.
  destruct (inter_ok (length (sdata a) + length (sdata b)) (sdata a) (sdata b) 0 0 sz)
    as (r & R1 & R2 & _ & R3 & R4); try assumption; [lia|].
  rewrite R1. cbn [obind]. eexists; split; [reflexivity|]. cbn [sdata seps]. auto.
Qed.

(** ** Difference *)
Lemma diff_exit fuel t o inT inO start k sz : t = [] \/ o = [] ->
  weak_from 0 sz t ->
  (inT = true -> t <> []) -> (inO = true -> o <> []) ->
  (inT = true -> match t with (tf, ts) :: _ => tf <= start /\ (start < ts \/ start = sz /\ ts = sz) /\ k <= start | [] => True end) ->
  (inT = false -> inO = false -> weak_from k sz t) ->
  exists r, diff_loop fuel t o inT inO start = Some r /\ weak_from k sz r /\
    (strict t -> (inT = true -> inO = false -> match t with (_, ts) :: _ => start < ts | [] => True end) -> strict r) /\
    forall x, mem r x =
      (if inT then match t with (_, ts) :: t' => ((start <=? x) && (x <? ts)) || mem t' x | [] => false end
       else mem t x) && negb (mem o x).
Proof.
  intros E Wt NT NO AT AO.
  assert (U : diff_loop fuel t o inT inO start =
    if inT then match t with [] => None | (_, ts) :: t' => Some ((start, ts) :: t') end else Some t).
  { destruct E as [-> | ->]; destruct fuel; try destruct t as [|[? ?] ?]; reflexivity. }
  rewrite U. clear U. destruct E as [-> | ->].
  - destruct inT; [exfalso; apply (NT eq_refl); reflexivity|].
    eexists; split; [reflexivity|]. split; [exact I|]. split; [constructor|]. reflexivity.
  - destruct inO; [exfalso; apply (NO eq_refl); reflexivity|]. destruct inT.
    + destruct t as [|[tf ts] t']; [exfalso; apply (NT eq_refl); reflexivity|].
      destruct (AT eq_refl) as (A1 & A3 & A2). pose proof Wt as (W1 & W2 & W3 & W4).
      eexists; split; [reflexivity|]. split; [cbn [weak_from]; repeat split; try lia; exact W4|]. split.
      * intros H1 H2. apply strict_cons in H1. apply strict_cons. split; [apply H2; reflexivity|tauto].
      * intros x. rewrite mem_cons. cbn [mem existsb]. rewrite andb_true_r. reflexivity.
    + eexists; split; [reflexivity|]. split; [apply AO; reflexivity|]. split; [auto|].
      intros x. cbn [mem existsb]. rewrite andb_true_r. reflexivity.
Qed.

(** Conditions of the four loop states: [k] is a lower bound for everything
    still to be emitted. *)
Definition diff_inv (k sz : N) (t o : range_list) (inT inO : bool) (start : N) : Prop :=
  match t, o with
  | (tf, ts) :: _, (of, os) :: _ =>
    match inT, inO with
    | true, true => tf <= os /\ k <= os /\ of <= ts
    | true, false => tf <= start /\ (start < ts \/ start = sz /\ ts = sz) /\ k <= start /\ start < of
    | false, true => of <= tf /\ (k <= tf \/ k <= os)
    | false, false => k <= tf
    end
  | (tf, ts) :: _, [] => if inT then tf <= start /\ (start < ts \/ start = sz /\ ts = sz) /\ k <= start else k <= tf
  | _, _ => True
  end.

(** The part of [t] still to be treated. *)
Definition eff (t o : range_list) (inT inO : bool) (start : N) (x : N) : bool :=
  match t with
  | [] => false
  | (tf, ts) :: t' =>
    if inT then
      match inO, o with
      | true, (_, os) :: _ => ((os <=? x) && (x <? ts)) || mem t' x
      | _, _ => ((start <=? x) && (x <? ts)) || mem t' x
      end
    else mem t x
  end.

Lemma diff_ok : forall fuel t o inT inO start k sz,
  (3 * (length t + length o) <= fuel + b2n inT + b2n inO)%nat ->
  weak_from 0 sz t -> weak_from 0 sz o ->
  (inT = true -> t <> []) -> (inO = true -> o <> []) ->
  diff_inv k sz t o inT inO start ->
  exists r, diff_loop fuel t o inT inO start = Some r /\ weak_from k sz r /\
    (strict t -> strict o -> (inT = true -> inO = false -> match t with (_, ts) :: _ => start < ts | [] => True end) -> strict r) /\
    forall x, mem r x = eff t o inT inO start x && negb (mem o x).
Proof.
  assert (EX : forall fuel t o inT inO start k sz,
  t = [] \/ o = [] ->
  weak_from 0 sz t -> weak_from 0 sz o ->
  (inT = true -> t <> []) -> (inO = true -> o <> []) ->
  diff_inv k sz t o inT inO start ->
  exists r, diff_loop fuel t o inT inO start = Some r /\ weak_from k sz r /\
    (strict t -> strict o -> (inT = true -> inO = false -> match t with (_, ts) :: _ => start < ts | [] => True end) -> strict r) /\
    forall x, mem r x = eff t o inT inO start x && negb (mem o x)).
  { intros fuel t o inT inO start k sz E Wt Wo NT NO Inv.
    destruct (diff_exit fuel t o inT inO start k sz E Wt NT NO) as (r & R1 & R2 & R3 & R4).
    - intros ->. destruct t as [|[tf ts] t']; [exact I|]. destruct E as [E | ->]; [discriminate|].
      destruct inO; [exfalso; apply (NO eq_refl); reflexivity|]. exact Inv.
    - intros -> ->. destruct t as [|[tf ts] t']; [exact I|]. destruct E as [E | ->]; [discriminate|].
      cbn [diff_inv] in Inv. pose proof Wt as (W1 & W2). split; [exact Inv|exact W2].
    - exists r. split; [exact R1|]. split; [exact R2|]. split; [auto|].
      intros x. rewrite R4. destruct t as [|[tf ts] t']; [destruct inT; reflexivity|].
      destruct E as [E | ->]; [discriminate|]. destruct inO; [exfalso; apply (NO eq_refl); reflexivity|].
      reflexivity. }
  induction fuel as [|f IH]; intros t o inT inO start k sz Hf Wt Wo NT NO Inv;
  (destruct t as [|[tf ts] t']; [apply EX; auto|]);
  (destruct o as [|[of os] o']; [apply EX; auto|]).
  { exfalso. cbn [length] in Hf. destruct inT, inO; cbn [b2n] in Hf; lia. }
  pose proof Wt as (T1 & T2 & T3 & T4). pose proof Wo as (O1 & O2 & O3 & O4).
  assert (T4' : weak_from 0 sz t') by (apply (weak_le _ (ts + 1)); [lia|exact T4]).
  assert (O4' : weak_from 0 sz o') by (apply (weak_le _ (os + 1)); [lia|exact O4]).
  cbn [length] in Hf. cbn [diff_loop]. cbn [diff_inv] in Inv.
  destruct inT, inO; cbn [b2n] in Hf.
  - destruct Inv as (I1 & I2 & I3). destruct (ts <=? os) eqn:E.
    + destruct (IH t' ((of, os) :: o') false true start k sz) as (r & R1 & R2 & R3 & R4);
        try assumption; try discriminate.
      * cbn [length b2n]. lia.
      * destruct t' as [|[tf' ts'] t'']; [exact I|]. cbn [diff_inv]. destruct T4 as (T5 & _). lia.
      * exists r. split; [exact R1|]. split; [exact R2|]. split.
        -- intros H1 H2 _. apply R3; [apply strict_cons in H1; tauto|exact H2|discriminate].
        -- intros x. rewrite R4, !mem_cons. unfold eff. destruct t' as [|[tf' ts'] t'']; [change (mem [] x) with false; lia|].
           lia.
    + destruct (IH ((tf, ts) :: t') o' true false os k sz) as (r & R1 & R2 & R3 & R4);
        try assumption; try discriminate.
      * cbn [length b2n]. lia.
      * unfold diff_inv. destruct o' as [|[of' os'] o'']; [lia|destruct O4 as (O5 & _); lia].
      * exists r. split; [exact R1|]. split; [exact R2|]. split.
        -- intros H1 H2 _. apply R3; [exact H1|apply strict_cons in H2; tauto|intros _ _; lia].
        -- intros x. rewrite R4, !mem_cons. unfold eff. lows x. lia.
  - destruct Inv as (I1 & I2 & I3 & I4). destruct (ts <=? of) eqn:E.
    + destruct (IH t' ((of, os) :: o') false false start (ts + 1) sz) as (r & R1 & R2 & R3 & R4);
        try assumption; try discriminate.
      * cbn [length b2n]. lia.
      * destruct t' as [|[tf' ts'] t'']; [exact I|]. cbn [diff_inv]. destruct T4 as (T5 & _). lia.
      * rewrite R1. cbn [obind]. eexists; split; [reflexivity|].
        assert (Q : forall x, eff t' ((of, os) :: o') false false start x = mem t' x)
          by (intros x; destruct t' as [|[? ?] ?]; reflexivity).
        destruct (start =? ts) eqn:F.
        -- split; [apply (weak_le _ (ts + 1)); [lia|exact R2]|]. split.
           ++ intros H1 H2 _. apply R3; [apply strict_cons in H1; tauto|exact H2|discriminate].
           ++ intros x. rewrite R4, Q, !mem_cons. unfold eff. lia.
        -- split; [cbn [weak_from]; repeat split; try lia; exact R2|]. split.
           ++ intros H1 H2 _. apply strict_cons in H1. apply strict_cons. split; [lia|].
              apply R3; [tauto|exact H2|discriminate].
           ++ intros x. rewrite !mem_cons, R4, Q, !mem_cons. unfold eff. lows x. lia.
    + destruct (IH ((tf, ts) :: t') ((of, os) :: o') true true start (of + 1) sz)
        as (r & R1 & R2 & R3 & R4); try assumption; try discriminate.
      * cbn [length b2n]. lia.
      * cbn [diff_inv]. lia.
      * rewrite R1. cbn [obind]. eexists; split; [reflexivity|].
        replace (start <? of) with true by lia.
        split; [cbn [weak_from]; repeat split; try lia; exact R2|]. split.
        -- intros H1 H2 _. apply strict_cons. split; [lia|]. apply R3; [exact H1|exact H2|discriminate].
        -- intros x. rewrite !mem_cons, R4, !mem_cons. unfold eff. lows x. lia.
  - destruct Inv as (I1 & I2). destruct (os <=? tf) eqn:E.
    + destruct (IH ((tf, ts) :: t') o' false false start k sz) as (r & R1 & R2 & R3 & R4);
        try assumption; try discriminate.
      * cbn [length b2n]. lia.
      * unfold diff_inv. destruct o' as [|[of' os'] o'']; lia.
      * exists r. split; [exact R1|]. split; [exact R2|]. split.
        -- intros H1 H2 _. apply R3; [exact H1|apply strict_cons in H2; tauto|discriminate].
        -- intros x. rewrite R4. unfold eff. rewrite !mem_cons. lows x. lia.
    + destruct (IH ((tf, ts) :: t') ((of, os) :: o') true true os k sz) as (r & R1 & R2 & R3 & R4);
        try assumption; try discriminate.
      * cbn [length b2n]. lia.
      * cbn [diff_inv]. lia.
      * exists r. split; [exact R1|]. split; [exact R2|]. split.
        -- intros H1 H2 _. apply R3; [exact H1|exact H2|discriminate].
        -- intros x. rewrite R4. unfold eff. rewrite !mem_cons. lows x. lia.
  - destruct (tf <? of) eqn:E.
    + destruct (IH ((tf, ts) :: t') ((of, os) :: o') true false tf k sz) as (r & R1 & R2 & R3 & R4);
        try assumption; try discriminate.
      * cbn [length b2n]. lia.
      * cbn [diff_inv]. lia.
      * exists r. split; [exact R1|]. split; [exact R2|]. split.
        -- intros H1 H2 _. apply R3; [exact H1|exact H2|]. intros _ _. apply strict_cons in H1. apply H1.
        -- intros x. rewrite R4. unfold eff. rewrite !mem_cons. lia.
    + destruct (IH ((tf, ts) :: t') ((of, os) :: o') false true start k sz) as (r & R1 & R2 & R3 & R4);
        try assumption; try discriminate.
      * cbn [length b2n]. lia.
      * cbn [diff_inv]. lia.
      * exists r. split; [exact R1|]. split; [exact R2|]. split.
        -- intros H1 H2 _. apply R3; [exact H1|exact H2|discriminate].
        -- intros x. rewrite R4. reflexivity.
Qed.

Lemma seq_difference_ok sz a b : weak_from 0 sz (sdata a) -> weak_from 0 sz (sdata b) ->
  exists r, seq_difference a b = Some r /\ seps r = false /\ weak_from 0 sz (sdata r) /\
    (strict (sdata a) -> strict (sdata b) -> strict (sdata r)) /\
    forall x, mem (sdata r) x = mem (sdata a) x && negb (mem (sdata b) x).
Proof.
  intros WA WB. unfold seq_difference.
  destruct (diff_ok (3 * (length (sdata a) + length (sdata b))) (sdata a) (sdata b) false false 0 0 sz)
    as (r & R1 & R2 & R3 & R4); try assumption; try discriminate.
  - cbn [b2n]. lia.
  - unfold diff_inv. destruct (sdata a) as [|[? ?] ?]; [exact I|]. destruct (sdata b) as [|[? ?] ?]; lia.
  - rewrite R1. cbn [obind]. eexists; split; [reflexivity|]. cbn [sdata seps].
    split; [reflexivity|]. split; [exact R2|]. split.
    + intros H1 H2. apply R3; [exact H1|exact H2|discriminate].
    + intros x. rewrite R4. unfold eff. destruct (sdata a) as [|[? ?] ?]; reflexivity.
Qed.

(** ** Complement *)
Lemma neg_from0_ok : forall d a b k sz, weak_from k sz ((a, b) :: d) ->
  (forall k', k' <= b -> weak_from k' sz (neg_from0 sz ((a, b) :: d))) /\
  strict (neg_from0 sz ((a, b) :: d)) /\
  (b = sz -> neg_from0 sz ((a, b) :: d) = []) /\
  forall x, x < sz -> mem (neg_from0 sz ((a, b) :: d)) x = (a <=? x) && negb (mem ((a, b) :: d) x).
Proof.
  induction d as [|[a' b'] d' IH]; intros a b k sz (W1 & W2 & W3 & W4).
  - cbn [neg_from0]. destruct (b =? sz) eqn:E.
    + split; [intros; exact I|]. split; [constructor|]. split; [reflexivity|].
      intros x Hx. rewrite mem_cons. change (mem [] x) with false. lia.
    + split; [intros k' Hk; cbn [weak_from]; repeat split; lia|].
      split; [apply strict_cons; split; [lia|constructor]|]. split; [intros; lia|].
      intros x Hx. rewrite !mem_cons. change (mem [] x) with false. lia.
  - destruct (IH a' b' (b + 1) sz W4) as (I1 & I2 & I3 & I4).
    pose proof W4 as (V1 & V2 & V3 & V4).
    change (neg_from0 sz ((a, b) :: (a', b') :: d')) with ((b, a') :: neg_from0 sz ((a', b') :: d')).
    assert (C : a' < sz \/ b' = sz) by lia.
    split; [|split; [|split]].
    + intros k' Hk. cbn [weak_from]. repeat split; try lia.
      destruct (N.eq_dec b' sz) as [Eb|Nb]; [rewrite I3 by exact Eb; exact I|apply I1; lia].
    + apply strict_cons. split; [lia|exact I2].
    + intros E. exfalso. lia.
    + intros x Hx. rewrite !mem_cons, I4 by exact Hx. rewrite !mem_cons. lows x. lia.
Qed.

Lemma neg_swap_ok : forall d tmp a b k sz, weak_from k sz ((a, b) :: d) -> tmp < a ->
  (forall k', k' <= tmp -> weak_from k' sz (neg_swap sz tmp ((a, b) :: d))) /\
  forall x, x < sz -> mem (neg_swap sz tmp ((a, b) :: d)) x = (tmp <=? x) && negb (mem ((a, b) :: d) x).
Proof.
  induction d as [|[a' b'] d' IH]; intros tmp a b k sz (W1 & W2 & W3 & W4) Ht.
  - cbn [neg_swap]. destruct (a =? sz) eqn:E; split.
    + intros k' Hk. cbn [weak_from]. repeat split; lia.
    + intros x Hx. rewrite !mem_cons. change (mem [] x) with false. lia.
    + intros k' Hk. cbn [weak_from]. repeat split; lia.
    + intros x Hx. rewrite !mem_cons. change (mem [] x) with false. lia.
  - pose proof W4 as (V1 & V2 & V3 & V4).
    change (neg_swap sz tmp ((a, b) :: (a', b') :: d')) with ((tmp, a) :: neg_swap sz b ((a', b') :: d')).
    destruct (IH b a' b' (b + 1) sz W4) as (I1 & I2); [lia|]. split.
    + intros k' Hk. cbn [weak_from]. repeat split; try lia. apply I1. lia.
    + intros x Hx. rewrite !mem_cons, I2 by exact Hx. rewrite !mem_cons. lows x. lia.
Qed.

Lemma seq_negate_ok sz a : 0 < sz -> weak_from 0 sz (sdata a) -> seps a = false ->
  seps (seq_negate sz a) = false /\ weak_from 0 sz (sdata (seq_negate sz a)) /\
  forall x, x < sz -> mem (sdata (seq_negate sz a)) x = negb (mem (sdata a) x).
Proof.
  intros Hs W E. unfold seq_negate. rewrite E. cbn [sdata seps]. split; [reflexivity|].
  destruct (sdata a) as [|[f s] d] eqn:D.
  - split; [cbn [weak_from]; repeat split; lia|]. intros x Hx. rewrite mem_cons. change (mem [] x) with false. lia.
  - destruct (f =? 0) eqn:F.
    + destruct (neg_from0_ok d f s 0 sz W) as (H1 & _ & _ & H2). split; [apply H1; lia|].
      intros x Hx. rewrite H2 by exact Hx. replace (f <=? x) with true by lia. reflexivity.
    + destruct (neg_swap_ok d 0 f s 0 sz W) as (H1 & H2); [lia|]. split; [apply H1; lia|].
      intros x Hx. rewrite H2 by exact Hx. replace (0 <=? x) with true by lia. reflexivity.
Qed.

(** ** Binary search *)
Definition mono (d : range_list) : Prop := forall i j p q, (i <= j)%nat ->
  nth_error d i = Some p -> nth_error d j = Some q -> fst p <= fst q /\ snd p <= snd q.

Lemma weak_nth : forall d k sz i p, weak_from k sz d -> nth_error d i = Some p ->
  k <= fst p /\ fst p <= snd p.
Proof.
  induction d as [|[a b] d IH]; intros k sz i p W H; [destruct i; discriminate|].
  destruct W as (W1 & W2 & W3 & W4). destruct i as [|i]; cbn in H.
  - injection H as <-. cbn. lia.
  - destruct (IH _ _ _ _ W4 H). lia.
Qed.

Lemma weak_mono : forall d k sz, weak_from k sz d -> mono d.
Proof.
  induction d as [|[a b] d IH]; intros k sz W i j p q Hij Hp Hq; [destruct i; discriminate|].
  pose proof W as (W1 & W2 & W3 & W4).
  destruct i as [|i]; destruct j as [|j]; cbn in Hp, Hq; try lia.
  - injection Hp as <-. injection Hq as <-. lia.
  - injection Hp as <-. destruct (weak_nth _ _ _ _ _ W4 Hq). cbn. lia.
  - apply (IH _ _ W4 i j p q); [lia|exact Hp|exact Hq].
Qed.

Lemma mem_nth d x : mem d x = true <-> exists i p, nth_error d i = Some p /\ fst p <= x < snd p.
Proof.
  rewrite mem_inside. split.
  - intros (a & b & H & Hx). apply In_nth_error in H. destruct H as [i Hi]. exists i, (a, b). auto.
  - intros (i & [a b] & H & Hx). apply nth_error_In in H. exists a, b. auto.
Qed.

Lemma bsearch_ok : forall fuel d l r x, mono d -> (l <= r <= length d)%nat -> (r - l <= fuel)%nat ->
  (forall i p, nth_error d i = Some p -> fst p <= x < snd p -> (l <= i < r)%nat) ->
  bsearch fuel d l r x = Some (mem d x).
Proof.
  induction fuel as [|f IH]; intros d l r x M Hlr Hf Hin; cbn [bsearch];
  destruct (Nat.eqb l r) eqn:E.
  - f_equal. symmetry. apply not_true_is_false. intros H. apply mem_nth in H.
    destruct H as (i & p & H1 & H2). specialize (Hin i p H1 H2). lia.
  - exfalso. lia.
  - f_equal. symmetry. apply not_true_is_false. intros H. apply mem_nth in H.
    destruct H as (i & p & H1 & H2). specialize (Hin i p H1 H2). lia.
  - remember (Nat.div2 (l + r)) as m eqn:Em.
    assert (Hm : (l <= m < r)%nat) by (subst m; rewrite Nat.div2_div; pose proof (Nat.div_mod (l + r) 2); lia).
    destruct (nth_error d m) as [p|] eqn:P; [|apply nth_error_None in P; lia]. cbn [obind].
    destruct (fst p <=? x) eqn:C1; [destruct (x <? snd p) eqn:C2|].
    + f_equal. symmetry. apply mem_nth. exists m, p. split; [exact P|lia].
    + apply IH; [exact M|lia|lia|]. intros i q Q1 Q2. specialize (Hin i q Q1 Q2).
      destruct (Nat.le_gt_cases i m) as [Hi|Hi]; [|lia].
      destruct (M i m q p Hi Q1 P). lia.
    + apply IH; [exact M|lia|lia|]. intros i q Q1 Q2. specialize (Hin i q Q1 Q2).
      destruct (Nat.le_gt_cases m i) as [Hi|Hi]; [|lia].
      destruct (M m i p q Hi P Q1). lia.
Qed.

Lemma seq_accepts_ok s x : mono (sdata s) -> seq_accepts s x = Some (mem (sdata s) x).
Proof.
  intros M. unfold seq_accepts. apply bsearch_ok; [exact M|lia|lia|].
  intros i p H _. assert (i < length (sdata s))%nat by (apply nth_error_Some; congruence). lia.
Qed.

(** ** String constructor *)
Lemma of_sorted_mem : forall l a b x, a < b -> StronglySorted N.le l -> Forall (fun y => b - 1 <= y) l ->
  mem (of_sorted l (a, b)) x = ((a <=? x) && (x <? b)) || existsb (N.eqb x) l.
Proof.
  induction l as [|y l IH]; intros a b x Hab HS HF; cbn [of_sorted snd fst].
  - rewrite mem_cons. reflexivity.
  - inversion HF as [|? ? F1 F2]; subst. inversion HS as [|? ? S1 S2]; subst. cbn [existsb].
    assert (G : forall c, c <= y -> Forall (fun z => c <= z) l).
    { intros c Hc. rewrite Forall_forall in *. intros z Hz. specialize (S2 z Hz). lia. }
    destruct (y =? b) eqn:E.
    + rewrite IH; [|lia|exact S1|apply G; lia]. remember (existsb (N.eqb x) l) as ex. lia.
    + rewrite mem_cons, IH; [|lia|exact S1|apply G; lia]. remember (existsb (N.eqb x) l) as ex. lia.
Qed.

Lemma of_sorted_nth : forall l a b, a < b -> StronglySorted N.le l -> Forall (fun y => b - 1 <= y) l ->
  mono (of_sorted l (a, b)) /\ (forall i p, nth_error (of_sorted l (a, b)) i = Some p -> a <= fst p /\ b <= snd p).
Proof.
  induction l as [|y l IH]; intros a b Hab HS HF; cbn [of_sorted snd fst].
  - split.
    + intros [|i] [|j] p q Hij Hp Hq; cbn in Hp, Hq; try destruct i; try destruct j; try discriminate.
      injection Hp as <-. injection Hq as <-. lia.
    + intros [|i] p Hp; cbn in Hp; [injection Hp as <-; cbn; lia|destruct i; discriminate].
  - inversion HF as [|? ? F1 F2]; subst. inversion HS as [|? ? S1 S2]; subst.
    assert (G : forall c, c <= y -> Forall (fun z => c <= z) l).
    { intros c Hc. rewrite Forall_forall in *. intros z Hz. specialize (S2 z Hz). lia. }
    destruct (y =? b) eqn:E.
    + destruct (IH a (b + 1)) as (I1 & I2); [lia|exact S1|apply G; lia|]. split; [exact I1|].
      intros i p Hp. destruct (I2 i p Hp). lia.
    + destruct (IH y (y + 1)) as (I1 & I2); [lia|exact S1|apply G; lia|]. split.
      * intros [|i] [|j] p q Hij Hp Hq; cbn in Hp, Hq; try lia.
        -- injection Hp as <-. injection Hq as <-. lia.
        -- injection Hp as <-. destruct (I2 j q Hq). cbn. lia.
        -- apply (I1 i j p q); [lia|exact Hp|exact Hq].
      * intros [|i] p Hp; cbn in Hp; [injection Hp as <-; cbn; lia|].
        destruct (I2 i p Hp). lia.
Qed.

Lemma seq_chars_ok l x : StronglySorted N.le l ->
  seq_accepts (seq_chars l) x = Some (existsb (N.eqb x) l).
Proof.
  intros HS. unfold seq_chars. destruct l as [|y l]; [reflexivity|].
  inversion HS as [|? ? S1 S2]; subst.
  assert (G : Forall (fun z => y + 1 - 1 <= z) l).
  { rewrite Forall_forall in *. intros z Hz. specialize (S2 z Hz). lia. }
  rewrite seq_accepts_ok by (cbn [sdata]; apply of_sorted_nth; [lia|exact S1|exact G]).
  cbn [sdata]. rewrite of_sorted_mem by (try lia; assumption). cbn [existsb].
  remember (existsb (N.eqb x) l) as ex. f_equal. lia.
Qed.

Lemma of_sorted_canonical : forall l a b sz k, k <= a -> a < b -> b <= sz ->
  StronglySorted N.lt l -> Forall (fun y => b <= y < sz) l ->
  canonical_from k sz (of_sorted l (a, b)).
Proof.
  induction l as [|y l IH]; intros a b sz k Hk Hab Hb HS HF; cbn [of_sorted snd fst].
  - cbn. repeat split; lia.
  - inversion HF as [|? ? F1 F2]; subst. inversion HS as [|? ? S1 S2]; subst.
    assert (G : Forall (fun z => y + 1 <= z < sz) l).
    { rewrite Forall_forall in *. intros z Hz. specialize (S2 z Hz). specialize (F2 z Hz). lia. }
    destruct (y =? b) eqn:E.
    + apply IH; try lia; [exact S1|]. replace (b + 1) with (y + 1) by lia. exact G.
    + cbn. repeat split; try lia. apply IH; try lia; assumption.
Qed.

(** ** Equality *)
Lemma ranges_eqb_iff : forall a b, ranges_eqb a b = true <-> a = b.
Proof.
  induction a as [|[p q] a IH]; intros [|[p' q'] b]; cbn;
    [split; reflexivity|split; discriminate|split; discriminate|].
  rewrite !andb_true_iff, IH, !N.eqb_eq. split.
  - intros ((-> & ->) & ->). reflexivity.
  - intros H. injection H as -> -> ->. auto.
Qed.

Lemma canonical_ext : forall a b k sz, canonical_from k sz a -> canonical_from k sz b ->
  (forall x, mem a x = mem b x) -> a = b.
Proof.
  induction a as [|[p q] a IH]; intros [|[p' q'] b] k sz HA HB H.
  - reflexivity.
  - exfalso. destruct HB as (B1 & B2 & _). specialize (H p'). rewrite mem_cons in H.
    change (mem [] p') with false in H. lia.
  - exfalso. destruct HA as (A1 & A2 & _). specialize (H p). rewrite mem_cons in H.
    change (mem [] p) with false in H. lia.
  - destruct HA as (A1 & A2 & A3 & A4). destruct HB as (B1 & B2 & B3 & B4).
    pose proof A4 as A5. pose proof B4 as B5. apply canonical_weak in A5. apply canonical_weak in B5.
    destruct A5 as (WA & _). destruct B5 as (WB & _).
    assert (p = p').
    { pose proof (H p) as H1. pose proof (H p') as H2. rewrite !mem_cons in H1, H2.
      pose proof (mem_low _ _ _ p WA). pose proof (mem_low _ _ _ p WB).
      pose proof (mem_low _ _ _ p' WA). pose proof (mem_low _ _ _ p' WB). lia. }
    assert (q = q').
    { pose proof (H q) as H1. pose proof (H q') as H2. rewrite !mem_cons in H1, H2.
      pose proof (mem_low _ _ _ q WA). pose proof (mem_low _ _ _ q WB).
      pose proof (mem_low _ _ _ q' WA). pose proof (mem_low _ _ _ q' WB). lia. }
    subst p' q'. f_equal. apply (IH b (q + 1) sz A4 B4).
    intros x. specialize (H x). rewrite !mem_cons in H.
    pose proof (mem_low _ _ _ x WA). pose proof (mem_low _ _ _ x WB). lia.
Qed.

Lemma below_In sz i : In i (below sz) <-> i < sz.
Proof.
  unfold below. rewrite in_map_iff. split.
  - intros (n & <- & H). apply in_seq in H. lia.
  - intros H. exists (N.to_nat i). split; [lia|]. apply in_seq. lia.
Qed.

Lemma tab_eqb_iff sz a b : tab_eqb sz a b = true <->
  teps a = teps b /\ forall x, x < sz -> tdata a x = tdata b x.
Proof.
  unfold tab_eqb. rewrite andb_true_iff, eqb_true_iff, forallb_forall. split; intros (H1 & H2); (split; [exact H1|]).
  - intros x Hx. apply eqb_prop. apply H2. apply below_In. exact Hx.
  - intros x Hx. rewrite (H2 x) by (apply below_In; exact Hx). apply eqb_reflx.
Qed.

(** ** Generated branch code (sequence) *)
Definition disj_sorted (data : list entry) : Prop := forall i j p q s s', (i < j)%nat ->
  nth_error data i = Some (p, s) -> nth_error data j = Some (q, s') -> snd p <= fst q.

Lemma codegen_ok : forall fuel data l r tmin tmax chr,
  disj_sorted data -> (forall p s, In (p, s) data -> fst p < snd p) ->
  (l <= r <= length data)%nat -> (r - l <= fuel)%nat ->
  (forall i p s, (l <= i < r)%nat -> nth_error data i = Some (p, s) -> tmin <= fst p /\ snd p <= tmax) ->
  tmin <= chr < tmax ->
  exists c, codegen fuel data l r tmin tmax = Some c /\
    (forall i p s, (l <= i < r)%nat -> nth_error data i = Some (p, s) -> fst p <= chr < snd p -> exec chr c = Some s) /\
    ((forall i p s, (l <= i < r)%nat -> nth_error data i = Some (p, s) -> ~ fst p <= chr < snd p) -> exec chr c = None).
Proof.
  induction fuel as [|f IH]; intros data l r tmin tmax chr D NE Hlr Hf Hb Hc.
  - cbn [codegen]. replace (Nat.eqb l r) with true by lia. eexists; split; [reflexivity|].
    split; [intros; lia|reflexivity].
  - cbn [codegen]. destruct (Nat.eqb l r) eqn:E.
    { eexists; split; [reflexivity|]. split; [intros; lia|reflexivity]. }
    destruct (Nat.eqb r (S l)) eqn:E2.
    + destruct (nth_error data l) as [[[a b] s]|] eqn:P; [|apply nth_error_None in P; lia].
      cbn [obind]. eexists; split; [reflexivity|].
      pose proof (Hb l (a, b) s ltac:(lia) P) as B. pose proof (NE (a, b) s (nth_error_In _ _ P)) as NE'.
      cbn [fst snd] in B, NE'.
      set (c := if a =? tmin then _ else _).
      assert (EX : exec chr c = if (a <=? chr) && (chr <? b) then Some s else None).
      { assert (IFF : forall u v : bool, u = v -> (if u then Some s else None) = (if v then Some s else None)) by (intros u v ->; reflexivity).
        unfold c. destruct (a =? tmin) eqn:Q1; destruct (b =? tmax) eqn:Q2; cbn [exec].
        - apply (IFF true). lia.
        - destruct (b =? a + 1) eqn:Q3; cbn [eval_cond]; apply IFF; lia.
        - destruct (b =? a + 1) eqn:Q3; cbn [eval_cond]; apply IFF; lia.
        - destruct (b =? a + 1) eqn:Q3; [|destruct (b =? a + 2) eqn:Q4]; cbn [eval_cond]; apply IFF; lia. }
      split.
      * intros i p s' Hi Hp Hin. assert (i = l) by lia. subst i. rewrite P in Hp. injection Hp as <- <-.
        cbn in Hin. rewrite EX. replace ((a <=? chr) && (chr <? b)) with true by lia. reflexivity.
      * intros Hno. rewrite EX. specialize (Hno l (a, b) s ltac:(lia) P). cbn in Hno.
        replace ((a <=? chr) && (chr <? b)) with false by lia. reflexivity.
    + remember (Nat.div2 (l + r)) as mid eqn:Em.
      assert (Hm : (l < mid < r)%nat) by (subst mid; rewrite Nat.div2_div; pose proof (Nat.div_mod (l + r) 2); lia).
      destruct (nth_error data mid) as [[[m mb] ms]|] eqn:P; [|apply nth_error_None in P; lia].
      cbn [obind].
      pose proof (Hb mid _ _ ltac:(lia) P) as Bm. pose proof (NE _ _ (nth_error_In _ _ P)) as NEm.
      cbn [fst snd] in Bm, NEm.
      assert (HL : forall i p s, (l <= i < mid)%nat -> nth_error data i = Some (p, s) -> tmin <= fst p /\ snd p <= m).
      { intros i p s Hi Hp. destruct (Hb i p s ltac:(lia) Hp).
        pose proof (D i mid p (m, mb) s ms ltac:(lia) Hp P) as HD. cbn in HD. lia. }
      assert (HR : forall i p s, (mid <= i < r)%nat -> nth_error data i = Some (p, s) -> m <= fst p /\ snd p <= tmax).
      { intros i p s Hi Hp. destruct (Hb i p s ltac:(lia) Hp).
        destruct (Nat.eq_dec i mid) as [->|Hne].
        - rewrite P in Hp. injection Hp as <- <-. cbn. lia.
        - pose proof (D mid i (m, mb) p ms s ltac:(lia) P Hp) as HD. cbn in HD. lia. }
      (* both halves generate code whatever chr is; run it on chr only in the right half *)
      assert (GL : exists c, codegen f data l mid tmin m = Some c).
      { destruct (N.lt_ge_cases tmin m) as [Hlt|Hge].
        - destruct (IH data l mid tmin m tmin D NE ltac:(lia) ltac:(lia) HL ltac:(lia)) as (c & Ec & _). exists c. exact Ec.
        - exfalso. destruct (nth_error data l) as [[p s]|] eqn:Pl; [|apply nth_error_None in Pl; lia].
          destruct (HL l p s ltac:(lia) Pl). pose proof (NE _ _ (nth_error_In _ _ Pl)). lia. }
      assert (GR : exists c, codegen f data mid r m tmax = Some c).
      { destruct (IH data mid r m tmax m D NE ltac:(lia) ltac:(lia) HR ltac:(lia)) as (c & Ec & _). exists c. exact Ec. }
      destruct GL as (c1 & E1). destruct GR as (c2 & E2'). rewrite E1, E2'. cbn [obind].
      eexists; split; [reflexivity|]. cbn [exec eval_cond].
      destruct (chr <? m) eqn:C.
      * destruct (IH data l mid tmin m chr D NE ltac:(lia) ltac:(lia) HL ltac:(lia)) as (c & Ec & X1 & X2).
        rewrite E1 in Ec. injection Ec as <-. split.
        -- intros i p s Hi Hp Hin. apply (X1 i p s); [|exact Hp|exact Hin].
           destruct (Nat.lt_ge_cases i mid) as [Hl|Hg]; [lia|]. destruct (HR i p s ltac:(lia) Hp). lia.
        -- intros Hno. apply X2. intros i p s Hi. apply Hno. lia.
      * destruct (IH data mid r m tmax chr D NE ltac:(lia) ltac:(lia) HR ltac:(lia)) as (c & Ec & X1 & X2).
        rewrite E2' in Ec. injection Ec as <-. split.
        -- intros i p s Hi Hp Hin. apply (X1 i p s); [|exact Hp|exact Hin].
           destruct (Nat.lt_ge_cases i mid) as [Hl|Hg]; [|lia]. destruct (HL i p s ltac:(lia) Hp). lia.
        -- intros Hno. apply X2. intros i p s Hi. apply Hno. lia.
Qed.

(** ** Sorting *)
Lemma insert_perm e l : Permutation (insert e l) (e :: l).
Proof.
  induction l as [|h l IH]; cbn; [reflexivity|]. destruct (entry_leb e h); [reflexivity|].
  rewrite IH. apply perm_swap.
Qed.
Lemma sort_perm l : Permutation (sort l) l.
Proof. induction l as [|h l IH]; cbn; [reflexivity|]. rewrite insert_perm. constructor. exact IH. Qed.

Definition eleb (x y : entry) : Prop := entry_leb x y = true.
Ltac ifs := repeat match goal with
  | H : context [if ?c then _ else _] |- _ => destruct c eqn:?
  | |- context [if ?c then _ else _] => destruct c eqn:?
  end; try discriminate; try reflexivity; try lia.
Lemma entry_total x y : entry_leb x y = false -> eleb y x.
Proof. destruct x as [[a b] s], y as [[a' b'] s']. unfold eleb, entry_leb. intros. ifs. Qed.
Lemma entry_trans x y z : eleb x y -> eleb y z -> eleb x z.
Proof. destruct x as [[a b] s], y as [[a' b'] s'], z as [[a'' b''] s'']. unfold eleb, entry_leb. intros. ifs. Qed.

Lemma insert_sorted e l : StronglySorted eleb l -> StronglySorted eleb (insert e l).
Proof.
  induction l as [|h l IH]; intros H; cbn; [constructor; [constructor|constructor]|].
  inversion H as [|? ? H1 H2]; subst. destruct (entry_leb e h) eqn:E.
  - constructor; [exact H|]. constructor; [exact E|].
    rewrite Forall_forall in *. intros z Hz. apply (entry_trans e h z); [exact E|apply H2; exact Hz].
  - constructor; [apply IH; exact H1|]. rewrite Forall_forall in *. intros z Hz.
    apply (Permutation_in _ (insert_perm e l)) in Hz. destruct Hz as [<-|Hz]; [apply entry_total; exact E|apply H2; exact Hz].
Qed.
Lemma sort_sorted l : StronglySorted eleb (sort l).
Proof. induction l as [|h l IH]; cbn; [constructor|apply insert_sorted; exact IH]. Qed.

Lemma sorted_nth {A} (R : A -> A -> Prop) : forall l i j p q, StronglySorted R l -> (i < j)%nat ->
  nth_error l i = Some p -> nth_error l j = Some q -> R p q.
Proof.
  induction l as [|h l IH]; intros i j p q HS Hij Hp Hq; [destruct i; discriminate|].
  inversion HS as [|? ? H1 H2]; subst. destruct j as [|j]; [lia|]. destruct i as [|i]; cbn in Hp, Hq.
  - injection Hp as <-. rewrite Forall_forall in H2. apply H2. apply nth_error_In in Hq. exact Hq.
  - apply (IH i j p q H1); [lia|exact Hp|exact Hq].
Qed.

(** ** Pairwise disjointness through sorting *)
Definition edisj (p q : entry) : Prop :=
  forall x, ~ (fst (fst p) <= x < snd (fst p) /\ fst (fst q) <= x < snd (fst q)).

Lemma FOP_perm {A} (R : A -> A -> Prop) : (forall x y, R x y -> R y x) ->
  forall l l', Permutation l l' -> ForallOrdPairs R l -> ForallOrdPairs R l'.
Proof.
  intros Sym l l' P. induction P as [|x l l' P IH|x y l|l l' l'' P1 IH1 P2 IH2]; intros H.
  - constructor.
  - inversion H; subst. constructor; [|apply IH; assumption].
    rewrite Forall_forall in *. intros z Hz. apply H2. apply (Permutation_in _ (Permutation_sym P)). exact Hz.
  - inversion H as [|? ? H1 H2]; subst. inversion H2 as [|? ? H3 H4]; subst.
    inversion H1 as [|? ? H5 H6]; subst. constructor; [constructor; [apply Sym; exact H5|exact H3]|].
    constructor; assumption.
  - apply IH2. apply IH1. exact H.
Qed.

Lemma FOP_app {A} (R : A -> A -> Prop) : forall l l', ForallOrdPairs R l -> ForallOrdPairs R l' ->
  (forall x y, In x l -> In y l' -> R x y) -> ForallOrdPairs R (l ++ l').
Proof.
  induction l as [|h l IH]; intros l' H1 H2 H3; cbn; [exact H2|].
  inversion H1; subst. constructor.
  - rewrite Forall_forall in *. intros z Hz. apply in_app_or in Hz. destruct Hz as [Hz|Hz]; [auto|].
    apply H3; [left; reflexivity|exact Hz].
  - apply IH; auto. intros x y Hx Hy. apply H3; [right; exact Hx|exact Hy].
Qed.

Lemma FOP_nth {A} (R : A -> A -> Prop) : forall l i j p q, ForallOrdPairs R l -> (i < j)%nat ->
  nth_error l i = Some p -> nth_error l j = Some q -> R p q.
Proof.
  induction l as [|h l IH]; intros i j p q HS Hij Hp Hq; [destruct i; discriminate|].
  inversion HS as [|? ? H1 H2]; subst. destruct j as [|j]; [lia|]. destruct i as [|i]; cbn in Hp, Hq.
  - injection Hp as <-. rewrite Forall_forall in H1. apply H1. apply nth_error_In in Hq. exact Hq.
  - apply (IH i j p q H2); [lia|exact Hp|exact Hq].
Qed.

Lemma edisj_sym p q : edisj p q -> edisj q p.
Proof. intros H x (H1 & H2). exact (H x (conj H2 H1)). Qed.

Lemma weak_In : forall d k sz a b, weak_from k sz d -> In (a, b) d -> k <= a /\ a <= b /\ b <= sz.
Proof.
  induction d as [|[a' b'] d IH]; intros k sz a b W H; [destruct H|].
  destruct W as (W1 & W2 & W3 & W4). destruct H as [H|H].
  - injection H as -> ->. lia.
  - destruct (IH _ _ _ _ W4 H). lia.
Qed.

Lemma one_set_disj : forall d k sz (s : nat), weak_from k sz d ->
  ForallOrdPairs edisj (map (fun x => (x, s)) d).
Proof.
  induction d as [|[a b] d IH]; intros k sz s W; cbn [map]; [constructor|].
  destruct W as (W1 & W2 & W3 & W4). constructor; [|apply (IH (b + 1) sz); exact W4].
  rewrite Forall_forall. intros z Hz. apply in_map_iff in Hz. destruct Hz as ([a' b'] & <- & Hz).
  destruct (weak_In _ _ _ _ _ W4 Hz). intros x. cbn. lia.
Qed.

Definition tdisj (a b : seqset * nat) : Prop := forall x, ~ (inside (sdata (fst a)) x /\ inside (sdata (fst b)) x).
Definition entries (tr : list (seqset * nat)) : list entry :=
  flat_map (fun p => map (fun x => (x, snd p)) (sdata (fst p))) tr.

Lemma entries_In tr e : In e (entries tr) <-> exists s t, In (s, t) tr /\ In (fst e) (sdata s) /\ snd e = t.
Proof.
  unfold entries. rewrite in_flat_map. split.
  - intros ([s t] & H1 & H2). apply in_map_iff in H2. destruct H2 as (x & <- & H2). exists s, t. auto.
  - intros (s & t & H1 & H2 & H3). exists (s, t). split; [exact H1|]. apply in_map_iff.
    exists (fst e). cbn. split; [destruct e; cbn in *; congruence|exact H2].
Qed.

Lemma entries_disj sz : forall tr, Forall (fun p => canonical sz (sdata (fst p))) tr ->
  ForallOrdPairs tdisj tr -> ForallOrdPairs edisj (entries tr).
Proof.
  induction tr as [|[s t] tr IH]; intros HC HD; cbn [entries flat_map]; [constructor|].
  inversion HC as [|? ? C1 C2]; subst. inversion HD as [|? ? D1 D2]; subst.
  apply FOP_app.
  - apply (one_set_disj _ 0 sz). apply canonical_weak in C1. apply C1.
  - apply IH; assumption.
  - intros x y Hx Hy. apply in_map_iff in Hx. destruct Hx as ([a b] & <- & Hx).
    apply entries_In in Hy. destruct Hy as (s' & t' & H1 & H2 & H3).
    rewrite Forall_forall in D1. specialize (D1 _ H1). intros z (Z1 & Z2). cbn in Z1.
    apply (D1 z). destruct (fst y) as [a' b'] eqn:Ey. cbn in Z2. split.
    + exists a, b. auto.
    + exists a', b'. auto.
Qed.

Lemma seq_condition_ok sz tr chr : chr < sz ->
  Forall (fun p => canonical sz (sdata (fst p))) tr -> ForallOrdPairs tdisj tr ->
  exists c, seq_condition sz tr = Some c /\
    (forall s t, In (s, t) tr -> inside (sdata s) chr -> exec chr c = Some t) /\
    ((forall s t, In (s, t) tr -> ~ inside (sdata s) chr) -> exec chr c = None).
Proof.
  intros Hc HC HD. unfold seq_condition. fold (entries tr). set (data := sort (entries tr)).
  assert (P : Permutation data (entries tr)) by apply sort_perm.
  assert (IN : forall p s, In (p, s) data -> exists st, In (st, s) tr /\ In p (sdata st)).
  { intros p s H. apply (Permutation_in _ P) in H. apply entries_In in H.
    destruct H as (st & t & H1 & H2 & H3). cbn in *. subst t. exists st. auto. }
  assert (NE : forall p s, In (p, s) data -> fst p < snd p /\ snd p <= sz).
  { intros [a b] s H. destruct (IN _ _ H) as (st & H1 & H2). rewrite Forall_forall in HC.
    specialize (HC _ H1). cbn in HC. apply canonical_weak in HC. destruct HC as (W & S).
    destruct (weak_In _ _ _ _ _ W H2). unfold strict in S. rewrite Forall_forall in S.
    specialize (S _ H2). cbn in *. lia. }
  assert (DS : disj_sorted data).
  { intros i j p q s s' Hij Hp Hq.
    pose proof (sorted_nth eleb data i j _ _ (sort_sorted _) Hij Hp Hq) as LE.
    assert (DJ : edisj (p, s) (q, s')).
    { apply (FOP_nth edisj data i j); [|exact Hij|exact Hp|exact Hq].
      apply (FOP_perm edisj edisj_sym (entries tr)); [apply Permutation_sym; exact P|].
      apply (entries_disj sz); assumption. }
    specialize (DJ (fst q)). cbn in DJ. destruct p as [a b], q as [a' b']. cbn in *.
    unfold eleb, entry_leb in LE. pose proof (NE _ _ (nth_error_In _ _ Hp)). pose proof (NE _ _ (nth_error_In _ _ Hq)).
    cbn in *. ifs. }
  destruct (codegen_ok (length data) data 0 (length data) 0 sz chr DS) as (c & E & X1 & X2).
  - intros p s H. apply (NE p s H).
  - lia.
  - lia.
  - intros i p s _ H. destruct (NE p s (nth_error_In _ _ H)). lia.
  - lia.
  - exists c. split; [exact E|]. split.
    + intros s t Hin (a & b & H1 & H2).
      assert (Hd : In ((a, b), t) data).
      { apply (Permutation_in _ (Permutation_sym P)). apply entries_In. exists s, t. auto. }
      apply In_nth_error in Hd. destruct Hd as (i & Hi). apply (X1 i (a, b) t); [|exact Hi|exact H2].
      assert (i < length data)%nat by (apply nth_error_Some; congruence). lia.
    + intros Hno. apply X2. intros i [a b] s Hi Hp Hx.
      destruct (IN _ _ (nth_error_In _ _ Hp)) as (st & H1 & H2). apply (Hno st s H1). exists a, b. auto.
Qed.

(** ** Generated switch (table) *)
Definition ttdisj (sz : N) (a b : tabset * nat) : Prop :=
  forall x, x < sz -> ~ (tdata (fst a) x = true /\ tdata (fst b) x = true).

Lemma below_NoDup sz : NoDup (below sz).
Proof.
  unfold below. apply FinFun.Injective_map_NoDup; [|apply seq_NoDup].
  intros a b H. lia.
Qed.

Lemma tab_isempty_false sz s x : x < sz -> tdata s x = true -> tab_isempty sz s = false.
Proof.
  intros Hx H. apply not_true_is_false. intros E. unfold tab_isempty in E. rewrite forallb_forall in E.
  specialize (E x (proj2 (below_In sz x) Hx)). rewrite H in E. discriminate.
Qed.

Lemma tab_label sz tr x : In x (labels (tab_condition sz tr)) <->
  x < sz /\ exists s t, In (s, t) tr /\ tdata s x = true.
Proof.
  unfold labels, tab_condition. rewrite in_flat_map. split.
  - intros ([ls t] & H1 & H2). apply in_flat_map in H1. destruct H1 as ([s t'] & H3 & H4). cbn in H4.
    destruct (tab_isempty sz s); [destruct H4|]. destruct H4 as [H4|[]]. injection H4 as <- <-.
    cbn in H2. apply filter_In in H2. destruct H2 as (H5 & H6). apply below_In in H5. split; [exact H5|]. exists s, t'. auto.
  - intros (Hx & s & t & H1 & H2). exists (filter (tdata s) (below sz), t). split.
    + apply in_flat_map. exists (s, t). split; [exact H1|]. cbn. rewrite (tab_isempty_false sz s x Hx H2). left. reflexivity.
    + cbn. apply filter_In. split; [apply below_In; exact Hx|exact H2].
Qed.

Lemma NoDup_app {A} (l l' : list A) : NoDup l -> NoDup l' -> (forall x, In x l -> ~ In x l') -> NoDup (l ++ l').
Proof.
  induction l as [|h l IH]; intros H1 H2 H3; cbn; [exact H2|].
  inversion H1; subst. constructor.
  - intros H. apply in_app_or in H. destruct H as [H|H]; [contradiction|].
    apply (H3 h); [left; reflexivity|exact H].
  - apply IH; auto. intros x Hx. apply H3. right. exact Hx.
Qed.

Lemma tab_condition_ok sz : forall tr, ForallOrdPairs (ttdisj sz) tr ->
  NoDup (labels (tab_condition sz tr)) /\
  forall chr, chr < sz ->
    (forall s t, In (s, t) tr -> tdata s chr = true -> exec_switch chr (tab_condition sz tr) = Some t) /\
    ((forall s t, In (s, t) tr -> tdata s chr = false) -> exec_switch chr (tab_condition sz tr) = None).
Proof.
  induction tr as [|[s t] tr IH]; intros HD.
  - split; [constructor|]. intros chr _. split; [intros s t []|reflexivity].
  - inversion HD as [|? ? D1 D2]; subst. destruct (IH D2) as (I1 & I2).
    change (tab_condition sz ((s, t) :: tr)) with
      ((if tab_isempty sz s then [] else [(filter (tdata s) (below sz), t)]) ++ tab_condition sz tr).
    assert (DJ : forall x, x < sz -> tdata s x = true -> forall s' t', In (s', t') tr -> tdata s' x = false).
    { intros x Hx H s' t' H1. rewrite Forall_forall in D1. specialize (D1 _ H1 x Hx). cbn in D1.
      destruct (tdata s' x); [exfalso; apply D1; auto|reflexivity]. }
    destruct (tab_isempty sz s) eqn:E.
    + cbn [app]. split; [exact I1|]. intros chr Hc. destruct (I2 chr Hc) as (J1 & J2). split.
      * intros s' t' [H|H] Ht; [|apply (J1 s' t' H Ht)]. injection H as -> ->.
        rewrite (tab_isempty_false sz s' chr Hc Ht) in E. discriminate.
      * intros Hno. apply J2. intros s' t' H. apply (Hno s' t'). right. exact H.
    + cbn [app]. split.
      * cbn [labels flat_map fst]. apply NoDup_app; [apply NoDup_filter; apply below_NoDup|exact I1|].
        intros x Hx Hl. apply filter_In in Hx. destruct Hx as (Hx & Ht). apply below_In in Hx.
        apply tab_label in Hl. destruct Hl as (_ & s' & t' & H1 & H2). rewrite (DJ x Hx Ht s' t' H1) in H2. discriminate.
      * intros chr Hc. destruct (I2 chr Hc) as (J1 & J2). cbn [exec_switch].
        assert (EB : existsb (N.eqb chr) (filter (tdata s) (below sz)) = tdata s chr).
        { apply eq_true_iff_eq. rewrite existsb_exists. split.
          - intros (y & H1 & H2). apply N.eqb_eq in H2. subst y. apply filter_In in H1. apply H1.
          - intros H. exists chr. split; [|apply N.eqb_refl]. apply filter_In. split; [apply below_In; exact Hc|exact H]. }
        rewrite EB. split.
        -- intros s' t' [H|H] Ht.
           ++ injection H as -> ->. rewrite Ht. reflexivity.
           ++ destruct (tdata s chr) eqn:Es; [|apply (J1 s' t' H Ht)].
              rewrite (DJ chr Hc Es s' t' H) in Ht. discriminate.
        -- intros Hno. rewrite (Hno s t (or_introl eq_refl)). apply J2. intros s' t' H. apply (Hno s' t'). right. exact H.
Qed.
