(** The laws of the character set operations used by the automata, and their
    proof for both classes. *)
From Coq Require Import List NArith Lia Bool PeanoNat ZifyBool ZifyN ZifyNat.
From Verif Require Import Base CharSetModel CharSetSpec CharSetProofs AutomatonModel AutomatonSpec.
Import ListNotations.
Local Open Scope N_scope.

Record cs_laws (C : cset) (ok : car C -> Prop) : Prop := {
  l_size : 0 < c_size C;
  l_bound : forall c x, ok c -> c_acc C c x = true -> x < c_size C;
  l_epsset : ok (c_epsset C) /\ c_eps C (c_epsset C) = true /\ forall x, c_acc C (c_epsset C) x = false;
  l_none : ok (c_none C) /\ c_eps C (c_none C) = false /\ forall x, c_acc C (c_none C) x = false;
  l_full : ok (c_full C) /\ c_eps C (c_full C) = false /\ forall x, c_acc C (c_full C) x = (x <? c_size C);
  l_char : forall c, c < c_size C ->
    ok (c_char C c) /\ c_eps C (c_char C c) = false /\ forall x, c_acc C (c_char C c) x = (x =? c);
  l_inter : forall a b, ok a -> ok b -> c_eps C a = false -> c_eps C b = false ->
    ok (c_inter C a b) /\ c_eps C (c_inter C a b) = false /\
    forall x, c_acc C (c_inter C a b) x = c_acc C a x && c_acc C b x;
  l_diff : forall a b, ok a -> ok b -> c_eps C a = false -> c_eps C b = false ->
    ok (c_diff C a b) /\ c_eps C (c_diff C a b) = false /\
    forall x, c_acc C (c_diff C a b) x = c_acc C a x && negb (c_acc C b x);
  l_unite : forall a b, ok a -> ok b ->
    ok (c_unite C a b) /\ c_eps C (c_unite C a b) = c_eps C a /\
    forall x, c_acc C (c_unite C a b) x = c_acc C a x || c_acc C b x;
  l_inter_neg : forall a b, ok a -> ok b -> c_eps C a = false -> c_eps C b = false ->
    ok (c_inter C a (c_neg C b)) /\ c_eps C (c_inter C a (c_neg C b)) = false /\
    forall x, c_acc C (c_inter C a (c_neg C b)) x = c_acc C a x && negb (c_acc C b x);
  l_empty : forall a, ok a -> (c_isempty C a = true <-> forall x, c_acc C a x = false);
  l_eqb : forall a b, ok a -> ok b ->
    (c_eqb C a b = true <-> c_eps C a = c_eps C b /\ forall x, c_acc C a x = c_acc C b x);
  l_branch : forall tr x, Forall (fun p => ok (fst p)) tr ->
    ForallOrdPairs (fun p q => forall y, ~ (c_acc C (fst p) y = true /\ c_acc C (fst q) y = true)) tr ->
    x < c_size C -> c_branch C tr x = first_rule C tr x
}.

(** Intersections never contain an empty range. *)
Lemma inter_strict : forall fuel t o kt ko sz r, weak_from kt sz t -> weak_from ko sz o ->
  inter_loop fuel t o = Some r -> strict r.
Proof.
  induction fuel as [|f IH]; intros t o kt ko sz r Wt Wo H;
  (destruct t as [|[tf ts] t']; [cbn in H; injection H as <-; constructor|]);
  (destruct o as [|[of os] o']; [cbn in H; injection H as <-; constructor|]).
  { discriminate H. }
  pose proof Wt as (T1 & T2 & T3 & T4). pose proof Wo as (O1 & O2 & O3 & O4).
  cbn [inter_loop] in H.
  destruct (os <=? tf) eqn:E1; [exact (IH _ _ _ _ _ _ Wt O4 H)|].
  destruct (ts <=? of) eqn:E2; [exact (IH _ _ _ _ _ _ T4 Wo H)|].
  destruct (os <? ts) eqn:E3.
  - destruct (inter_loop f ((tf, ts) :: t') o') as [r'|] eqn:R; [|discriminate H]. cbn [obind] in H.
    injection H as <-. constructor; [cbn [fst snd]; lia|exact (IH _ _ _ _ _ _ Wt O4 R)].
  - destruct (inter_loop f t' ((of, os) :: o')) as [r'|] eqn:R; [|discriminate H]. cbn [obind] in H.
    injection H as <-. constructor; [cbn [fst snd]; lia|exact (IH _ _ _ _ _ _ T4 Wo R)].
Qed.

Lemma first_rule_spec C : forall (tr : list (car C * nat)) x,
  match first_rule C tr x with
  | Some t => exists c, In (c, t) tr /\ c_acc C c x = true
  | None => forall c t, In (c, t) tr -> c_acc C c x = false
  end.
Proof.
  induction tr as [|[c t] tr IH]; intros x; cbn [first_rule]; [intros ? ? []|].
  destruct (c_acc C c x) eqn:E; [exists c; split; [left; reflexivity|exact E]|].
  specialize (IH x). destruct (first_rule C tr x) as [t'|].
  - destruct IH as (c' & H1 & H2). exists c'. split; [right; exact H1|exact H2].
  - intros c' t' [H|H]; [injection H as <- <-; exact E|apply (IH _ _ H)].
Qed.

Lemma seq_laws sz : 0 < sz -> cs_laws (seq_cset sz) (seq_ok sz).
Proof.
  intros Hs.
  assert (ACC : forall s x, seq_ok sz s -> c_acc (seq_cset sz) s x = mem (sdata s) x).
  { intros s x H. cbn. rewrite seq_accepts_ok; [reflexivity|].
    apply (weak_mono _ 0 sz). apply canonical_weak in H. apply H. }
  assert (OK0 : forall e, seq_ok sz (MkSeq [] e)) by (intros e; exact I).
  constructor.
  - exact Hs.
  - intros c x Hc H. rewrite ACC in H by exact Hc. destruct (N.ltb_spec x sz) as [L|L]; [exact L|].
    apply canonical_weak in Hc. destruct Hc as (W & _). rewrite (mem_high _ _ _ _ W L) in H. discriminate H.
  - split; [apply OK0|]. split; reflexivity.
  - split; [apply OK0|]. split; reflexivity.
  - assert (K : seq_ok sz (seq_full sz)) by (cbn; lia). split; [exact K|]. split; [reflexivity|].
    intros x. change (c_full (seq_cset sz)) with (seq_full sz). rewrite ACC by exact K. cbn [seq_full sdata c_size seq_cset].
    rewrite mem_cons. change (mem [] x) with false. lia.
  - intros c Hc. change (c_size (seq_cset sz)) with sz in Hc.
    assert (K : seq_ok sz (seq_char c)) by (cbn; lia). split; [exact K|]. split; [reflexivity|].
    intros x. change (c_char (seq_cset sz) c) with (seq_char c). rewrite ACC by exact K. cbn [seq_char sdata].
    rewrite mem_cons. change (mem [] x) with false. lia.
  - intros a b Ka Kb _ _. pose proof Ka as Ka'. pose proof Kb as Kb'.
    apply canonical_weak in Ka. apply canonical_weak in Kb.
    destruct (seq_intersection_ok sz a b) as (r & R1 & R2 & R3 & R4 & R5); [tauto|tauto|].
    cbn [c_inter seq_cset]. rewrite R1. cbn [ogets].
    assert (K : seq_ok sz r) by (apply canonical_weak; tauto).
    split; [exact K|]. split; [exact R2|]. intros x. rewrite !ACC by assumption. apply R5.
  - intros a b Ka Kb _ _. pose proof Ka as Ka'. pose proof Kb as Kb'.
    apply canonical_weak in Ka. apply canonical_weak in Kb.
    destruct (seq_difference_ok sz a b) as (r & R1 & R2 & R3 & R4 & R5); [tauto|tauto|].
    cbn [c_diff seq_cset]. rewrite R1. cbn [ogets].
    assert (K : seq_ok sz r) by (apply canonical_weak; tauto).
    split; [exact K|]. split; [exact R2|]. intros x. rewrite !ACC by assumption. apply R5.
  - intros a b Ka Kb. pose proof Ka as Ka'. pose proof Kb as Kb'.
    apply canonical_weak in Ka. apply canonical_weak in Kb.
    destruct (seq_union_ok sz a b) as (r & R1 & R2 & R3 & R4 & R5); [tauto|tauto|].
    cbn [c_unite seq_cset]. unfold seq_unite. rewrite R1. cbn [obind ogets].
    assert (K : seq_ok sz (MkSeq (sdata r) (seps a))) by (apply canonical_weak; tauto).
    split; [exact K|]. split; [reflexivity|]. intros x. rewrite !ACC by assumption. apply R5.
  - intros a b Ka Kb Ea Eb. pose proof Ka as Ka'. pose proof Kb as Kb'.
    apply canonical_weak in Ka. apply canonical_weak in Kb. destruct Ka as (Wa & _). destruct Kb as (Wb & _).
    cbn [c_eps seq_cset] in Eb. destruct (seq_negate_ok sz b Hs Wb Eb) as (_ & Wn & Mn).
    destruct (seq_intersection_ok sz a (seq_negate sz b) Wa Wn) as (r & R1 & R2 & R3 & _ & R5).
    cbn [c_inter c_neg seq_cset]. rewrite R1. cbn [ogets].
    assert (K : seq_ok sz r).
    { apply canonical_weak. split; [exact R3|]. unfold seq_intersection in R1.
      destruct (inter_loop (length (sdata a) + length (sdata (seq_negate sz b))) (sdata a) (sdata (seq_negate sz b)))
        as [d|] eqn:D; [|discriminate R1].
      cbn [obind] in R1. injection R1 as <-. exact (inter_strict _ _ _ _ _ _ _ Wa Wn D). }
    split; [exact K|]. split; [exact R2|]. intros x. rewrite !ACC by assumption. rewrite R5.
    destruct (N.ltb_spec x sz) as [L|L]; [rewrite Mn by exact L; reflexivity|].
    rewrite (mem_high _ _ _ _ Wa L). reflexivity.
  - intros a Ka. cbn [c_isempty seq_cset]. unfold seq_isempty. split.
    + intros H x. rewrite ACC by exact Ka. destruct (sdata a); [reflexivity|discriminate H].
    + intros H. assert (H' : forall x, mem (sdata a) x = false) by (intros x; rewrite <- ACC by exact Ka; apply H).
      unfold seq_ok, canonical in Ka. destruct (sdata a) as [|[p q] d]; [reflexivity|].
      destruct Ka as (_ & K & _). specialize (H' p). rewrite mem_cons in H'. lia.
  - intros a b Ka Kb. cbn [c_eqb c_eps seq_cset]. unfold seq_eqb. rewrite andb_true_iff, eqb_true_iff, ranges_eqb_iff. split.
    + intros (H1 & H2). split; [exact H1|]. intros x. rewrite !ACC by assumption. rewrite H2. reflexivity.
    + intros (H1 & H2). split; [exact H1|]. apply (canonical_ext _ _ 0 sz Ka Kb).
      intros x. specialize (H2 x). rewrite !ACC in H2 by assumption. exact H2.
  - intros tr x HF HO Hx. cbn [c_branch seq_cset].
    destruct (seq_condition_ok sz tr x) as (c & C1 & C2 & C3).
    + exact Hx.
    + exact HF.
    + clear C1 C2 C3 || idtac. induction HO as [|p l H1 H2 IH]; [constructor|].
      inversion HF as [|? ? F1 F2]; subst. constructor; [|apply IH; exact F2].
      rewrite Forall_forall in *. intros q Hq y (I1 & I2). apply (H1 q Hq y).
      rewrite !ACC by (try exact F1; apply F2; exact Hq). rewrite !mem_inside. split; assumption.
    + rewrite C1. pose proof (first_rule_spec (seq_cset sz) tr x) as S.
      rewrite Forall_forall in HF.
      destruct (first_rule (seq_cset sz) tr x) as [t|].
      * destruct S as (s & S1 & S2). apply (C2 s t S1). apply mem_inside. rewrite <- ACC; [exact S2|exact (HF _ S1)].
      * apply C3. intros s t Hst Hin. apply mem_inside in Hin. rewrite <- ACC in Hin by (exact (HF _ Hst)).
        rewrite (S s t Hst) in Hin. discriminate Hin.
Qed.

Lemma tab_laws sz : 0 < sz -> cs_laws (tab_cset sz) tab_ok.
Proof.
  intros Hs.
  assert (ACC : forall s x, c_acc (tab_cset sz) s x = (x <? sz) && tdata s x).
  { intros s x. cbn. unfold tab_accepts. destruct (x <? sz); reflexivity. }
  constructor.
  - exact Hs.
  - intros c x _ H. rewrite ACC in H. cbn. lia.
  - split; [exact I|]. split; [reflexivity|]. intros x. rewrite ACC. apply andb_false_r.
  - split; [exact I|]. split; [reflexivity|]. intros x. rewrite ACC. apply andb_false_r.
  - split; [exact I|]. split; [reflexivity|]. intros x. rewrite ACC. apply andb_true_r.
  - intros c Hc. split; [exact I|]. split; [reflexivity|]. intros x. rewrite ACC. cbn in *. lia.
  - intros a b _ _ Ea Eb. split; [exact I|]. split; [exact Ea|]. intros x. rewrite !ACC.
    cbn [c_inter tab_cset tab_intersection tdata]. destruct (x <? sz), (tdata a x), (tdata b x); reflexivity.
  - intros a b _ _ Ea Eb. split; [exact I|]. split; [exact Eb|]. intros x. rewrite !ACC.
    cbn [c_diff tab_cset tab_difference tdata]. destruct (x <? sz), (tdata a x), (tdata b x); reflexivity.
  - intros a b _ _. split; [exact I|]. split; [reflexivity|]. intros x. rewrite !ACC.
    cbn [c_unite tab_cset tab_union tdata]. destruct (x <? sz), (tdata a x), (tdata b x); reflexivity.
  - intros a b _ _ Ea Eb. split; [exact I|]. split; [exact Ea|]. intros x. rewrite !ACC.
    cbn [c_inter c_neg tab_cset tab_intersection tab_negate tdata]. destruct (x <? sz), (tdata a x), (tdata b x); reflexivity.
  - intros a _. cbn [c_isempty tab_cset]. unfold tab_isempty. rewrite forallb_forall. split.
    + intros H x. rewrite ACC. destruct (N.ltb_spec x sz) as [L|L]; [|reflexivity].
      specialize (H x). rewrite below_In in H. specialize (H L). destruct (tdata a x); [discriminate H|reflexivity].
    + intros H x Hx. rewrite below_In in Hx. specialize (H x). rewrite ACC in H.
      replace (x <? sz) with true in H by lia. cbn in H. rewrite H. reflexivity.
  - intros a b _ _. cbn [c_eqb c_eps tab_cset]. rewrite tab_eqb_iff. split; intros (H1 & H2); (split; [exact H1|]).
    + intros x. rewrite !ACC. destruct (N.ltb_spec x sz) as [L|L]; [rewrite H2 by exact L|]; reflexivity.
    + intros x Hx. specialize (H2 x). rewrite !ACC in H2. replace (x <? sz) with true in H2 by lia. exact H2.
  - intros tr x HF HO Hx. cbn [c_branch tab_cset]. cbn [c_size tab_cset] in Hx.
    destruct (tab_condition_ok sz tr) as (_ & H).
    + clear HF. induction HO as [|p l H1 H2 IH]; [constructor|]. constructor; [|exact IH].
      rewrite Forall_forall in *. intros q Hq y Hy (I1 & I2). apply (H1 q Hq y). rewrite !ACC.
      replace (y <? sz) with true by lia. split; assumption.
    + destruct (H x Hx) as (C2 & C3). pose proof (first_rule_spec (tab_cset sz) tr x) as S.
      destruct (first_rule (tab_cset sz) tr x) as [t|].
      * destruct S as (s & S1 & S2). apply (C2 s t S1). rewrite ACC in S2. lia.
      * apply C3. intros s t Hst. specialize (S s t Hst). rewrite ACC in S. lia.
Qed.

Lemma supported_laws C ok : supported C ok -> cs_laws C ok.
Proof. intros [sz H|sz H]; [apply seq_laws|apply tab_laws]; exact H. Qed.
