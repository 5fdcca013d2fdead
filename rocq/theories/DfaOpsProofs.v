(** Operations on DFAs: removing states, completion, conversion back, and the
    boolean operations on expressions built from them. *)
From Coq Require Import List NArith Lia Bool PeanoNat ZifyBool ZifyN ZifyNat Permutation.
From Verif Require Import Base AutomatonModel AutomatonSpec CsetLaws ThompsonProofs ReachProofs SubsetProofs DfaProofs.
Import ListNotations.

Section O.
Variable C : cset.
Variable ok : car C -> Prop.
Hypothesis L : cs_laws C ok.
Notation cs := (car C).
Notation bits := (list bool).
Notation row := (list (cs * nat)).
Notation path := (path C).
Notation nedge := (nedge C).
Notation dedge := (dedge C).
Notation wfd := (wf_dfa C ok).
Notation det := (deterministic C).
Notation reach_any := (reach C (fun _ => true)).

(** The action reached from a state. *)
Definition act (d : dfa C) (q : nat) (w : list N) : nat :=
  match dfa_run C d q w with Some r => dacc C d r | None => 0 end.

Lemma wfd_in d q c t : wfd d -> dedge d q c t -> q < dst d /\ t < dst d /\ ok c /\ c_eps C c = false.
Proof.
  intros (W1 & _ & _ & W4) H. split; [|apply (W4 _ _ _ H)]. unfold AutomatonSpec.dedge in H.
  destruct (Nat.lt_ge_cases q (dst d)) as [B|B]; [exact B|]. rewrite nth_overflow in H by lia. destruct H.
Qed.
Lemma det_first d q c t x : det d -> dedge d q c t -> c_acc C c x = true -> first_rule C (nth q (drules d) []) x = Some t.
Proof.
  intros D H A. pose proof (first_rule_spec C (nth q (drules d) []) x) as F.
  destruct (first_rule C (nth q (drules d) []) x) as [t'|].
  - destruct F as (c' & F1 & F2). f_equal. exact (D q c' t' c t x F1 H F2 A).
  - rewrite (F c t H) in A. discriminate A.
Qed.
Lemma run_path d : wfd d -> det d -> forall w q r, dfa_run C d q w = Some r <-> path (dedge d) q w r.
Proof.
  intros W D. induction w as [|x w IH]; intros q r; cbn [dfa_run].
  - split; [intros H; injection H as ->; apply P_nil|].
    intros H. inversion H as [q0|q0 c t v r0 H1 H2 H3|]; subst; [reflexivity|].
    destruct (wfd_in _ _ _ _ W H1) as (_ & _ & _ & E). congruence.
  - unfold rowof. split.
    + intros H. pose proof (first_rule_spec C (nth q (drules d) []) x) as F.
      destruct (first_rule C (nth q (drules d) []) x) as [t'|]; [|discriminate H].
      destruct F as (c & F1 & F2). destruct (wfd_in d q c t' W F1) as (_ & _ & _ & E).
      eapply P_chr; [exact F1|exact E|exact F2|]. apply IH. exact H.
    + intros H. inversion H as [q0|q0 c t v r0 H1 H2 H3|q0 c t y v r0 H1 H2 H3 H4]; subst.
      * destruct (wfd_in _ _ _ _ W H1) as (_ & _ & _ & E). congruence.
      * rewrite (det_first d q c t x D H1 H3). apply IH. exact H4.
Qed.
Lemma run_range d : wfd d -> forall w q r, q < dst d -> dfa_run C d q w = Some r -> r < dst d.
Proof.
  intros W. induction w as [|x w IH]; intros q r Hq H; cbn [dfa_run] in H; [injection H as <-; exact Hq|].
  unfold rowof in H. pose proof (first_rule_spec C (nth q (drules d) []) x) as F.
  destruct (first_rule C (nth q (drules d) []) x) as [t|]; [|discriminate H]. destruct F as (c & F1 & F2).
  apply (IH t); [apply (wfd_in d q c t W F1)|exact H].
Qed.
Lemma run_app d : forall u v q, dfa_run C d q (u ++ v) = match dfa_run C d q u with Some r => dfa_run C d r v | None => None end.
Proof.
  induction u as [|x u IH]; intros v q; cbn [dfa_run app]; [reflexivity|].
  destruct (first_rule C (rowof C (drules d) q) x); [apply IH|reflexivity].
Qed.
Lemma act_codec d w q : wfd d -> act d q w <> 0 -> in_codec C w.
Proof.
  unfold act. intros W. revert q. induction w as [|x w IH]; intros q H; [constructor|]. cbn [dfa_run] in H. unfold rowof in H.
  pose proof (first_rule_spec C (nth q (drules d) []) x) as F.
  destruct (first_rule C (nth q (drules d) []) x) as [t|]; [|congruence]. destruct F as (c & F1 & F2).
  constructor; [|apply (IH t H)]. apply (l_bound C ok L c x); [apply (wfd_in d q c t W F1)|exact F2].
Qed.
Lemma run_reach d : forall w q r, dfa_run C d q w = Some r -> reach_any (drules d) q r.
Proof.
  induction w as [|x w IH]; intros q r H; cbn [dfa_run] in H; [injection H as <-; constructor|].
  unfold rowof in H. pose proof (first_rule_spec C (nth q (drules d) []) x) as F.
  destruct (first_rule C (nth q (drules d) []) x) as [t|]; [|discriminate H]. destruct F as (c & F1 & F2).
  econstructor; [exact F1|reflexivity|apply IH; exact H].
Qed.
Lemma dacc_range d i : wfd d -> dst d <= i -> dacc C d i = 0.
Proof. intros (_ & W2 & _) H. unfold dacc. apply nth_overflow. lia. Qed.

(** ** filterStates *)
Lemma kept_In s i k : In i (kept s k) <-> i < k /\ getb s i = true.
Proof. unfold kept. rewrite filter_In, in_seq. intuition lia. Qed.
Section Filter.
Variable d : dfa C.
Variable s : bits.
Hypothesis W : wfd d.
Hypothesis D : det d.
Let n := dst d.
Let ks := kept s n.
Let phi := mapping s.

Lemma kept_split q : q < n -> getb s q = true -> exists r, ks = kept s q ++ q :: r.
Proof.
  intros H1 H2. unfold ks, kept. replace n with (q + S (n - q - 1)) by lia. rewrite seq_app, filter_app. cbn [seq plus filter].
  rewrite H2. eauto.
Qed.
Lemma kept_nth q : q < n -> getb s q = true -> phi q < length ks /\ nth (phi q) ks 0 = q.
Proof.
  intros H1 H2. destruct (kept_split q H1 H2) as (r & ->). unfold phi, mapping. split.
  - rewrite app_length. cbn. lia.
  - rewrite app_nth2 by lia. rewrite Nat.sub_diag. reflexivity.
Qed.
Lemma kept_onto i : i < length ks -> exists q, q < n /\ getb s q = true /\ phi q = i.
Proof.
  intros H. set (q := nth i ks 0). assert (K : In q ks) by (apply nth_In; exact H).
  apply kept_In in K. destruct K as (K1 & K2). exists q. split; [exact K1|]. split; [exact K2|].
  destruct (kept_nth q K1 K2) as (K3 & K4). assert (ND : NoDup ks) by (apply NoDup_filter, seq_NoDup).
  apply (proj1 (NoDup_nth ks 0) ND); assumption.
Qed.
Lemma filter_row q : q < n -> getb s q = true ->
  nth (phi q) (drules (filterStates C s d)) [] =
  map (fun e => (fst e, phi (snd e))) (filter (fun e => getb s (snd e)) (nth q (drules d) [])).
Proof.
  intros H1 H2. destruct (kept_nth q H1 H2) as (K1 & K2). cbn [drules filterStates]. fold n. fold ks.
  set (g := fun i => map (fun e => (fst e, mapping s (snd e))) (filter (fun e : cs * nat => getb s (snd e)) (rowof C (drules d) i))).
  rewrite (nth_indep _ [] (g 0)) by (rewrite map_length; exact K1).
  rewrite (map_nth g), K2. reflexivity.
Qed.
Lemma filter_acc q : q < n -> getb s q = true -> dacc C (filterStates C s d) (phi q) = dacc C d q.
Proof.
  intros H1 H2. destruct (kept_nth q H1 H2) as (K1 & K2). unfold dacc at 1. cbn [daccept filterStates]. fold n. fold ks.
  rewrite (nth_indep _ 0 (dacc C d 0)) by (rewrite map_length; exact K1). rewrite map_nth, K2. reflexivity.
Qed.
Lemma filter_edge q c t : q < n -> getb s q = true ->
  (dedge (filterStates C s d) (phi q) c t <-> exists t', dedge d q c t' /\ getb s t' = true /\ t = phi t').
Proof.
  intros H1 H2. unfold AutomatonSpec.dedge. rewrite filter_row by assumption. rewrite in_map_iff. split.
  - intros ([c' t'] & E & K). cbn in E. injection E as -> <-. apply filter_In in K. cbn in K. exists t'. tauto.
  - intros (t' & K1 & K2 & ->). exists (c, t'). split; [reflexivity|]. apply filter_In. auto.
Qed.
Lemma filter_out i : length ks <= i -> nth i (drules (filterStates C s d)) [] = [].
Proof. intros H. apply nth_overflow. cbn [drules filterStates]. rewrite map_length. exact H. Qed.
Lemma filter_lt i c t : dedge (filterStates C s d) i c t -> i < length ks.
Proof.
  intros H. destruct (Nat.lt_ge_cases i (length ks)) as [B|B]; [exact B|].
  unfold AutomatonSpec.dedge in H. rewrite filter_out in H by exact B. destruct H.
Qed.
Lemma filter_wfd : wfd (filterStates C s d).
Proof.
  split; [cbn; apply map_length|]. split; [cbn; apply map_length|]. split.
  - intros i. change (dactions (filterStates C s d)) with (dactions d).
    destruct (Nat.lt_ge_cases i (length ks)) as [B|B].
    + destruct (kept_onto i B) as (q & Q1 & Q2 & <-). change (dacc C (filterStates C s d) (phi q) <= dactions d).
      rewrite filter_acc by assumption. apply W.
    + rewrite nth_overflow; [lia|]. cbn. rewrite map_length. exact B.
  - intros i c t H. pose proof (filter_lt i c t H) as B. destruct (kept_onto i B) as (q & Q1 & Q2 & <-).
    apply (filter_edge q c t Q1 Q2) in H. destruct H as (t' & K1 & K2 & ->).
    destruct (wfd_in _ _ _ _ W K1) as (_ & T1 & T2 & T3). split; [|auto].
    change (dst (filterStates C s d)) with (length ks). apply kept_nth; assumption.
Qed.
Lemma phi_inj q r : q < n -> getb s q = true -> r < n -> getb s r = true -> phi q = phi r -> q = r.
Proof.
  intros A1 A2 B1 B2 E. destruct (kept_nth q A1 A2) as (_ & K1). destruct (kept_nth r B1 B2) as (_ & K2). congruence.
Qed.
Lemma filter_det : det (filterStates C s d).
Proof.
  intros i c1 t1 c2 t2 x H1 H2 A1 A2. pose proof (filter_lt _ _ _ H1) as B. destruct (kept_onto i B) as (q & Q1 & Q2 & <-).
  apply (filter_edge q _ _ Q1 Q2) in H1. apply (filter_edge q _ _ Q1 Q2) in H2.
  destruct H1 as (t1' & K1 & _ & ->). destruct H2 as (t2' & K2 & _ & ->). f_equal. exact (D q c1 t1' c2 t2' x K1 K2 A1 A2).
Qed.
(** Dropping targets without accepted continuation changes nothing. *)
Lemma filter_act : (forall q c t w, getb s q = true -> dedge d q c t -> getb s t = false -> act d t w = 0) ->
  forall w q, q < n -> getb s q = true -> act (filterStates C s d) (phi q) w = act d q w.
Proof.
  intros H. induction w as [|x w IH]; intros q Q1 Q2; unfold act; cbn [dfa_run].
  - apply filter_acc; assumption.
  - unfold rowof. pose proof (first_rule_spec C (nth q (drules d) []) x) as F.
    pose proof (first_rule_spec C (nth (phi q) (drules (filterStates C s d)) []) x) as G.
    destruct (first_rule C (nth q (drules d) []) x) as [t|] eqn:E.
    + destruct F as (c & F1 & F2). destruct (getb s t) eqn:T.
      * assert (K : dedge (filterStates C s d) (phi q) c (phi t)) by (apply filter_edge; [exact Q1|exact Q2|exists t; auto]).
        rewrite (det_first _ _ _ _ x filter_det K F2). apply IH; [|exact T]. apply (wfd_in d q c t W F1).
      * pose proof (H q c t w Q2 F1 T) as Z. unfold act in Z. rewrite Z.
        destruct (first_rule C (nth (phi q) (drules (filterStates C s d)) []) x) as [t'|]; [|reflexivity].
        destruct G as (c' & G1 & G2). apply (filter_edge q c' t' Q1 Q2) in G1. destruct G1 as (t2 & K1 & K2 & ->).
        rewrite (D q c t c' t2 x F1 K1 F2 G2) in T. congruence.
    + destruct (first_rule C (nth (phi q) (drules (filterStates C s d)) []) x) as [t'|]; [|reflexivity].
      destruct G as (c' & G1 & G2). apply (filter_edge q c' t' Q1 Q2) in G1. destruct G1 as (t2 & K1 & K2 & ->).
      rewrite (F c' t2 K1) in G2. discriminate G2.
Qed.
Lemma phi_0 : getb s 0 = true -> phi 0 = 0.
Proof. reflexivity. Qed.
End Filter.

(** The states of [d'] are states of [d], with the same behaviour. *)
Definition embeds (d' d : dfa C) : Prop := exists f,
  (forall i, i < dst d' -> f i < dst d /\ forall w, act d' i w = act d (f i) w) /\
  (forall i j, i < dst d' -> j < dst d' -> f i = f j -> i = j).
Lemma filter_embeds d s : wfd d -> det d ->
  (forall q c t w, getb s q = true -> dedge d q c t -> getb s t = false -> act d t w = 0) ->
  embeds (filterStates C s d) d.
Proof.
  intros W D H. exists (fun i => nth i (kept s (dst d)) 0).
  assert (X : forall i, i < dst (filterStates C s d) -> exists q, nth i (kept s (dst d)) 0 = q /\ q < dst d /\ getb s q = true /\ mapping s q = i).
  { intros i Hi. destruct (kept_onto d s i Hi) as (q & Q1 & Q2 & Q3). exists q. split; [|auto].
    rewrite <- Q3. apply (kept_nth d s q Q1 Q2). }
  split.
  - intros i Hi. destruct (X i Hi) as (q & -> & Q1 & Q2 & <-). split; [exact Q1|]. intros w. apply filter_act; assumption.
  - intros i j Hi Hj E. destruct (X i Hi) as (q & Q0 & _ & _ & <-). destruct (X j Hj) as (q' & Q0' & _ & _ & <-). congruence.
Qed.
(** ** eliminateUnarrivableStates *)
Definition all_reachable (d : dfa C) : Prop := forall q, q < dst d -> reach_any (drules d) 0 q.

Theorem unarrivable_ok d : wfd d -> det d -> 0 < dst d -> exists d', elim_unarrivable C d = Some d' /\
  wfd d' /\ det d' /\ 0 < dst d' /\ dactions d' = dactions d /\ all_reachable d' /\
  (forall w, act d' 0 w = act d 0 w) /\ embeds d' d.
Proof.
  intros W D P. unfold elim_unarrivable. rewrite arrive_loop_gen.
  set (s0 := setb (zeros (dst d)) 0).
  assert (L0 : length s0 = dst d) by (unfold s0; rewrite setb_length; apply zeros_length).
  assert (G0 : forall q, getb s0 q = true <-> q = 0).
  { intros q. unfold s0. rewrite getb_setb by (rewrite zeros_length; exact P). rewrite getb_zeros, orb_false_r. apply Nat.eqb_eq. }
  destruct (loop_gen_ok C (fun _ => true) (dst d) (drules d) s0 s0 [0]) as (s & R1 & R2 & R3).
  - intros i c t H _. rewrite L0. apply (wfd_in d i c t W H).
  - assert (Z : S (cz s0) = cz (zeros (dst d))) by (apply cz_setb; [rewrite zeros_length; exact P|apply getb_zeros]).
    pose proof (ones_cz (zeros (dst d))) as O. rewrite zeros_length in O. cbn. lia.
  - auto.
  - intros q Hq. exists q. split; [exact Hq|constructor].
  - intros q [<-|[]]. apply G0. reflexivity.
  - intros q c t Hq _ _. left. left. apply G0 in Hq. auto.
  - rewrite R1. cbn [obind]. eexists. split; [reflexivity|].
    assert (RS : forall q, getb s q = true <-> reach_any (drules d) 0 q).
    { intros q. rewrite R3. split; [intros (p & K1 & K2); apply G0 in K1; subst p; exact K2|].
      intros K. exists 0. split; [apply G0; reflexivity|exact K]. }
    assert (S0 : getb s 0 = true) by (apply RS; constructor).
    split; [apply filter_wfd; assumption|]. split; [apply filter_det; assumption|].
    destruct (kept_nth d s 0 P S0) as (K0 & _). split; [cbn [filterStates dst]; change (mapping s 0) with 0 in K0; exact K0|].
    split; [reflexivity|]. split; [|split].
    + intros i Hi. destruct (kept_onto d s i Hi) as (q & Q1 & Q2 & <-).
      assert (G : forall p r, reach_any (drules d) p r -> p < dst d -> getb s p = true ->
                  reach_any (drules (filterStates C s d)) (mapping s p) (mapping s r)).
      { intros p r K. induction K as [p|p c t r K1 K2 K3 IH]; intros Hp Sp; [constructor|].
        assert (St : getb s t = true) by (apply RS; eapply reach_snoc; [apply RS; exact Sp|exact K1|reflexivity]).
        econstructor; [|reflexivity|apply IH; [apply (wfd_in d p c t W K1)|exact St]].
        apply (filter_edge d s p c (mapping s t) Hp Sp). exists t. auto. }
      apply (G 0 q); [apply RS; exact Q2|exact P|exact S0].
    + intros w. change 0 with (mapping s 0) at 1. apply filter_act; try assumption.
      intros q c t w' K1 K2 K3. exfalso.
      assert (K4 : getb s t = true) by (apply RS; eapply reach_snoc; [apply RS; exact K1|exact K2|reflexivity]). congruence.
    + apply filter_embeds; try assumption. intros q c t w' K1 K2 K3. exfalso.
      assert (K4 : getb s t = true) by (apply RS; eapply reach_snoc; [apply RS; exact K1|exact K2|reflexivity]). congruence.
Qed.

(** ** eliminateInactiveStates *)
Lemma sweep_ok rules : forall l s ch s' ch', (forall i, In i l -> i < length s) -> active_sweep C rules l s ch = (s', ch') ->
  length s' = length s /\ cz s' <= cz s /\ (forall i, getb s i = true -> getb s' i = true) /\
  (forall i, getb s' i = true -> getb s i = true \/ exists c t, In (c, t) (nth i rules []) /\ getb s' t = true) /\
  (ch' = ch /\ s' = s /\ (forall i, In i l -> getb s i = false -> forall c t, In (c, t) (nth i rules []) -> getb s t = false)
   \/ ch' = true /\ cz s' < cz s) /\
  (forall (P : nat -> Prop), (forall i, getb s i = true -> P i) ->
     (forall i c t, In (c, t) (nth i rules []) -> P t -> P i) -> forall i, getb s' i = true -> P i).
Proof.
  induction l as [|i l IH]; intros s ch s' ch' HR H; cbn [active_sweep] in H.
  - injection H as <- <-. repeat split; auto. left. repeat split. intros i [].
  - assert (HR' : forall j, In j l -> j < length s) by (intros j Hj; apply HR; right; exact Hj).
    destruct (negb (getb s i) && existsb (fun e => getb s (snd e)) (rowof C rules i)) eqn:E.
    + apply andb_prop in E. destruct E as (E1 & E2). apply negb_true_iff in E1. apply existsb_exists in E2.
      destruct E2 as ([c t] & E2 & E3). cbn in E3.
      assert (Hi : i < length s) by (apply HR; left; reflexivity).
      pose proof (cz_setb s i Hi E1) as Z.
      assert (HR2 : forall j, In j l -> j < length (setb s i)) by (intros j Hj; rewrite setb_length; apply HR'; exact Hj).
      destruct (IH _ _ _ _ HR2 H) as (I1 & I2 & I3 & I4 & I5 & I6). rewrite setb_length in I1.
      split; [exact I1|]. split; [lia|]. split; [|split; [|split]].
      * intros j Hj. apply I3. rewrite getb_setb by exact Hi. rewrite Hj. apply orb_true_r.
      * intros j Hj. destruct (I4 j Hj) as [K|K]; [|auto]. rewrite getb_setb in K by exact Hi.
        apply orb_prop in K. destruct K as [K|K]; [|auto]. apply Nat.eqb_eq in K. subst j. right. exists c, t. split; [exact E2|].
        apply I3. rewrite getb_setb by exact Hi. rewrite E3. apply orb_true_r.
      * right. destruct I5 as [(J1 & J2 & _)|(J1 & J2)]; [subst; split; [reflexivity|lia]|split; [exact J1|lia]].
      * intros P P1 P2. apply I6; [|exact P2]. intros j Hj. rewrite getb_setb in Hj by exact Hi.
        apply orb_prop in Hj. destruct Hj as [Hj|Hj]; [|apply P1; exact Hj]. apply Nat.eqb_eq in Hj. subst j.
        apply (P2 i c t E2). apply P1. exact E3.
    + destruct (IH _ _ _ _ HR' H) as (I1 & I2 & I3 & I4 & I5 & I6).
      split; [exact I1|]. split; [exact I2|]. split; [exact I3|]. split; [exact I4|]. split; [|exact I6].
      destruct I5 as [(J1 & J2 & J3)|J]; [|right; exact J]. left. split; [exact J1|]. split; [exact J2|].
      intros j [<-|Hj]; [|apply J3; exact Hj]. intros Hj c t K.
      rewrite Hj in E. cbn in E. destruct (getb s t) eqn:T; [|reflexivity].
      assert (X : existsb (fun e => getb s (snd e)) (rowof C rules i) = true)
        by (apply existsb_exists; exists (c, t); split; [exact K|exact T]). congruence.
Qed.
Lemma active_ok rules n : forall fuel s, length s = n -> cz s < fuel -> exists s', active_loop C fuel rules n s = Some s' /\
  length s' = n /\ (forall i, getb s i = true -> getb s' i = true) /\
  (forall i c t, i < n -> In (c, t) (nth i rules []) -> getb s' t = true -> getb s' i = true) /\
  (forall (P : nat -> Prop), (forall i, getb s i = true -> P i) ->
     (forall i c t, In (c, t) (nth i rules []) -> P t -> P i) -> forall i, getb s' i = true -> P i).
Proof.
  induction fuel as [|f IH]; intros s Hs Hf; [lia|]. cbn [active_loop].
  destruct (active_sweep C rules (seq 0 n) s false) as [s' ch] eqn:E.
  apply sweep_ok in E; [|intros i Hi; apply in_seq in Hi; lia]. destruct E as (E1 & E2 & E3 & E4 & E5 & E6).
  destruct ch.
  - destruct E5 as [(K & _)|(_ & E5)]; [discriminate K|].
    destruct (IH s') as (s'' & R1 & R2 & R3 & R4 & R5); [congruence|lia|].
    exists s''. split; [exact R1|]. split; [exact R2|]. split; [auto|]. split; [exact R4|].
    intros P P1 P2. apply R5; [|exact P2]. apply E6; assumption.
  - destruct E5 as [(_ & -> & E5)|(K & _)]; [|discriminate K].
    exists s. split; [reflexivity|]. split; [exact Hs|]. split; [auto|]. split; [|auto].
    intros i c t Hi K1 K2. destruct (getb s i) eqn:G; [reflexivity|].
    rewrite (E5 i) with (c := c) in K2; [discriminate K2|apply in_seq; lia|exact G|exact K1].
Qed.

(** From every state an accepting one can be reached in the graph. *)
Definition all_active (d : dfa C) : Prop :=
  forall q, q < dst d -> exists r, reach_any (drules d) q r /\ dacc C d r <> 0.

Theorem inactive_gen d : wfd d -> det d -> all_reachable d \/ (exists w, act d 0 w <> 0) -> exists d', elim_inactive C d = Some d' /\
  wfd d' /\ det d' /\ dactions d' = dactions d /\ all_active d' /\ (0 < dst d' -> all_reachable d -> all_reachable d') /\
  (forall w, act d' 0 w = act d 0 w) /\ embeds d' d.
Proof.
  intros W D AR. unfold elim_inactive.
  set (s0 := map (fun i => negb (Nat.eqb (dacc C d i) 0)) (seq 0 (dst d))).
  assert (L0 : length s0 = dst d) by (unfold s0; rewrite map_length; apply seq_length).
  assert (G0 : forall q, getb s0 q = true <-> dacc C d q <> 0).
  { intros q. destruct (Nat.lt_ge_cases q (dst d)) as [B|B].
    - unfold s0, getb. rewrite (nth_indep _ false (negb (Nat.eqb (dacc C d 0) 0))) by (rewrite map_length, seq_length; exact B).
      rewrite (map_nth (fun i => negb (Nat.eqb (dacc C d i) 0))), seq_nth by exact B. cbn [plus]. rewrite negb_true_iff. apply Nat.eqb_neq.
    - split; intros K; [apply getb_range in K; lia|]. rewrite dacc_range in K by assumption. congruence. }
  assert (Z : cz s0 < S (dst d)) by (pose proof (ones_cz s0); lia).
  destruct (active_ok (drules d) (dst d) (S (dst d)) s0 L0 Z) as (s & R1 & R2 & R3 & R4 & R5).
  rewrite R1. cbn [obind]. eexists. split; [reflexivity|].
  split; [apply filter_wfd; assumption|]. split; [apply filter_det; assumption|]. split; [reflexivity|].
  assert (AC : forall q, getb s q = true -> exists r, reach_any (drules d) q r /\ dacc C d r <> 0 /\ getb s r = true).
  { apply R5.
    - intros i Hi. exists i. split; [constructor|]. split; [apply G0; exact Hi|apply R3; exact Hi].
    - intros i c t K (r & K1 & K2). exists r. split; [econstructor; [exact K|reflexivity|exact K1]|exact K2]. }
  assert (BK : forall p r, reach_any (drules d) p r -> getb s r = true -> getb s p = true).
  { intros p r K. induction K as [p|p c t r K1 K2 K3 IH]; intros H; [exact H|].
    apply (R4 p c t); [apply (wfd_in d p c t W K1)|exact K1|apply IH; exact H]. }
  assert (DEAD : forall q w, getb s q = false -> act d q w = 0).
  { intros q w Hq. unfold act. destruct (dfa_run C d q w) as [r|] eqn:E; [|reflexivity].
    destruct (Nat.eq_dec (dacc C d r) 0) as [K|K]; [exact K|]. exfalso.
    apply G0, R3 in K. rewrite (BK q r) in Hq; [discriminate Hq|eapply run_reach; exact E|exact K]. }
  assert (G : forall p r, reach_any (drules d) p r -> p < dst d -> getb s r = true ->
              reach_any (drules (filterStates C s d)) (mapping s p) (mapping s r)).
  { intros p r K. induction K as [p|p c t r K1 K2 K3 IH]; intros Hp Sr; [constructor|].
    assert (St : getb s t = true) by (apply (BK t r); assumption).
    econstructor; [|reflexivity|apply IH; [apply (wfd_in d p c t W K1)|exact Sr]].
    apply (filter_edge d s p c (mapping s t) Hp); [apply (R4 p c t Hp K1 St)|]. exists t. auto. }
  split; [|split; [|split]].
  - intros i Hi. destruct (kept_onto d s i Hi) as (q & Q1 & Q2 & <-). destruct (AC q Q2) as (r & K1 & K2 & K3).
    exists (mapping s r). split; [apply G; assumption|]. rewrite filter_acc; [exact K2| |exact K3].
    apply getb_range in K3. lia.
  - intros P AR' i Hi. destruct (kept_onto d s i Hi) as (q & Q1 & Q2 & <-).
    change 0 with (mapping s 0). apply G; [apply AR'; exact Q1| |exact Q2].
    lia.
  - intros w. destruct (getb s 0) eqn:S0.
    + change 0 with (mapping s 0) at 1. apply filter_act; try assumption.
      * intros q c t w' _ _ T. apply DEAD. exact T.
      * apply getb_range in S0. lia.
    + destruct AR as [AR|(w1 & AR)]; [|destruct (AR (DEAD 0 w1 S0))]. rewrite (DEAD 0 w S0).
      assert (E0 : kept s (dst d) = []).
      { destruct (kept s (dst d)) as [|q l] eqn:E; [reflexivity|]. exfalso.
        assert (K : In q (kept s (dst d))) by (rewrite E; left; reflexivity). apply kept_In in K. destruct K as (K1 & K2).
        rewrite (BK 0 q) in S0; [discriminate S0|apply AR; exact K1|exact K2]. }
      unfold act. destruct (dfa_run C (filterStates C s d) 0 w) as [r|] eqn:E; [|reflexivity].
      apply dacc_range; [apply filter_wfd; assumption|]. cbn [filterStates dst]. rewrite E0. cbn. lia.
  - apply filter_embeds; try assumption. intros q c t w' _ _ T. apply DEAD. exact T.
Qed.

Theorem inactive_ok d : wfd d -> det d -> all_reachable d -> exists d', elim_inactive C d = Some d' /\
  wfd d' /\ det d' /\ dactions d' = dactions d /\ all_active d' /\ (0 < dst d' -> all_reachable d') /\
  (forall w, act d' 0 w = act d 0 w) /\ embeds d' d.
Proof.
  intros W D AR. destruct (inactive_gen d W D (or_introl AR)) as (d' & H1 & H2 & H3 & H4 & H5 & H6 & H7).
  exists d'. repeat (split; [assumption|]). split; [auto|assumption].
Qed.

(** ** Completion *)
Lemma missing_gen : forall (r : row) s, ok s -> c_eps C s = false -> (forall c t, In (c, t) r -> ok c /\ c_eps C c = false) ->
  let m := fold_left (fun s e => c_inter C s (c_neg C (fst e))) r s in
  ok m /\ c_eps C m = false /\ forall x, c_acc C m x = true <-> c_acc C s x = true /\ forall c t, In (c, t) r -> c_acc C c x = false.
Proof.
  induction r as [|[c t] r IH]; intros s S1 S2 H; cbn [fold_left fst].
  - split; [exact S1|]. split; [exact S2|]. intros x. split; [intros K; split; [exact K|intros ? ? []]|tauto].
  - destruct (H c t (or_introl eq_refl)) as (C1 & C2).
    destruct (l_inter_neg C ok L s c S1 C1 S2 C2) as (I1 & I2 & I3).
    destruct (IH _ I1 I2 (fun c' t' K => H c' t' (or_intror K))) as (J1 & J2 & J3).
    split; [exact J1|]. split; [exact J2|]. intros x. cbn zeta in J3. rewrite J3, I3, andb_true_iff, negb_true_iff. split.
    + intros ((A1 & A2) & A3). split; [exact A1|]. intros c' t' [K|K]; [injection K as <- <-; exact A2|apply (A3 _ _ K)].
    + intros (A1 & A2). split; [split; [exact A1|apply (A2 c t); left; reflexivity]|]. intros c' t' K. apply (A2 c' t'). right. exact K.
Qed.
Lemma missing_ok (r : row) : (forall c t, In (c, t) r -> ok c /\ c_eps C c = false) ->
  ok (missing C r) /\ c_eps C (missing C r) = false /\
  forall x, c_acc C (missing C r) x = true <-> (x < c_size C)%N /\ forall c t, In (c, t) r -> c_acc C c x = false.
Proof.
  intros H. destruct (l_full C ok L) as (F1 & F2 & F3).
  destruct (missing_gen r (c_full C) F1 F2 H) as (M1 & M2 & M3). split; [exact M1|]. split; [exact M2|].
  intros x. fold (missing C r) in M3. rewrite M3, F3. split; intros (A1 & A2); (split; [lia|exact A2]).
Qed.

Section Complete.
Variable d : dfa C.
Hypothesis W : wfd d.
Hypothesis D : det d.
Let base := drules d ++ [[(c_full C, dst d)]].
Lemma base_row q : q < dst d -> nth q base [] = nth q (drules d) [].
Proof. intros H. unfold base. apply app_nth1. destruct W as (W1 & _). lia. Qed.
Lemma base_sink : nth (dst d) base [] = [(c_full C, dst d)].
Proof. unfold base. destruct W as (W1 & _). rewrite app_nth2 by lia. rewrite W1, Nat.sub_diag. reflexivity. Qed.
Lemma base_ok q c t : In (c, t) (nth q base []) -> q <= dst d /\ t <= dst d /\ ok c /\ c_eps C c = false.
Proof.
  intros H. destruct (Nat.lt_trichotomy q (dst d)) as [B|[-> | B]].
  - rewrite base_row in H by exact B. destruct (wfd_in d q c t W H) as (_ & T1 & T2 & T3).
    split; [lia|]. split; [lia|]. auto.
  - rewrite base_sink in H. destruct H as [H|[]]. injection H as <- <-. destruct (l_full C ok L) as (F1 & F2 & _).
    repeat split; auto.
  - rewrite nth_overflow in H; [destruct H|]. unfold base. rewrite app_length. destruct W as (W1 & _). cbn. lia.
Qed.
Lemma complete_row q : q <= dst d -> nth q (drules (complete C d)) [] =
  (if c_isempty C (missing C (nth q base [])) then nth q base [] else nth q base [] ++ [(missing C (nth q base []), dst d)]).
Proof.
  intros H. cbn [drules complete]. fold base.
  set (g := fun r : row => if c_isempty C (missing C r) then r else r ++ [(missing C r, dst d)]).
  rewrite (nth_indep _ [] (g [])).
  - exact (map_nth g base [] q).
  - rewrite map_length. unfold base. rewrite app_length. destruct W as (W1 & _). cbn. lia.
Qed.
Lemma complete_edge q c t : dedge (complete C d) q c t <->
  q <= dst d /\ (In (c, t) (nth q base []) \/ (t = dst d /\ c = missing C (nth q base []) /\ c_isempty C c = false)).
Proof.
  unfold AutomatonSpec.dedge. split.
  - intros H. assert (B : q <= dst d).
    { destruct (Nat.le_gt_cases q (dst d)) as [B|B]; [exact B|]. rewrite nth_overflow in H; [destruct H|].
      cbn [drules complete]. rewrite map_length, app_length. destruct W as (W1 & _). cbn. lia. }
    split; [exact B|]. rewrite complete_row in H by exact B.
    destruct (c_isempty C (missing C (nth q base []))) eqn:E; [auto|]. apply in_app_iff in H.
    destruct H as [H|[H|[]]]; [auto|]. injection H as <- <-. auto.
  - intros (B & H). rewrite complete_row by exact B. destruct H as [H|(-> & -> & E)].
    + destruct (c_isempty C (missing C (nth q base []))); [exact H|apply in_app_iff; auto].
    + rewrite E. apply in_app_iff. right. left. reflexivity.
Qed.
Lemma complete_wfd : wfd (complete C d) \/ dactions d = 0.
Proof.
  destruct (Nat.eq_dec (dactions d) 0) as [Z|Z]; [auto|left].
  pose proof W as (W1 & W2 & W3 & W4). split; [cbn; rewrite map_length, app_length; cbn; lia|].
  split; [cbn; rewrite app_length, map_length; cbn; lia|]. split.
  - intros i. cbn [daccept complete dactions].
    assert (K : nth i (map (fun x => if Nat.eqb x 0 then 1 else 0) (daccept d) ++ [1]) 0 <= 1); [|lia].
    destruct (nth_in_or_default i (map (fun x => if Nat.eqb x 0 then 1 else 0) (daccept d) ++ [1]) 0) as [K|K]; [|lia].
    apply in_app_iff in K. destruct K as [K|[K|[]]]; [|lia]. apply in_map_iff in K. destruct K as (y & <- & _). destruct (Nat.eqb y 0); lia.
  - intros i c t H. apply (complete_edge i c t) in H. cbn [dst complete]. destruct H as (B & [H|(-> & -> & _)]).
    + destruct (base_ok _ _ _ H) as (_ & T1 & T2 & T3). split; [lia|auto].
    + destruct (missing_ok (nth i base [])) as (M1 & M2 & _); [intros c t K; apply (base_ok i c t K)|]. split; [lia|auto].
Qed.
Lemma complete_det : det (complete C d).
Proof.
  intros q c1 t1 c2 t2 x H1 H2 A1 A2. apply complete_edge in H1. apply complete_edge in H2.
  destruct H1 as (B & H1). destruct H2 as (_ & H2).
  destruct (missing_ok (nth q base [])) as (_ & _ & M3); [intros c t K; apply (base_ok q c t K)|].
  destruct H1 as [H1|(-> & E1 & _)], H2 as [H2|(-> & E2 & _)]; try reflexivity.
  - destruct (Nat.eq_dec q (dst d)) as [-> | N].
    + rewrite base_sink in H1, H2. destruct H1 as [H1|[]], H2 as [H2|[]]. congruence.
    + rewrite base_row in H1, H2 by lia. exact (D q c1 t1 c2 t2 x H1 H2 A1 A2).
  - subst c2. apply M3 in A2. destruct A2 as (_ & A2). rewrite (A2 _ _ H1) in A1. discriminate A1.
  - subst c1. apply M3 in A1. destruct A1 as (_ & A1). rewrite (A1 _ _ H2) in A2. discriminate A2.
Qed.
Lemma complete_next q x : q <= dst d -> (x < c_size C)%N ->
  first_rule C (nth q (drules (complete C d)) []) x =
  match first_rule C (nth q base []) x with Some t => Some t | None => Some (dst d) end.
Proof.
  intros B Hx. pose proof (first_rule_spec C (nth q base []) x) as F.
  destruct (first_rule C (nth q base []) x) as [t|].
  - destruct F as (c & F1 & F2). apply (det_first _ q c t x complete_det); [|exact F2]. apply complete_edge. auto.
  - destruct (missing_ok (nth q base [])) as (M1 & _ & M3); [intros c t K; apply (base_ok q c t K)|].
    assert (A : c_acc C (missing C (nth q base [])) x = true) by (apply M3; auto).
    apply (det_first _ q (missing C (nth q base [])) (dst d) x complete_det); [|exact A].
    apply complete_edge. split; [exact B|]. right. split; [reflexivity|]. split; [reflexivity|].
    destruct (c_isempty C (missing C (nth q base []))) eqn:E; [|reflexivity].
    rewrite (proj1 (l_empty C ok L _ M1) E) in A. discriminate A.
Qed.
Lemma complete_acc q : q < dst d -> dacc C (complete C d) q = if Nat.eqb (dacc C d q) 0 then 1 else 0.
Proof.
  intros H. unfold dacc. cbn [daccept complete]. destruct W as (_ & W2 & _).
  rewrite app_nth1 by (rewrite map_length; lia).
  set (g := fun x => if Nat.eqb x 0 then 1 else 0).
  rewrite (nth_indep _ 0 (g 1)) by (rewrite map_length; lia).
  rewrite (map_nth g). unfold g. rewrite (nth_indep (daccept d) 1 0) by lia. reflexivity.
Qed.
Lemma complete_acc_sink : dacc C (complete C d) (dst d) = 1.
Proof.
  unfold dacc. cbn [daccept complete]. destruct W as (_ & W2 & _).
  rewrite app_nth2 by (rewrite map_length; lia). rewrite map_length, W2, Nat.sub_diag. reflexivity.
Qed.
Lemma complete_sink w : in_codec C w -> act (complete C d) (dst d) w = 1.
Proof.
  intros H. unfold act. induction H as [|x w Hx Hw IH]; cbn [dfa_run]; [apply complete_acc_sink|].
  unfold rowof. rewrite complete_next by (try exact Hx; lia). rewrite base_sink. cbn [first_rule].
  destruct (c_acc C (c_full C) x); exact IH.
Qed.
Lemma complete_act w q : in_codec C w -> q < dst d -> act (complete C d) q w = if Nat.eqb (act d q w) 0 then 1 else 0.
Proof.
  intros H. revert q. induction H as [|x w Hx Hw IH]; intros q Hq; unfold act; cbn [dfa_run]; [apply complete_acc; exact Hq|].
  unfold rowof. rewrite complete_next by (try exact Hx; lia). rewrite base_row by exact Hq.
  pose proof (first_rule_spec C (nth q (drules d) []) x) as F.
  destruct (first_rule C (nth q (drules d) []) x) as [t|].
  - destruct F as (c & F1 & _). apply IH. apply (wfd_in d q c t W F1).
  - exact (complete_sink w Hw).
Qed.
End Complete.

(** ** Conversion to an NFA *)
Section NfaOf.
Variable d : dfa C.
Hypothesis W : wfd d.
Hypothesis D : det d.
Lemma top_spec : forall l b, let m := fold_left (fun m i => Nat.max m (dst d + dacc C d i)) l b in
  b <= m /\ (forall i, In i l -> dst d + dacc C d i <= m) /\ (m = b \/ exists i, In i l /\ m = dst d + dacc C d i).
Proof.
  induction l as [|i l IH]; intros b; cbn [fold_left].
  - split; [lia|]. split; [intros i []|auto].
  - destruct (IH (Nat.max b (dst d + dacc C d i))) as (I1 & I2 & I3). cbn zeta in *. split; [lia|]. split.
    + intros j [<-|Hj]; [lia|apply I2; exact Hj].
    + destruct I3 as [I3|(j & J1 & J2)]; [|right; exists j; split; [right; exact J1|exact J2]].
      destruct (Nat.max_spec b (dst d + dacc C d i)) as [(M1 & M2)|(M1 & M2)]; [right|left; lia].
      exists i. split; [left; reflexivity|lia].
Qed.
Hypothesis P : 0 < dst d.
Lemma nfa_of_shape : naccept (nfa_of C d) = dst d /\ dst d < nst (nfa_of C d) /\
  (forall i, i < dst d -> dst d + dacc C d i <= nst (nfa_of C d)) /\
  ((forall i, dacc C d i <= 1) -> nst (nfa_of C d) = S (dst d)) /\
  length (nrules (nfa_of C d)) = nst (nfa_of C d).
Proof.
  unfold nfa_of. destruct (Nat.eqb_spec (dst d) 0) as [Z|_]; [lia|]. cbn [nst naccept nrules].
  destruct (top_spec (seq 0 (dst d)) (dst d)) as (T1 & T2 & T3). cbn zeta in *.
  set (top := fold_left (fun m i => Nat.max m (dst d + dacc C d i)) (seq 0 (dst d)) (dst d)) in *.
  assert (T2' : forall i, i < dst d -> dst d + dacc C d i <= top) by (intros i Hi; apply T2; apply in_seq; lia).
  split; [reflexivity|]. split; [destruct (Nat.eqb_spec top (dst d)); lia|]. split; [|split].
  - intros i Hi. specialize (T2' i Hi). destruct (Nat.eqb_spec top (dst d)); lia.
  - intros H. destruct (Nat.eqb_spec top (dst d)) as [E|E]; [reflexivity|].
    destruct T3 as [T3|(i & I1 & I2)]; [congruence|]. specialize (H i). lia.
  - rewrite app_length, map_length, seq_length, repeat_length. destruct (Nat.eqb_spec top (dst d)); lia.
Qed.
Lemma nfa_of_edge i c t : nedge (nfa_of C d) i c t <->
  i < dst d /\ (dedge d i c t \/ (c = c_epsset C /\ dacc C d i <> 0 /\ t = dst d + dacc C d i - 1)).
Proof.
  unfold AutomatonSpec.nedge, AutomatonSpec.dedge, nfa_of. destruct (Nat.eqb_spec (dst d) 0) as [Z|_]; [lia|]. cbn [nrules].
  set (g := fun i => rowof C (drules d) i ++ (if Nat.eqb (dacc C d i) 0 then [] else [eps_edge C (dst d + dacc C d i - 1)])).
  destruct (Nat.lt_ge_cases i (dst d)) as [B|B].
  - rewrite app_nth1 by (rewrite map_length, seq_length; exact B).
    rewrite (nth_indep _ [] (g 0)) by (rewrite map_length, seq_length; exact B).
    rewrite (map_nth g), seq_nth by exact B. cbn [plus]. unfold g. rewrite in_app_iff. unfold rowof.
    destruct (Nat.eqb_spec (dacc C d i) 0) as [E|E].
    + split; [intros [K|[]]; auto|]. intros (_ & [K|(_ & K & _)]); [auto|congruence].
    + split.
      * intros [K|[K|[]]]; [auto|]. unfold eps_edge in K. injection K as <- <-. auto.
      * intros (_ & [K|(-> & _ & ->)]); [auto|]. right. left. reflexivity.
  - split; [|intros (K & _); lia]. intros H. exfalso. rewrite app_nth2 in H by (rewrite map_length, seq_length; exact B).
    rewrite nth_repeat_nil in H. destruct H.
Qed.
Lemma nfa_of_wf : wf_nfa C ok (nfa_of C d).
Proof.
  destruct nfa_of_shape as (S1 & S2 & S3 & _ & S5). split; [lia|]. split; [lia|]. split; [lia|].
  intros i c t H. apply (nfa_of_edge i c t) in H. destruct H as (B & [H|(-> & E & ->)]).
  - destruct (wfd_in d i c t W H) as (_ & T1 & T2 & _). split; [lia|]. split; [lia|exact T2].
  - specialize (S3 i B). split; [lia|]. split; [lia|]. apply (ok_epsset C ok L).
Qed.
Lemma nfa_of_path : forall q w r, path (nedge (nfa_of C d)) q w r -> q < dst d -> dst d <= r ->
  exists p, path (dedge d) q w p /\ dacc C d p <> 0 /\ r = dst d + dacc C d p - 1.
Proof.
  intros q w r H. induction H as [q|q c t w r H1 H2 H3 IH|q c t x w r H1 H2 H3 H4 IH]; intros Q R.
  - lia.
  - apply nfa_of_edge in H1. destruct H1 as (B & [K|(-> & E & ->)]).
    + destruct (wfd_in d q c t W K) as (_ & _ & _ & K'). congruence.
    + apply path_stuck in H3.
      * destruct H3 as (-> & ->). exists q. split; [apply P_nil|auto].
      * intros c t K. apply nfa_of_edge in K. lia.
  - apply nfa_of_edge in H1. destruct H1 as (B & [K|(-> & E & ->)]).
    + destruct (IH (proj1 (proj2 (wfd_in d q c t W K))) R) as (p & P1 & P2). exists p. split; [eapply P_chr; eauto|exact P2].
    + rewrite (eps_epsset C ok L) in H2. discriminate H2.
Qed.
Lemma path_nfa_of : forall q w r, path (dedge d) q w r -> path (nedge (nfa_of C d)) q w r.
Proof.
  assert (E : forall q c t, dedge d q c t -> nedge (nfa_of C d) q c t).
  { intros q c t H. apply nfa_of_edge. split; [apply (wfd_in d q c t W H)|auto]. }
  intros q w r H. induction H as [q|q c t w r H1 H2 H3 IH|q c t x w r H1 H2 H3 H4 IH].
  - apply P_nil.
  - eapply P_eps; eauto.
  - eapply P_chr; eauto.
Qed.
Theorem nfa_of_lang k w : laccepts C (nfa_of C d) k w <-> dfa_accepts C d w = S k.
Proof.
  destruct nfa_of_shape as (S1 & S2 & S3 & _). unfold laccepts, dfa_accepts. rewrite S1. split.
  - intros (K1 & K2). destruct (nfa_of_path _ _ _ K2 P) as (p & P1 & P2 & P3); [lia|].
    apply (run_path d W D) in P1. rewrite P1. lia.
  - intros H. destruct (dfa_run C d 0 w) as [p|] eqn:E; [|discriminate H].
    pose proof (run_range d W _ _ _ P E) as R. specialize (S3 p R). split; [lia|].
    apply (run_path d W D) in E. apply path_nfa_of in E.
    refine (path_snoc_eps C _ _ _ _ (c_epsset C) (dst d + k) E _ _).
    + apply nfa_of_edge. split; [exact R|]. right. split; [reflexivity|]. split; lia.
    + apply (eps_epsset C ok L).
Qed.
End NfaOf.

Theorem nfa_of_lang0 d k w : wfd d -> det d -> (laccepts C (nfa_of C d) k w <-> dfa_accepts C d w = S k).
Proof.
  intros W D. destruct (Nat.eq_dec (dst d) 0) as [Z|Z]; [|apply nfa_of_lang; try assumption; lia].
  unfold nfa_of. rewrite Z. cbn [Nat.eqb]. split.
  - intros H. exfalso. apply (empty_lang C ok w). exists k. exact H.
  - intros H. exfalso. unfold dfa_accepts in H. destruct (dfa_run C d 0 w) as [r|] eqn:E; [|discriminate H].
    rewrite dacc_range in H; [discriminate H|exact W|lia].
Qed.

(** ** Complement, intersection, difference *)
Lemma act_accepts d w : dfa_accepts C d w = act d 0 w. Proof. reflexivity. Qed.

Theorem negate_ok fuel ff ord a n : single C ok a -> (forall l, Permutation (ord l) l) ->
  nfa_negate C fuel ff ord a = Some n ->
  single C ok n /\ forall w, lang C n w <-> in_codec C w /\ ~ lang C a w.
Proof.
  intros Sa HP H. pose proof Sa as (Wa & Aa). unfold nfa_negate in H.
  destruct (dfa_of C fuel ff ord a) as [d|] eqn:E; [|discriminate H]. cbn [obind] in H.
  destruct (dfa_wf C ok L _ _ _ _ _ Wa HP E) as (Wd & Dd & Pd & Ad).
  assert (WC : wfd (complete C d)).
  { destruct (complete_wfd d Wd) as [K|K]; [exact K|]. destruct Wa as (A1 & _). lia. }
  assert (DC : det (complete C d)) by (apply complete_det; assumption).
  destruct (unarrivable_ok (complete C d) WC DC) as (d1 & E1 & W1 & D1 & P1 & A1 & R1 & L1 & G1); [cbn; lia|].
  rewrite E1 in H. cbn [obind] in H.
  destruct (inactive_ok d1 W1 D1 R1) as (d2 & E2 & W2 & D2 & A2 & _ & _ & L2 & G2).
  rewrite E2 in H. cbn [obind] in H. injection H as <-.
  assert (B1 : forall i, dacc C (complete C d) i <= 1).
  { intros i. destruct (Nat.lt_trichotomy i (dst d)) as [B|[-> | B]].
    - rewrite complete_acc by assumption. destruct (Nat.eqb (dacc C d i) 0); lia.
    - rewrite complete_acc_sink by assumption. lia.
    - rewrite dacc_range; [lia|exact WC|cbn; lia]. }
  assert (B2 : forall i, dacc C d2 i <= 1).
  { intros i. destruct (Nat.lt_ge_cases i (dst d2)) as [B|B]; [|rewrite dacc_range by assumption; lia].
    destruct G2 as (f2 & F2 & _). destruct (F2 i B) as (F3 & F4). specialize (F4 []).
    destruct G1 as (f1 & F1 & _). destruct (F1 _ F3) as (_ & F5). specialize (F5 []).
    unfold act in F4, F5. cbn [dfa_run] in F4, F5. rewrite F4, F5. apply B1. }
  split.
  - destruct (Nat.eq_dec (dst d2) 0) as [Z|Z].
    + unfold nfa_of. rewrite Z. cbn [Nat.eqb]. apply (empty_single C ok).
    + destruct (nfa_of_shape d2) as (S1 & S2 & S3 & S4 & S5); [lia|]. split; [apply nfa_of_wf; try assumption; lia|].
      rewrite (S4 B2), S1. lia.
  - intros w. assert (Q : lang C (nfa_of C d2) w <-> act d2 0 w <> 0).
    { unfold lang. split.
      - intros (k & K). apply nfa_of_lang0 in K; [|exact W2|exact D2]. rewrite act_accepts in K. lia.
      - intros K. exists (act d2 0 w - 1). apply nfa_of_lang0; [exact W2|exact D2|]. rewrite act_accepts. lia. }
    rewrite Q, L2, L1. pose proof (dfa_action C ok L _ _ _ _ _ w Wa HP E) as DA. rewrite act_accepts in DA.
    split.
    + intros K. pose proof (act_codec _ _ _ WC K) as IC. split; [exact IC|]. rewrite complete_act in K by assumption.
      destruct (act d 0 w) as [|k]; [|cbn in K; congruence]. intros (j & J). apply (DA j J).
    + intros (IC & K). rewrite complete_act by assumption. destruct (act d 0 w) as [|k]; [cbn; discriminate|].
      exfalso. apply K. exists k. apply DA.
Qed.

Lemma lang_dec fuel ff ord a d w : wf_nfa C ok a -> (forall l, Permutation (ord l) l) -> dfa_of C fuel ff ord a = Some d ->
  lang C a w \/ ~ lang C a w.
Proof.
  intros W HP H. pose proof (dfa_action C ok L _ _ _ _ _ w W HP H) as DA. destruct (dfa_accepts C d w) as [|k].
  - right. intros (j & J). apply (DA j J).
  - left. exists k. apply DA.
Qed.

Theorem and_ok fuel ff ord a o n : single C ok a -> single C ok o -> (forall l, Permutation (ord l) l) ->
  nfa_and C fuel ff ord a o = Some n ->
  single C ok n /\ forall w, lang C n w <-> lang C a w /\ lang C o w.
Proof.
  intros Sa So HP H. unfold nfa_and in H.
  destruct (nfa_negate C fuel ff ord o) as [o1|] eqn:Eo; [|discriminate H]. cbn [obind] in H.
  destruct (nfa_negate C fuel ff ord a) as [a1|] eqn:Ea; [|discriminate H]. cbn [obind] in H.
  destruct (negate_ok _ _ _ _ _ So HP Eo) as (So1 & Lo). destruct (negate_ok _ _ _ _ _ Sa HP Ea) as (Sa1 & La).
  destruct (negate_ok _ _ _ _ _ (or_single C ok L _ _ Sa1 So1) HP H) as (Sn & Ln).
  split; [exact Sn|]. intros w. rewrite Ln, (or_lang C ok L _ _ _ Sa1 So1), La, Lo.
  assert (DA : lang C a w \/ ~ lang C a w).
  { unfold nfa_negate in Ea. destruct (dfa_of C fuel ff ord a) as [d|] eqn:E; [|discriminate Ea].
    apply (lang_dec _ _ _ _ _ w (proj1 Sa) HP E). }
  assert (DO : lang C o w \/ ~ lang C o w).
  { unfold nfa_negate in Eo. destruct (dfa_of C fuel ff ord o) as [d|] eqn:E; [|discriminate Eo].
    apply (lang_dec _ _ _ _ _ w (proj1 So) HP E). }
  split.
  - intros (IC & K). split; [destruct DA|destruct DO]; tauto.
  - intros (K1 & K2). split; [apply (lang_codec C ok L a w (proj1 Sa) K1)|tauto].
Qed.

Theorem but_ok fuel ff ord a o n : single C ok a -> single C ok o -> (forall l, Permutation (ord l) l) ->
  nfa_but C fuel ff ord a o = Some n ->
  single C ok n /\ forall w, lang C n w <-> lang C a w /\ ~ lang C o w.
Proof.
  intros Sa So HP H. unfold nfa_but in H.
  destruct (nfa_negate C fuel ff ord a) as [a1|] eqn:Ea; [|discriminate H]. cbn [obind] in H.
  destruct (negate_ok _ _ _ _ _ Sa HP Ea) as (Sa1 & La).
  destruct (negate_ok _ _ _ _ _ (or_single C ok L _ _ Sa1 So) HP H) as (Sn & Ln).
  split; [exact Sn|]. intros w. rewrite Ln, (or_lang C ok L _ _ _ Sa1 So), La.
  assert (DA : lang C a w \/ ~ lang C a w).
  { unfold nfa_negate in Ea. destruct (dfa_of C fuel ff ord a) as [d|] eqn:E; [|discriminate Ea].
    apply (lang_dec _ _ _ _ _ w (proj1 Sa) HP E). }
  split.
  - intros (IC & K). split; [destruct DA; tauto|tauto].
  - intros (K1 & K2). split; [apply (lang_codec C ok L a w (proj1 Sa) K1)|tauto].
Qed.

(** ** More fuel never changes a result; the loops end *)
Lemma split_loop_mono : forall f pr r, split_loop C f pr = Some r -> forall f', f <= f' -> split_loop C f' pr = Some r.
Proof.
  induction f as [|f IH]; intros pr r H f' Hf.
  - cbn [split_loop] in H. destruct f' as [|f']; cbn [split_loop]; destruct (find_ij C [] pr 0) as [[i j]|]; try discriminate H; exact H.
  - destruct f' as [|f']; [lia|]. cbn [split_loop] in *. destruct (find_ij C [] pr 0) as [[i j]|]; [|exact H].
    apply (IH _ _ H). lia.
Qed.
Lemma dfa_loop_mono : forall f ff a st m todo r, dfa_loop C f ff a st m todo = Some r ->
  forall f' ff', f <= f' -> ff <= ff' -> dfa_loop C f' ff' a st m todo = Some r.
Proof.
  induction f as [|f IH]; intros ff a st m todo r H f' ff' Hf Hff.
  - destruct todo as [|x todo]; cbn [dfa_loop] in H; [|discriminate H]. destruct f'; cbn [dfa_loop]; exact H.
  - destruct todo as [|x todo]; [destruct f'; exact H|]. destruct f' as [|f']; [lia|].
    rewrite dfa_loop_step in *. unfold es_of, follow in *.
    destruct (split_loop C ff (follow_init C a x)) as [fo|] eqn:E; [|discriminate H].
    rewrite (split_loop_mono _ _ _ E ff' Hff). cbn [obind] in *.
    destruct (close_all C a fo) as [es|]; [|discriminate H]. cbn [obind] in *. apply (IH _ _ _ _ _ _ H); lia.
Qed.
Lemma dfa_of_mono f ff ord a d : dfa_of C f ff ord a = Some d ->
  forall f' ff', f <= f' -> ff <= ff' -> dfa_of C f' ff' ord a = Some d.
Proof.
  unfold dfa_of. intros H f' ff' Hf Hff. destruct (closure C a (setb (zeros (nst a)) 0)) as [start|]; [|discriminate H].
  cbn [obind] in *. destruct (dfa_loop C f ff a [] [] [start]) as [[st m]|] eqn:E; [|discriminate H].
  rewrite (dfa_loop_mono _ _ _ _ _ _ _ E f' ff' Hf Hff). exact H.
Qed.
Theorem dfa_of_ends a ord : wf_nfa C ok a -> exists d F, forall f ff, F <= f -> F <= ff -> dfa_of C f ff ord a = Some d.
Proof.
  intros W. destruct (dfa_of_total C ok L a ord W) as (FF & H). destruct (H FF (le_n _)) as (F & K).
  specialize (K F (le_n _)). destruct (dfa_of C F FF ord a) as [d|] eqn:E; [|congruence].
  exists d, (Nat.max F FF). intros f ff H1 H2. apply (dfa_of_mono _ _ _ _ _ E); lia.
Qed.
Theorem negate_ends a ord : single C ok a -> (forall l, Permutation (ord l) l) ->
  exists n F, forall f ff, F <= f -> F <= ff -> nfa_negate C f ff ord a = Some n.
Proof.
  intros (W & _) HP. destruct (dfa_of_ends a ord W) as (d & F & H).
  pose proof (H F F (le_n _) (le_n _)) as E.
  destruct (dfa_wf C ok L _ _ _ _ _ W HP E) as (Wd & Dd & Pd & Ad).
  assert (WC : wfd (complete C d)).
  { destruct (complete_wfd d Wd) as [K|K]; [exact K|]. destruct W as (_ & _ & A1 & _). lia. }
  assert (DC : det (complete C d)) by (apply complete_det; assumption).
  destruct (unarrivable_ok (complete C d) WC DC) as (d1 & E1 & W1 & D1 & P1 & A1 & R1 & L1 & G1); [cbn; lia|].
  destruct (inactive_ok d1 W1 D1 R1) as (d2 & E2 & _).
  exists (nfa_of C d2), F. intros f ff H1 H2. unfold nfa_negate. rewrite (H f ff H1 H2). cbn [obind].
  rewrite E1. cbn [obind]. rewrite E2. reflexivity.
Qed.
Theorem and_ends a o ord : single C ok a -> single C ok o -> (forall l, Permutation (ord l) l) ->
  exists n F, forall f ff, F <= f -> F <= ff -> nfa_and C f ff ord a o = Some n.
Proof.
  intros Sa So HP. destruct (negate_ends a ord Sa HP) as (a1 & F1 & H1). destruct (negate_ends o ord So HP) as (o1 & F2 & H2).
  assert (S1 : single C ok a1) by (apply (negate_ok F1 F1 ord a a1 Sa HP); apply H1; lia).
  assert (S2 : single C ok o1) by (apply (negate_ok F2 F2 ord o o1 So HP); apply H2; lia).
  destruct (negate_ends (nfa_or C a1 o1) ord (or_single C ok L _ _ S1 S2) HP) as (n & F3 & H3).
  exists n, (F1 + F2 + F3). intros f ff K1 K2. unfold nfa_and. rewrite H2, H1 by lia. cbn [obind]. apply H3; lia.
Qed.
Theorem but_ends a o ord : single C ok a -> single C ok o -> (forall l, Permutation (ord l) l) ->
  exists n F, forall f ff, F <= f -> F <= ff -> nfa_but C f ff ord a o = Some n.
Proof.
  intros Sa So HP. destruct (negate_ends a ord Sa HP) as (a1 & F1 & H1).
  assert (S1 : single C ok a1) by (apply (negate_ok F1 F1 ord a a1 Sa HP); apply H1; lia).
  destruct (negate_ends (nfa_or C a1 o) ord (or_single C ok L _ _ S1 So) HP) as (n & F3 & H3).
  exists n, (F1 + F3). intros f ff K1 K2. unfold nfa_but. rewrite H1 by lia. cbn [obind]. apply H3; lia.
Qed.
End O.
