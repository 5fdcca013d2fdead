(** Automata produced by the operations have no empty edges and are layered,
    so that the diagnoses are exact on them. *)
From Coq Require Import List NArith ZArith Lia Bool PeanoNat Permutation ZifyBool ZifyN ZifyNat.
From Verif Require Import Base AutomatonModel AutomatonSpec CsetLaws ThompsonProofs ReachProofs SubsetProofs DfaProofs DfaOpsProofs MinimizeProofs NfaDiagModel NfaDiagProofs.
Import ListNotations.

Section B.
Variable C : cset.
Variable ok : car C -> Prop.
Variable L : cs_laws C ok.
Notation cs := (car C).
Notation row := (list (cs * nat)).
Notation pentry := (cs * list bool)%type.
Notation wf := (wf_nfa C ok).
Notation wfd := (wf_dfa C ok).
Notation nedge := (AutomatonSpec.nedge C).
Notation dedge := (AutomatonSpec.dedge C).
Notation layered := (layered C).
Notation avoid := (avoid C).

(** ** Layering *)
Lemma block_avoid (a b : nfa C) k :
  (forall p c t, nedge b p c t -> k <= t < k + nst a -> (k <= p < k + nst a /\ nedge a (p - k) c (t - k)) \/ t = k) ->
  forall q p, avoid b q p -> k <= p < k + nst a -> k <= q -> avoid a (q - k) (p - k).
Proof.
  intros H q p A. induction A as [N|p c t A IH E N]; intros B Q.
  - replace (0 - k) with 0 by lia. constructor. lia.
  - destruct (H p c t E B) as [(B1 & E1)| ->].
    + apply (avoid_step C a (q - k) (p - k) c (t - k)); [apply IH; assumption|exact E1|lia].
    + rewrite Nat.sub_diag. constructor. lia.
Qed.
Lemma avoid_start (a : nfa C) p : ~ avoid a 0 p.
Proof. intros A. induction A as [N|p c t A IH E N]; [congruence|exact IH]. Qed.
(** All character edges into the block [k, k + nst a) are those of [a], the
    others enter at [k]. *)
Lemma block_layered (a b : nfa C) k p c q : layered a ->
  (forall p c t, nedge b p c t -> k <= t < k + nst a -> (k <= p < k + nst a /\ nedge a (p - k) c (t - k)) \/ t = k) ->
  k <= p < k + nst a -> k <= q < k + nst a -> nedge a (p - k) c (q - k) -> c_eps C c = false ->
  (exists r c', nedge b r c' q /\ c_eps C c' = true) -> ~ avoid b q p.
Proof.
  intros LY H Bp Bq E Ec (r & c' & Er & Ec') A.
  apply (block_avoid a b k H q p) in A; [|exact Bp|lia].
  destruct (H r c' q Er Bq) as [(B1 & E1)| ->].
  - apply (LY (p - k) c (q - k) E Ec); [|exact A]. exists (r - k), c'. auto.
  - rewrite Nat.sub_diag in A. exact (avoid_start a _ A).
Qed.

Lemma or_layered a o : single C ok a -> single C ok o -> layered a -> layered o -> layered (nfa_or C a o).
Proof.
  intros (Wa & Sa) (Wo & So) La Lo p c q E Ec EE. pose proof Wa as (A1 & A2 & A3 & A4). pose proof Wo as (O1 & O2 & O3 & O4).
  apply (or_edge C ok a o p c q Wa Wo) in E. destruct E as [(_ & -> & _)|[(E1 & E2 & E3)|[(E1 & E2 & E3)|(_ & -> & _)]]].
  - rewrite (eps_epsset C ok L) in Ec. discriminate Ec.
  - pose proof (wf_in C ok a _ _ _ Wa E3) as (B1 & B2 & _).
    apply (block_layered a _ 1 p c q La); try assumption; try lia.
    intros p' c' t' K B. apply (or_edge C ok a o p' c' t' Wa Wo) in K.
    destruct K as [(-> & -> & [-> | ->])|[(K1 & K2 & K3)|[(K1 & K2 & K3)|([-> | ->] & -> & ->)]]]; try lia.
    left. pose proof (wf_in C ok a _ _ _ Wa K3). split; [lia|exact K3].
  - pose proof (wf_in C ok o _ _ _ Wo E3) as (B1 & B2 & _).
    apply (block_layered o _ (S (nst a)) p c q Lo); try assumption; try lia.
    intros p' c' t' K B. apply (or_edge C ok a o p' c' t' Wa Wo) in K.
    destruct K as [(-> & -> & [-> | ->])|[(K1 & K2 & K3)|[(K1 & K2 & K3)|([-> | ->] & -> & ->)]]]; try lia.
    + pose proof (wf_in C ok a _ _ _ Wa K3). lia.
    + left. pose proof (wf_in C ok o _ _ _ Wo K3). split; [lia|exact K3].
  - rewrite (eps_epsset C ok L) in Ec. discriminate Ec.
Qed.
Lemma concat_layered a o : single C ok a -> single C ok o -> layered a -> layered o -> layered (nfa_concat C a o).
Proof.
  intros (Wa & Sa) (Wo & So) La Lo p c q E Ec EE. pose proof Wa as (A1 & A2 & A3 & A4). pose proof Wo as (O1 & O2 & O3 & O4).
  apply (concat_edge C ok a o p c q Wa Wo) in E. destruct E as [E|[(_ & -> & _)|(E1 & E2 & E3)]].
  - pose proof (wf_in C ok a _ _ _ Wa E) as (B1 & B2 & _).
    apply (block_layered a _ 0 p c q La); try assumption; try lia; [|rewrite !Nat.sub_0_r; exact E].
    intros p' c' t' K B. apply (concat_edge C ok a o p' c' t' Wa Wo) in K.
    destruct K as [K|[(_ & -> & ->)|(K1 & K2 & K3)]]; try lia.
    left. pose proof (wf_in C ok a _ _ _ Wa K). rewrite !Nat.sub_0_r. split; [lia|exact K].
  - rewrite (eps_epsset C ok L) in Ec. discriminate Ec.
  - pose proof (wf_in C ok o _ _ _ Wo E3) as (B1 & B2 & _).
    apply (block_layered o _ (nst a) p c q Lo); try assumption; try lia.
    intros p' c' t' K B. apply (concat_edge C ok a o p' c' t' Wa Wo) in K.
    destruct K as [K|[(_ & -> & ->)|(K1 & K2 & K3)]]; try lia.
    + pose proof (wf_in C ok a _ _ _ Wa K). lia.
    + left. pose proof (wf_in C ok o _ _ _ Wo K3). split; [lia|exact K3].
Qed.
Lemma star_layered a : single C ok a -> layered a -> layered (nfa_star C a).
Proof.
  intros (Wa & Sa) La p c q E Ec EE. pose proof Wa as (A1 & A2 & A3 & A4).
  apply (star_edge C ok a p c q Wa) in E. destruct E as [E|[(_ & -> & _)|(_ & -> & _)]].
  - pose proof (wf_in C ok a _ _ _ Wa E) as (B1 & B2 & _).
    apply (block_layered a _ 0 p c q La); try assumption; try lia; [|rewrite !Nat.sub_0_r; exact E].
    intros p' c' t' K B. apply (star_edge C ok a p' c' t' Wa) in K.
    destruct K as [K|[(_ & -> & ->)|(_ & -> & ->)]]; try lia.
    left. pose proof (wf_in C ok a _ _ _ Wa K). rewrite !Nat.sub_0_r. split; [lia|exact K].
  - rewrite (eps_epsset C ok L) in Ec. discriminate Ec.
  - rewrite (eps_epsset C ok L) in Ec. discriminate Ec.
Qed.
Lemma set_edge s p c q : nedge (nfa_set C s) p c q <-> p = 0 /\ c = s /\ q = 1.
Proof.
  unfold AutomatonSpec.nedge, nfa_set. cbn [nrules]. destruct p as [|[|p]]; cbn.
  - split; [intros [H|[]]; injection H as <- <-; auto|intros (_ & -> & ->); auto].
  - split; [intros []|lia].
  - split; [destruct p; intros []|lia].
Qed.
Lemma no_edges (a : nfa C) p c q : nrules a = [[]; []] \/ nrules a = [[]] -> ~ nedge a p c q.
Proof. unfold AutomatonSpec.nedge. intros [-> | ->] H; destruct p as [|[|[|p]]]; cbn in H; exact H. Qed.
Lemma set_layered s : layered (nfa_set C s).
Proof. intros p c q E Ec (r & c' & Er & Ec'). apply set_edge in E, Er. destruct E as (_ & -> & _), Er as (_ & -> & _). congruence. Qed.
Lemma empty_layered : layered (nfa_empty C).
Proof. intros p c q E. exfalso. apply (no_edges (nfa_empty C) p c q); [left; reflexivity|exact E]. Qed.
Lemma emptyWord_layered : layered (nfa_emptyWord C).
Proof. intros p c q E. exfalso. apply (no_edges (nfa_emptyWord C) p c q); [right; reflexivity|exact E]. Qed.
Lemma nfa_of_layered d : wfd d -> layered (nfa_of C d).
Proof.
  intros W p c q E Ec (r & c' & Er & Ec'). destruct (Nat.eq_dec (dst d) 0) as [Z|Z].
  { exfalso. unfold nfa_of in E. rewrite Z in E. cbn [Nat.eqb] in E. apply (no_edges (nfa_empty C) p c q); [left; reflexivity|exact E]. }
  apply (nfa_of_edge C d ltac:(lia)) in E, Er.
  destruct E as (_ & [E|(-> & _)]); [|rewrite (eps_epsset C ok L) in Ec; discriminate Ec].
  destruct Er as (_ & [Er|(_ & Nz & ->)]).
  - apply (wfd_in C ok d) in Er; [|exact W]. destruct Er as (_ & _ & _ & Er). congruence.
  - apply (wfd_in C ok d) in E; [|exact W]. lia.
Qed.

(** ** No empty edges *)
Notation nee := (no_empty_edge C).
Lemma or_nee a o : wf a -> wf o -> nee a -> nee o -> nee (nfa_or C a o).
Proof.
  intros Wa Wo Ta To p c q E Ec. apply (or_edge C ok a o p c q Wa Wo) in E.
  destruct E as [(_ & -> & _)|[(E1 & E2 & E3)|[(E1 & E2 & E3)|(_ & -> & _)]]];
    try (rewrite (eps_epsset C ok L) in Ec; discriminate Ec); [apply (Ta _ _ _ E3 Ec)|apply (To _ _ _ E3 Ec)].
Qed.
Lemma concat_nee a o : wf a -> wf o -> nee a -> nee o -> nee (nfa_concat C a o).
Proof.
  intros Wa Wo Ta To p c q E Ec. apply (concat_edge C ok a o p c q Wa Wo) in E.
  destruct E as [E|[(_ & -> & _)|(E1 & E2 & E3)]];
    try (rewrite (eps_epsset C ok L) in Ec; discriminate Ec); [apply (Ta _ _ _ E Ec)|apply (To _ _ _ E3 Ec)].
Qed.
Lemma star_nee a : wf a -> nee a -> nee (nfa_star C a).
Proof.
  intros Wa Ta p c q E Ec. apply (star_edge C ok a p c q Wa) in E.
  destruct E as [E|[(_ & -> & _)|(_ & -> & _)]];
    try (rewrite (eps_epsset C ok L) in Ec; discriminate Ec); apply (Ta _ _ _ E Ec).
Qed.
Lemma set_nee s x : c_acc C s x = true -> nee (nfa_set C s).
Proof. intros H p c q E Ec. apply set_edge in E. destruct E as (_ & -> & _). exists x. exact H. Qed.
Lemma nfa_of_nee d : wfd d -> tight_edges C d -> nee (nfa_of C d).
Proof.
  intros W T p c q E Ec. destruct (Nat.eq_dec (dst d) 0) as [Z|Z].
  { exfalso. unfold nfa_of in E. rewrite Z in E. cbn [Nat.eqb] in E. apply (no_edges (nfa_empty C) p c q); [left; reflexivity|exact E]. }
  apply (nfa_of_edge C d ltac:(lia)) in E.
  destruct E as (_ & [E|(-> & _)]); [|rewrite (eps_epsset C ok L) in Ec; discriminate Ec].
  apply (inhabited C ok L); [apply (wfd_in C ok d) in E; [apply E|exact W]|apply (T p c q E)].
Qed.

(** The subset construction. *)
Definition tightp (p : pentry) : Prop := c_eps C (fst p) = false -> c_isempty C (fst p) = false.
Lemma split_loop_tight : forall fuel pr r, Forall tightp pr -> split_loop C fuel pr = Some r -> Forall tightp r.
Proof.
  induction fuel as [|f IH]; intros pr r HT H; cbn [split_loop] in H;
    pose proof (find_ij_spec C pr [] 0 eq_refl (FOP_nil _)) as S; cbn [app] in S.
  - destruct (find_ij C [] pr 0) as [[i j]|]; [discriminate H|]. injection H as <-. exact HT.
  - destruct (find_ij C [] pr 0) as [[i j]|]; [|injection H as <-; exact HT].
    destruct S as (A & pj & B & pi & D & -> & -> & -> & HO). apply IH in H; [exact H|].
    apply (Permutation_Forall (Permutation_sym (split_perm C (c_epsset C, []) A pj B pi D))).
    apply overlap_inv in HO. destruct HO as (_ & _ & HO).
    rewrite Forall_app in HT. destruct HT as (T1 & T2). inversion T2 as [|? ? _ T3]; subst.
    rewrite Forall_app in T3. destruct T3 as (T3 & T4). inversion T4 as [|? ? _ T5]; subst.
    constructor; [intros _; exact HO|]. rewrite !Forall_app. split; [|auto].
    unfold extra. apply Forall_forall. intros e He. apply filter_In in He. intros _. apply negb_true_iff. apply He.
Qed.
Lemma close_all_labels a : forall l es c n, close_all C a l = Some es -> In (c, n) es -> exists v, In (c, v) l /\ c_eps C c = false.
Proof.
  induction l as [|[c' v'] l IH]; intros es c n H K; cbn [close_all] in H.
  - injection H as <-. destruct K.
  - destruct (c_eps C c') eqn:E.
    + destruct (IH _ _ _ H K) as (v & V1 & V2). exists v. split; [right; exact V1|exact V2].
    + destruct (closure C a v') as [m|]; [|discriminate H]. cbn [obind] in H.
      destruct (close_all C a l) as [r'|]; [|discriminate H]. cbn [obind] in H. injection H as <-.
      destruct K as [K|K]; [injection K as <- <-; exists v'; split; [left; reflexivity|exact E]|].
      destruct (IH _ _ _ eq_refl K) as (v & V1 & V2). exists v. split; [right; exact V1|exact V2].
Qed.
Lemma isempty_false c x : ok c -> c_acc C c x = true -> c_isempty C c = false.
Proof.
  intros O H. destruct (c_isempty C c) eqn:E; [|reflexivity]. exfalso.
  pose proof (proj1 (l_empty C ok L c O) E x) as K. congruence.
Qed.
Lemma es_of_tight ff a s es : wf a -> nee a -> es_of C ff a s = Some es -> forall c n, In (c, n) es -> c_isempty C c = false.
Proof.
  intros W T H c n K. unfold es_of in H. destruct (follow C ff a s) as [fo|] eqn:F; [|discriminate H]. cbn [obind] in H.
  destruct (close_all_labels a _ _ _ _ H K) as (v & V1 & V2). unfold follow in F. apply split_loop_tight in F.
  - rewrite Forall_forall in F. apply (F _ V1). exact V2.
  - unfold follow_init. apply Forall_app. split.
    + apply Forall_forall. intros e He. apply repeat_spec in He. subst e. intros E. cbn [fst] in E.
      rewrite (eps_epsset C ok L) in E. discriminate E.
    + apply Forall_forall. intros e He. apply in_flat_map in He. destruct He as (i & _ & He). apply in_map_iff in He.
      destruct He as ([c' t'] & <- & He). intros E. cbn [fst] in *.
      destruct (T i c' t' He E) as (x & X). apply (isempty_false c' x); [|exact X]. apply (wf_in C ok a i c' t' W He).
Qed.
Lemma dfa_loop_tight a : wf a -> nee a -> forall fuel ff st m todo st' m',
  (forall s es c n, In (s, es) m -> In (c, n) es -> c_isempty C c = false) ->
  dfa_loop C fuel ff a st m todo = Some (st', m') ->
  forall s es c n, In (s, es) m' -> In (c, n) es -> c_isempty C c = false.
Proof.
  intros W T. induction fuel as [|f IH]; intros ff st m todo st' m' I H.
  - destruct todo; cbn [dfa_loop] in H; [injection H as <- <-; exact I|discriminate H].
  - destruct todo as [|x todo]; [cbn [dfa_loop] in H; injection H as <- <-; exact I|].
    rewrite dfa_loop_step in H. cbn zeta in H. destruct (es_of C ff a x) as [es|] eqn:E; [|discriminate H]. cbn [obind] in H.
    refine (IH _ _ _ _ _ _ _ H). intros s es' c n K1 K2. apply add_rules_In in K1.
    destruct K1 as [K1|(-> & [-> | (l0 & K1 & ->)])].
    + apply (I _ _ _ _ K1 K2).
    + apply (es_of_tight ff a x es W T E c n K2).
    + apply in_app_iff in K2. destruct K2 as [K2|K2]; [apply (I _ _ _ _ K1 K2)|apply (es_of_tight ff a x es W T E c n K2)].
Qed.
Lemma fold_rows {B} (g : B -> nat) (h : B -> row) : forall (m : list B) (init : list row) i c t,
  In (c, t) (nth i (fold_left (fun ru p => upd ru (g p) (fun r => r ++ h p)) m init) []) ->
  In (c, t) (nth i init []) \/ exists p, In p m /\ In (c, t) (h p).
Proof.
  induction m as [|p m IH]; intros init i c t H; cbn [fold_left] in H; [auto|].
  apply IH in H. destruct H as [H|(p' & H1 & H2)]; [|right; exists p'; split; [right; exact H1|exact H2]].
  rewrite upd_nth in H. destruct ((i =? g p) && (g p <? length init)); [|auto].
  apply in_app_iff in H. destruct H as [H|H]; [|right; exists p; split; [left; reflexivity|exact H]].
  left. destruct (Nat.eq_dec i (g p)) as [->|N]; [exact H|exact H].
Qed.
Theorem dfa_of_tight fuel ff ord a d : wf a -> nee a -> dfa_of C fuel ff ord a = Some d -> tight_edges C d.
Proof.
  intros W T H. unfold dfa_of in H. destruct (closure C a (setb (zeros (nst a)) 0)) as [start|]; [|discriminate H]. cbn [obind] in H.
  destruct (dfa_loop C fuel ff a [] [] [start]) as [[states m]|] eqn:E; [|discriminate H]. cbn [obind] in H.
  pose proof (dfa_loop_tight a W T _ _ _ _ _ _ _ (fun s es c n (K : In (s, es) []) => match K with end) E) as M.
  injection H as <-. intros q c t K. unfold AutomatonSpec.dedge in K. cbn [drules] in K.
  apply (fold_rows (fun p => lookup_num (fst p) _) (fun p => map (fun e => (fst e, lookup_num (snd e) _)) (snd p))) in K.
  destruct K as [K|(p & K1 & K2)]; [rewrite nth_repeat_nil in K; destruct K|].
  apply in_map_iff in K2. destruct K2 as ([c' n] & K2 & K3). injection K2 as <- _. destruct p as [s es]. apply (M s es c' n K1 K3).
Qed.

(** Completion, elimination and minimisation. *)
Lemma complete_tight d : wfd d -> tight_edges C d -> tight_edges C (complete C d).
Proof.
  intros W T q c t K. unfold AutomatonSpec.dedge, complete in K. cbn [drules] in K.
  set (h := fun r : row => if c_isempty C (missing C r) then r else r ++ [(missing C r, dst d)]) in K.
  assert (F : c_isempty C (c_full C) = false).
  { destruct (l_full C ok L) as (F1 & _ & F2). apply (isempty_false (c_full C) 0%N F1). rewrite F2. apply N.ltb_lt, (l_size C ok L). }
  assert (G : forall r, (forall c t, In (c, t) r -> c_isempty C c = false) -> In (c, t) (h r) -> c_isempty C c = false).
  { intros r Hr Hh. unfold h in Hh. destruct (c_isempty C (missing C r)) eqn:E; [apply (Hr c t Hh)|].
    apply in_app_iff in Hh. destruct Hh as [Hh|[Hh|[]]]; [apply (Hr c t Hh)|]. injection Hh as <- _. exact E. }
  destruct (Nat.lt_ge_cases q (S (length (drules d)))) as [B|B].
  2:{ rewrite nth_overflow in K; [destruct K|]. rewrite map_length, app_length. cbn. lia. }
  rewrite (nth_indep _ [] (h [])) in K by (rewrite map_length, app_length; cbn; lia). rewrite (map_nth h) in K.
  revert K. apply G. intros c0 t0 K0. destruct (Nat.lt_ge_cases q (length (drules d))) as [B'|B'].
  - rewrite app_nth1 in K0 by exact B'. apply (T q c0 t0 K0).
  - rewrite app_nth2 in K0 by exact B'. replace (q - length (drules d)) with 0 in K0 by lia.
    destruct K0 as [K0|[]]. injection K0 as <- _. exact F.
Qed.
Lemma negate_nee fuel ff ord a n : single C ok a -> (forall l, Permutation (ord l) l) -> nee a ->
  nfa_negate C fuel ff ord a = Some n -> nee n /\ layered n.
Proof.
  intros Sa HP T H. pose proof Sa as (Wa & Aa). unfold nfa_negate in H.
  destruct (dfa_of C fuel ff ord a) as [d|] eqn:E; [|discriminate H]. cbn [obind] in H.
  destruct (dfa_wf C ok L _ _ _ _ _ Wa HP E) as (Wd & Dd & Pd & Ad).
  assert (WC : wfd (complete C d)).
  { destruct (complete_wfd C ok L d Wd) as [K|K]; [exact K|]. destruct Wa as (A1 & _). lia. }
  pose proof (complete_tight d Wd (dfa_of_tight _ _ _ _ _ Wa T E)) as TC.
  destruct (unarrivable_some C ok _ WC ltac:(cbn; lia)) as (s1 & F1 & _). rewrite F1 in H. cbn [obind] in H.
  destruct (inactive_some C (filterStates C s1 (complete C d))) as (s2 & F2). rewrite F2 in H. cbn [obind] in H. injection H as <-.
  assert (W1 : wfd (filterStates C s1 (complete C d))) by (apply (filter_wfd C ok); exact WC).
  assert (W2 : wfd (filterStates C s2 (filterStates C s1 (complete C d)))) by (apply (filter_wfd C ok); exact W1).
  split; [|apply nfa_of_layered; exact W2]. apply nfa_of_nee; [exact W2|]. apply (filter_tight C ok); [exact W1|]. apply (filter_tight C ok); assumption.
Qed.
Lemma minimize_wf d d' : wfd d -> deterministic C d -> 0 < dst d -> minimize C d = Some d' -> wfd d' /\ tight_edges C d' /\ dactions d' = dactions d.
Proof.
  intros W D P H. rewrite minimize_unfold in H.
  destruct (trim_ok C ok d W D P) as (d2 & T & W2 & D2 & A2 & _). rewrite T in H. cbn [obind] in H.
  destruct (Nat.eqb_spec (dst d2) 0) as [Z|Z]; [discriminate H|].
  assert (P2 : 0 < dst d2) by lia. destruct (min_loop_all C ok L d2 W2 D2 P2) as (groups & k & M1 & M2 & M3 & _). rewrite M1 in H. cbn [obind] in H.
  pose proof (quot_wfd C ok L d2 W2 P2 groups k M2 M3) as WQ. unfold trim in H.
  pose proof (quot_tight C ok L d2 W2 P2 groups k M2 M3) as TQ.
  destruct (unarrivable_some C ok _ WQ M3) as (s1 & F1 & _). rewrite F1 in H. cbn [obind] in H.
  destruct (inactive_some C (filterStates C s1 (quotient C d2 groups k))) as (s2 & F2). rewrite F2 in H. injection H as <-.
  assert (W1 : wfd (filterStates C s1 (quotient C d2 groups k))) by (apply (filter_wfd C ok); exact WQ).
  split; [apply (filter_wfd C ok); exact W1|]. split; [|exact A2].
  apply (filter_tight C ok); [exact W1|]. apply (filter_tight C ok); assumption.
Qed.
End B.
