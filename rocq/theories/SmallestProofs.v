(** Minimisation never gives more states than needed. *)
From Coq Require Import List NArith Lia Bool PeanoNat ZifyBool ZifyN ZifyNat Permutation.
From Verif Require Import Base AutomatonModel AutomatonSpec CsetLaws ThompsonProofs ReachProofs SubsetProofs DfaProofs DfaOpsProofs MinimizeProofs.
Import ListNotations.

Lemma filter_shorter {A} (f : A -> bool) l : length (filter f l) <= length l.
Proof. induction l as [|x l IH]; [apply le_n|]. cbn [filter]. destruct (f x); cbn [length]; lia. Qed.

Section M.
Variable C : cset.
Variable ok : car C -> Prop.
Hypothesis L : cs_laws C ok.
Notation wfd := (wf_dfa C ok).
Notation det := (deterministic C).
Notation act := (DfaOpsProofs.act C).

(** Groups that some state is in. *)
Definition taken (d : dfa C) (groups : list nat) (g : nat) : Prop := exists i, i < dst d /\ nth i groups 0 = g.
Lemma quot_edge_taken d groups k g c t : wfd d -> 0 < dst d -> result C d groups k -> 0 < k -> dedge C (quotient C d groups k) g c t -> taken d groups t.
Proof.
  intros W P R K H. destruct (quot_in C d P groups k R K g c t H) as (_ & I).
  destruct (merge_ok C ok L d P k _ (base_rows_ok C ok d W P groups k R K g)) as (_ & M & _). destruct (M c t I) as (_ & O & _ & (z & Z & ->) & X).
  destruct (inhabited C ok L c O Z) as (x & A). apply X in A. destruct A as (c' & B & _). apply (base_in C d P groups k R K) in B.
  destruct B as (i & t' & _ & _ & E & ->). exists t'. split; [apply (wfd_in C ok d i c' t' W E)|reflexivity].
Qed.
Lemma reach_taken d groups k : wfd d -> 0 < dst d -> result C d groups k -> 0 < k -> forall p q, reach C (fun _ => true) (drules (quotient C d groups k)) p q -> taken d groups p -> taken d groups q.
Proof.
  intros W P R K p q H. induction H as [p|p c t q I _ _ IH]; [auto|]. intros _. apply IH. exact (quot_edge_taken d groups k p c t W P R K I).
Qed.
Lemma arrive_reach d : wfd d -> 0 < dst d -> exists s, elim_unarrivable C d = Some (filterStates C s d) /\ forall q, getb s q = true -> reach C (fun _ => true) (drules d) 0 q.
Proof.
  intros W P. unfold elim_unarrivable. rewrite arrive_loop_gen.
  set (s0 := setb (zeros (dst d)) 0).
  assert (L0 : length s0 = dst d) by (unfold s0; rewrite setb_length; apply zeros_length).
  assert (G0 : forall q, getb s0 q = true <-> q = 0).
  { intros q. unfold s0. rewrite getb_setb by (rewrite zeros_length; exact P). rewrite getb_zeros, orb_false_r. apply Nat.eqb_eq. }
  destruct (loop_gen_ok C (fun _ => true) (dst d) (drules d) s0 s0 [0]) as (s & R1 & R2 & R3).
  - intros i c t H _. rewrite L0. apply (wfd_in C ok d i c t W H).
  - assert (Z : S (cz s0) = cz (zeros (dst d))) by (apply cz_setb; [rewrite zeros_length; exact P|apply getb_zeros]).
    pose proof (ones_cz (zeros (dst d))) as O. rewrite zeros_length in O. cbn. lia.
  - auto.
  - intros q Hq. exists q. split; [exact Hq|constructor].
  - intros q [<-|[]]. apply G0. reflexivity.
  - intros q c t Hq _ _. left. left. apply G0 in Hq. auto.
  - rewrite R1. exists s. split; [reflexivity|]. intros q Q. apply R3 in Q. destruct Q as (p & P0 & Q). apply G0 in P0. subst p. exact Q.
Qed.

Theorem never_larger d d' e : wfd d -> det d -> 0 < dst d -> tight_edges C d -> minimize C d = Some d' ->
  wfd e -> 0 < dst e -> (forall w, dfa_accepts C e w = dfa_accepts C d w) -> dst d' <= dst e.
Proof.
  intros W D P TE M We Pe Q. rewrite minimize_unfold in M.
  destruct (trim_ok C ok d W D P) as (d2 & T & W2 & D2 & A2 & AC & RE & LA & EM & TI & DI). rewrite T in M. cbn [obind] in M.
  destruct (Nat.eqb_spec (dst d2) 0) as [Z|Z]; [discriminate M|]. assert (P2 : 0 < dst d2) by lia. specialize (RE P2). specialize (TI TE).
  destruct (min_loop_all C ok L d2 W2 D2 P2) as (groups & k & M1 & M2 & M3 & _). rewrite M1 in M. cbn [obind] in M.
  pose proof (quot_wfd C ok L d2 W2 P2 groups k M2 M3) as WQ. unfold trim in M.
  destruct (arrive_reach _ WQ M3) as (s1 & F1 & F1'). rewrite F1 in M. cbn [obind] in M.
  destruct (inactive_some C (filterStates C s1 (quotient C d2 groups k))) as (s2 & F2). rewrite F2 in M. injection M as <-.
  pose proof (active_words C ok L d2 W2 D2 TI AC) as ND.
  (** the states left over are taken groups *)
  assert (LE : dst (filterStates C s2 (filterStates C s1 (quotient C d2 groups k))) <= length (kept s1 k)).
  { cbn [filterStates dst]. unfold kept at 1. etransitivity; [apply filter_shorter|]. rewrite seq_length. reflexivity. }
  etransitivity; [exact LE|]. clear LE F2.
  assert (TK : forall g, In g (kept s1 k) -> taken d2 groups g).
  { intros g G. unfold kept in G. apply filter_In in G. destruct G as (_ & G). apply F1' in G. apply (reach_taken d2 groups k W2 P2 M2 M3 _ _ G). exists 0. split; [exact P2|apply (rs_start _ _ _ _ M2)]. }
  assert (NDK : NoDup (kept s1 k)) by (unfold kept; apply NoDup_filter, seq_NoDup).
  revert TK NDK. generalize (kept s1 k). clear F1 F1' s1 s2.
  assert (BE : forall i, i < dst d2 -> exists r, r < dst e /\ forall w, act e r w = act d2 i w).
  { intros i I. destruct (reach_word C ok L d2 0 i W2 D2 TI (RE i I)) as (u & U). destruct (ND i I) as (v & V).
    assert (H : forall w, act e 0 (u ++ w) = act d2 i w).
    { intros w. change (act e 0 (u ++ w)) with (dfa_accepts C e (u ++ w)). rewrite Q. change (dfa_accepts C d (u ++ w)) with (act d 0 (u ++ w)). rewrite <- LA. unfold DfaOpsProofs.act. rewrite run_app, U. reflexivity. }
    destruct (dfa_run C e 0 u) as [r|] eqn:Er.
    - exists r. split; [apply (run_range C ok e We u 0 r Pe Er)|]. intros w. rewrite <- H. unfold DfaOpsProofs.act. rewrite run_app, Er. reflexivity.
    - exfalso. apply V. rewrite <- H. unfold DfaOpsProofs.act. rewrite run_app, Er. reflexivity. }
  intros l TK ND'.
  assert (X : exists m, length m = length l /\ NoDup m /\ forall r, In r m -> r < dst e /\ exists g i, In g l /\ i < dst d2 /\ nth i groups 0 = g /\ forall w, act e r w = act d2 i w).
  { clear Z. induction l as [|g l IH]; [exists []; split; [reflexivity|]; split; [constructor|intros r []]|].
    inversion ND' as [|? ? N1 N2]. subst. destruct IH as (m & E1 & E2 & E3); [intros h H; apply TK; right; exact H|exact N2|].
    destruct (TK g (or_introl eq_refl)) as (i & I & G). destruct (BE i I) as (r & R1 & R2). exists (r :: m). split; [cbn; lia|]. split.
    - constructor; [|exact E2]. intros K. destruct (E3 r K) as (_ & h & j & H1 & H2 & H3 & H4). apply N1.
      assert (h = g); [|congruence]. rewrite <- G, <- H3. apply (rs_coarse _ _ _ _ M2 ND); auto. intros w. rewrite <- H4. apply R2.
    - intros r' [<-|K]; [split; [exact R1|]; exists g, i; split; [left; reflexivity|auto]|]. destruct (E3 r' K) as (K1 & h & j & H1 & H2). split; [exact K1|]. exists h, j. split; [right; exact H1|exact H2]. }
  destruct X as (m & E1 & E2 & E3). rewrite <- E1, <- (seq_length (dst e) 0). apply NoDup_incl_length; [exact E2|]. intros r R. apply in_seq. destruct (E3 r R). lia.
Qed.
End M.
