(** Proofs about isUnbounded and maxLength. *)
From Coq Require Import List NArith ZArith Lia Bool PeanoNat ZifyBool ZifyN ZifyNat.
From Verif Require Import Base AutomatonModel AutomatonSpec CsetLaws ThompsonProofs ReachProofs NfaDiagModel NfaDiagProofs.
Import ListNotations.

Section D.
Variable C : cset.
Variable ok : car C -> Prop.
Notation cs := (car C).
Notation row := (list (cs * nat)).
Notation wf := (wf_nfa C ok).
Notation nedge := (AutomatonSpec.nedge C).
Notation path := (AutomatonSpec.path C).
Notation nee := (no_empty_edge C).

(** Walks of at least one edge. *)
Inductive plus (a : nfa C) : nat -> nat -> Prop :=
| plus1 p c q : nedge a p c q -> plus a p q
| plusS p c q r : nedge a p c q -> plus a q r -> plus a p r.
Notation reachA a := (reach C (fun _ => true) (nrules a)).
(** A cycle that can be reached from the start. *)
Definition cyclic (a : nfa C) : Prop := exists q, reachA a 0 q /\ plus a q q.

Lemma plus_snoc (a : nfa C) p q c r : plus a p q -> nedge a q c r -> plus a p r.
Proof. induction 1 as [p c' q E|p c' q r' E P IH]; intros K; [eapply plusS; [exact E|]; eapply plus1; exact K|eapply plusS; [exact E|apply IH; exact K]]. Qed.
Lemma reach_plus (a : nfa C) p q c r : reachA a p q -> nedge a q c r -> plus a p r.
Proof. induction 1 as [q|q c' t r' E _ P IH]; intros K; [eapply plus1; exact K|eapply plusS; [exact E|apply IH; exact K]]. Qed.
Lemma plus_inv (a : nfa C) p r : plus a p r -> exists c q, nedge a p c q /\ reachA a q r.
Proof.
  induction 1 as [p c q E|p c q r E P (c' & q' & E' & IH)]; [exists c, q; split; [exact E|constructor]|].
  exists c, q. split; [exact E|]. apply (R_step C _ (nrules a) q c' q' r E' eq_refl IH).
Qed.

Section U.
Variable a : nfa C.
Hypothesis W : wf a.

Lemma unb_false : forall fuel x vis, length vis = nst a -> x < nst a -> unb_check C fuel a x vis = Some false ->
  (forall y, plus a x y -> getb vis y = false /\ y <> x) /\ (forall y, reachA a x y -> ~ plus a y y).
Proof.
  induction fuel as [|f IH]; intros x vis Hl Hx H; [discriminate H|]. cbn [unb_check] in H. unfold rowof in H.
  set (v := setb vis x) in *.
  assert (Gv : forall q, getb v q = Nat.eqb q x || getb vis q) by (intros q; apply getb_setb; lia).
  assert (Lv : length v = nst a) by (unfold v; rewrite setb_length; exact Hl).
  assert (K : forall c t, nedge a x c t -> getb v t = false /\ unb_check C f a t v = Some false).
  { unfold AutomatonSpec.nedge. revert H. generalize (nth x (nrules a) []). induction l as [|[c t] l IHl]; intros H c' t' K; [destruct K|].
    destruct (getb v t) eqn:G; [discriminate H|]. destruct (unb_check C f a t v) as [b|] eqn:E; [|discriminate H]. cbn [obind] in H.
    destruct b; [discriminate H|]. destruct K as [K|K]; [injection K as <- <-; auto|apply (IHl H _ _ K)]. }
  assert (P1 : forall y, plus a x y -> getb vis y = false /\ y <> x).
  { intros y P. inversion P as [p c q E|p c q r E P']; subst.
    - destruct (K _ _ E) as (G & _). rewrite Gv in G. apply orb_false_iff in G. destruct G as (G1 & G2). split; [exact G2|apply Nat.eqb_neq; exact G1].
    - destruct (K _ _ E) as (_ & G). pose proof (wf_in C ok a _ _ _ W E) as (_ & B & _). destruct (IH _ _ Lv B G) as (Q & _). destruct (Q _ P') as (Q1 & _).
      rewrite Gv in Q1. apply orb_false_iff in Q1. destruct Q1 as (G1 & G2). split; [exact G2|apply Nat.eqb_neq; exact G1]. }
  split; [exact P1|]. intros y R. inversion R as [q|q c t r E _ R']; subst.
  - intros P. apply P1 in P. tauto.
  - destruct (K _ _ E) as (_ & G). pose proof (wf_in C ok a _ _ _ W E) as (_ & B & _). destruct (IH _ _ Lv B G) as (_ & Q). apply Q. exact R'.
Qed.

Lemma unb_true : forall fuel x vis, length vis = nst a -> x < nst a -> reachA a 0 x ->
  (forall y, getb vis y = true -> reachA a 0 y /\ plus a y x) ->
  unb_check C fuel a x vis = Some true -> cyclic a.
Proof.
  induction fuel as [|f IH]; intros x vis Hl Hx R I H; [discriminate H|]. cbn [unb_check] in H. unfold rowof in H.
  set (v := setb vis x) in *.
  assert (Gv : forall q, getb v q = Nat.eqb q x || getb vis q) by (intros q; apply getb_setb; lia).
  assert (Lv : length v = nst a) by (unfold v; rewrite setb_length; exact Hl).
  assert (K : exists c t, nedge a x c t /\ (getb v t = true \/ unb_check C f a t v = Some true)).
  { unfold AutomatonSpec.nedge. revert H. generalize (nth x (nrules a) []). induction l as [|[c t] l IHl]; intros H; [discriminate H|].
    destruct (getb v t) eqn:G; [exists c, t; split; [left; reflexivity|auto]|].
    destruct (unb_check C f a t v) as [b|] eqn:E; [|discriminate H]. cbn [obind] in H.
    destruct b; [exists c, t; split; [left; reflexivity|auto]|]. destruct (IHl H) as (c' & t' & K1 & K2). exists c', t'. split; [right; exact K1|exact K2]. }
  destruct K as (c & t & E & [K|K]).
  - rewrite Gv in K. apply orb_true_iff in K. destruct K as [K|K].
    + apply Nat.eqb_eq in K. subst t. exists x. split; [exact R|eapply plus1; exact E].
    + destruct (I _ K) as (I1 & I2). exists t. split; [exact I1|]. apply (plus_snoc _ _ _ _ _ I2 E).
  - pose proof (wf_in C ok a _ _ _ W E) as (_ & B & _). apply (IH t v Lv B); [|intros y Y|exact K].
    + apply (reach_snoc C _ (nrules a) 0 x c t R E eq_refl).
    + rewrite Gv in Y. apply orb_true_iff in Y. destruct Y as [Y|Y].
      * apply Nat.eqb_eq in Y. subst y. split; [exact R|eapply plus1; exact E].
      * destruct (I _ Y) as (I1 & I2). split; [exact I1|apply (plus_snoc _ _ _ _ _ I2 E)].
Qed.

Lemma unb_total : forall fuel x vis, length vis = nst a -> x < nst a -> getb vis x = false -> cz vis <= fuel ->
  unb_check C fuel a x vis <> None.
Proof.
  induction fuel as [|f IH]; intros x vis Hl Hx G F.
  { pose proof (cz_setb vis x ltac:(lia) G). lia. }
  cbn [unb_check]. unfold rowof. set (v := setb vis x).
  assert (Lv : length v = nst a) by (unfold v; rewrite setb_length; exact Hl).
  assert (Fv : cz v <= f) by (unfold v; pose proof (cz_setb vis x ltac:(lia) G); lia).
  assert (T : forall c t, In (c, t) (nth x (nrules a) []) -> t < nst a) by (intros c t E; apply (wf_in C ok a x c t W E)).
  revert T. generalize (nth x (nrules a) []). induction l as [|[c t] l IHl]; intros T; [discriminate|].
  destruct (getb v t) eqn:Gt; [discriminate|]. assert (B : t < nst a) by (apply (T c t); left; reflexivity).
  pose proof (IH t v Lv B Gt Fv) as Q.
  destruct (unb_check C f a t v) as [b|]; [|congruence]. cbn [obind]. destruct b; [discriminate|].
  apply IHl. intros c' t' K. apply (T c' t'). right. exact K.
Qed.

Theorem isUnbounded_ok : exists b, isUnbounded C a = Some b /\ (b = true <-> cyclic a).
Proof.
  pose proof W as (A1 & _). pose proof (zeros_length (nst a)) as ZL.
  assert (Cz : cz (zeros (nst a)) <= S (nst a)) by (pose proof (ones_cz (zeros (nst a))); lia).
  pose proof (unb_total (S (nst a)) 0 (zeros (nst a)) ZL A1 (getb_zeros _ _) Cz) as T.
  unfold isUnbounded. destruct (unb_check C (S (nst a)) a 0 (zeros (nst a))) as [b|] eqn:E; [|congruence].
  exists b. split; [reflexivity|]. destruct b; split.
  - intros _. apply (unb_true _ _ _ ZL A1) in E; [exact E|constructor|]. intros y Y. rewrite getb_zeros in Y. discriminate Y.
  - reflexivity.
  - discriminate.
  - intros (q & Q1 & Q2). exfalso. destruct (unb_false _ _ _ ZL A1 E) as (_ & K). apply (K q Q1 Q2).
Qed.
End U.

(** ** maxLength *)
Inductive bcost (a : nfa C) : nat -> nat -> Prop :=
| bc_acc p : naccept a <= p < nst a -> bcost a p 0
| bc_eps p c t k : nedge a p c t -> c_eps C c = true -> bcost a t k -> bcost a p k
| bc_chr p c t k : nedge a p c t -> c_eps C c = false -> bcost a t k -> bcost a p (S k).

Lemma bcost_path a p k : nee a -> (bcost a p k <-> exists w q, length w = k /\ path (nedge a) p w q /\ naccept a <= q < nst a).
Proof.
  intros T. split.
  - induction 1 as [p H|p c t k E Ec H (w & q & W1 & W2 & W3)|p c t k E Ec H (w & q & W1 & W2 & W3)].
    + exists [], p. split; [reflexivity|]. split; [constructor|exact H].
    + exists w, q. split; [exact W1|]. split; [eapply P_eps; eauto|exact W3].
    + destruct (T p c t E Ec) as (x & X). exists (x :: w), q. split; [cbn; lia|]. split; [eapply P_chr; eauto|exact W3].
  - intros (w & q & <- & P & B). induction P as [q|q c t w r H1 H2 H3 IH|q c t x w r H1 H2 H3 H4 IH].
    + constructor. exact B.
    + eapply bc_eps; eauto.
    + cbn [length]. eapply bc_chr; eauto.
Qed.

(** No cycle at all. *)
Definition acyclic (a : nfa C) : Prop := forall q, ~ plus a q q.

(** Walks as vertex lists, to bound costs. *)
Inductive wlk (a : nfa C) : nat -> list nat -> Prop :=
| w_one p : wlk a p [p]
| w_cons p c t l : nedge a p c t -> wlk a t l -> wlk a p (p :: l).
Lemma wlk_plus (a : nfa C) p l : wlk a p l -> forall q, In q (tl l) -> plus a p q.
Proof.
  induction 1 as [p|p c t l E H IH]; intros q K; [destruct K|]. cbn [tl] in K.
  inversion H as [p'|p' c' t' l' E' H']; subst.
  - destruct K as [<-|[]]. eapply plus1; exact E.
  - destruct K as [<-|K]; [eapply plus1; exact E|]. eapply plusS; [exact E|]. apply IH. exact K.
Qed.
Lemma wlk_nodup (a : nfa C) : acyclic a -> forall p l, wlk a p l -> NoDup l.
Proof.
  intros A p l H. induction H as [p|p c t l E H IH]; [repeat constructor; intros []|]. constructor; [|exact IH].
  intros K. apply (A p). apply (wlk_plus a p (p :: l) (w_cons a p c t l E H)). exact K.
Qed.
Lemma wlk_range (a : nfa C) : wf a -> forall p l, wlk a p l -> p < nst a -> forall q, In q l -> q < nst a.
Proof.
  intros W p l H. induction H as [p|p c t l E H IH]; intros B q K.
  - destruct K as [<-|[]]. exact B.
  - destruct K as [<-|K]; [exact B|]. apply IH; [apply (wf_in C ok a _ _ _ W E)|exact K].
Qed.
Lemma bcost_wlk (a : nfa C) p k : bcost a p k -> exists l, wlk a p l /\ k < length l.
Proof.
  induction 1 as [p H|p c t k E Ec H (l & L1 & L2)|p c t k E Ec H (l & L1 & L2)].
  - exists [p]. split; [constructor|cbn; lia].
  - exists (p :: l). split; [econstructor; eauto|cbn; lia].
  - exists (p :: l). split; [econstructor; eauto|cbn; lia].
Qed.
Lemma bcost_src (a : nfa C) p k : wf a -> bcost a p k -> p < nst a.
Proof. intros W. destruct 1 as [p H|p c t k E Ec H|p c t k E Ec H]; [lia| |]; apply (wf_in C ok a _ _ _ W E). Qed.
Lemma bcost_lt (a : nfa C) p k : wf a -> acyclic a -> bcost a p k -> k < nst a.
Proof.
  intros W A H. pose proof (bcost_src a p k W H) as B. destruct (bcost_wlk a p k H) as (l & L1 & L2).
  pose proof (NoDup_incl_length (wlk_nodup a A p l L1) (l' := seq 0 (nst a))) as Q. rewrite seq_length in Q.
  enough (length l <= nst a) by lia. apply Q. intros q K. apply in_seq. pose proof (wlk_range a W p l L1 B q K). lia.
Qed.

(** Reversed edges. *)
Lemma back_fold1 i : forall (r : row) (br : list row) q c p, (forall c t, In (c, t) r -> t < length br) ->
  In (c, p) (nth q (fold_left (fun br e => push C (snd e) (fst e, i) br) r br) []) <->
  In (c, p) (nth q br []) \/ (p = i /\ In (c, q) r).
Proof.
  induction r as [|[c' t'] r IH]; intros br q c p HR; cbn [fold_left].
  - split; [auto|]. intros [H|(_ & [])]. exact H.
  - rewrite IH; [|intros c0 t0 K; rewrite push_length; apply (HR c0 t0); right; exact K].
    cbn [fst snd]. rewrite row_push. assert (B : t' < length br) by (apply (HR c' t'); left; reflexivity).
    replace (t' <? length br) with true by (symmetry; apply Nat.ltb_lt; exact B). rewrite andb_true_r.
    destruct (Nat.eqb_spec q t') as [->|N].
    + rewrite in_app_iff. cbn [In]. split.
      * intros [[K|[K|[]]]|(-> & K)]; auto. injection K as <- <-. auto.
      * intros [K|(-> & [K|K])]; auto. injection K as <-. auto.
    + split.
      * intros [K|(-> & K)]; auto. right. split; [reflexivity|right; exact K].
      * intros [K|(-> & [K|K])]; auto. injection K as -> ->. congruence.
Qed.
Lemma back_fold1_len i : forall (r : row) (br : list row), length (fold_left (fun br e => push C (snd e) (fst e, i) br) r br) = length br.
Proof. induction r as [|e r IH]; intros br; [reflexivity|]. cbn [fold_left]. rewrite IH. apply push_length. Qed.
Lemma back_rows_ok a q c p : wf a -> (In (c, p) (rowof C (back_rows C a) q) <-> nedge a p c q).
Proof.
  intros W. unfold rowof, back_rows.
  assert (G : forall l br, length br = nst a -> 
    (In (c, p) (nth q (fold_left (fun br i => fold_left (fun br e => push C (snd e) (fst e, i) br) (rowof C (nrules a) i) br) l br) []) <->
     In (c, p) (nth q br []) \/ (In p l /\ nedge a p c q))).
  { induction l as [|i l IH]; intros br Lb; cbn [fold_left]; [split; [auto|intros [K|([] & _)]; exact K]|].
    rewrite IH by (rewrite back_fold1_len; exact Lb). rewrite back_fold1.
    2:{ intros c' t' K. rewrite Lb. apply (wf_in C ok a i c' t' W K). }
    unfold rowof. split.
    - intros [[K|(-> & K)]|(K1 & K2)]; auto; right; split; auto; [left; reflexivity|right; exact K1].
    - intros [K|([-> | K1] & K2)]; auto. }
  rewrite G by apply repeat_length. rewrite nth_repeat_nil. split.
  - intros [[]|(_ & K)]. exact K.
  - intros K. right. split; [|exact K]. apply in_seq. pose proof (wf_in C ok a _ _ _ W K). lia.
Qed.

Section ML.
Variable a : nfa C.
Hypothesis W : wf a.
Hypothesis AC : acyclic a.
Notation dist d p := (nth p d (-1)%Z).

(** [q], with its current distance, has been propagated to its predecessors. *)
Definition pdone (d : list Z) (q : nat) : Prop := forall p c, nedge a p c q ->
  (c_eps C c = true -> dist d q <= dist d p)%Z /\ (c_eps C c = false -> dist d q + 1 <= dist d p)%Z.

Record minv (d : list Z) (t0 t1 : list nat) (len : Z) (cur : option nat) (dn : row) : Prop := {
  m_len : length d = nst a;
  m_pos : (0 <= len)%Z;
  m_acc : forall p, naccept a <= p < nst a -> (0 <= dist d p)%Z;
  m_real : forall p, (0 <= dist d p)%Z -> bcost a p (Z.to_nat (dist d p));
  m_t0 : forall p, In p t0 -> (len <= dist d p)%Z /\ bcost a p (Z.to_nat len);
  m_t1 : forall p, In p t1 -> dist d p = (len + 1)%Z;
  m_lo : forall p, (-1 <= dist d p <= len + 1)%Z;
  m_hi : forall p, dist d p = (len + 1)%Z -> In p t1;
  m_cur : forall q, cur = Some q -> (len <= dist d q)%Z /\ bcost a q (Z.to_nat len);
  m_done : forall q, (0 <= dist d q <= len)%Z -> In q t0 \/ cur = Some q \/ pdone d q;
  m_cdone : forall q, cur = Some q -> forall c p, In (c, p) dn -> nedge a p c q ->
     (c_eps C c = true -> len <= dist d p)%Z /\ (c_eps C c = false -> len + 1 <= dist d p)%Z
}.

Definition slack (d : list Z) : Z := fold_right (fun x s => Z.of_nat (nst a) - x + s)%Z 0%Z d.
Lemma slack_upd : forall d p v, p < length d -> slack (upd d p (fun _ => v)) = (slack d + dist d p - v)%Z.
Proof.
  clear AC.
  induction d as [|x d IH]; intros [|p] v H; cbn [length] in H; try lia; cbn [upd slack fold_right nth].
  - unfold slack. lia.
  - change (fold_right _ 0%Z (upd d p (fun _ => v))) with (slack (upd d p (fun _ => v))). rewrite IH by lia.
    change (fold_right _ 0%Z d) with (slack d). lia.
Qed.
Lemma dist_upd d p v q : p < length d -> dist (upd d p (fun _ => v)) q = if Nat.eqb q p then v else dist d q.
Proof.
  clear AC.
  intros H. rewrite upd_nth. replace (p <? length d) with true by (symmetry; apply Nat.ltb_lt; exact H). rewrite andb_true_r.
  destruct (q =? p); reflexivity.
Qed.

Lemma max_row_ok : forall r d t0 t1 len cur dn d' t0' t1',
  (forall c p, In (c, p) r -> nedge a p c cur) ->
  minv d t0 t1 len (Some cur) dn -> max_row C r d t0 t1 len = (d', t0', t1') ->
  minv d' t0' t1' len (Some cur) (dn ++ r) /\
  (Z.of_nat (length t0') + Z.of_nat (length t1') + slack d' <= Z.of_nat (length t0) + Z.of_nat (length t1) + slack d)%Z.
Proof.
  clear AC.
  induction r as [|[c p] r IH]; intros d t0 t1 len cur dn d' t0' t1' HR I H; cbn [max_row] in H.
  { injection H as <- <- <-. rewrite app_nil_r. split; [exact I|lia]. }
  pose proof (HR c p (or_introl eq_refl)) as E.
  assert (HR' : forall c p, In (c, p) r -> nedge a p c cur) by (intros; apply HR; right; assumption).
  pose proof (wf_in C ok a p c cur W E) as (B1 & B2 & _).
  destruct I as [I1 I2 I3 I4 I5 I6 I7 I8 I9 I10 I11]. destruct (I9 cur eq_refl) as (U1 & U2).
  replace (dn ++ (c, p) :: r) with ((dn ++ [(c, p)]) ++ r) by (rewrite <- app_assoc; reflexivity).
  (* a general monotone update *)
  assert (MON : forall v q, (dist d p <= v)%Z -> (dist d q <= dist (upd d p (fun _ => v)) q)%Z).
  { intros v q Hv. rewrite dist_upd by lia. destruct (Nat.eqb_spec q p) as [->|]; lia. }
  assert (PD : forall v q, (dist d p <= v)%Z -> q <> p -> pdone d q -> pdone (upd d p (fun _ => v)) q).
  { intros v q Hv N PD p' c' E'. destruct (PD p' c' E') as (X1 & X2).
    replace (dist (upd d p (fun _ => v)) q) with (dist d q) by (rewrite dist_upd by lia; destruct (Nat.eqb_spec q p); [congruence|reflexivity]).
    pose proof (MON v p' Hv). split; intros K; [specialize (X1 K)|specialize (X2 K)]; lia. }
  destruct (c_eps C c) eqn:Ec.
  - destruct (Z.ltb_spec (dist d p) len) as [Q|Q].
    + (* raise to len *)
      set (d2 := upd d p (fun _ => len)) in *.
      assert (D2 : forall q, dist d2 q = if Nat.eqb q p then len else dist d q) by (intros q; apply dist_upd; lia).
      destruct (IH d2 (t0 ++ [p]) t1 len cur (dn ++ [(c, p)]) d' t0' t1' HR') as (J1 & J2); [|exact H|].
      * constructor.
        -- unfold d2. rewrite upd_length. exact I1.
        -- exact I2.
        -- intros q K. pose proof (I3 q K). pose proof (MON len q ltac:(lia)). unfold d2. lia.
        -- intros q K. rewrite D2 in K |- *. destruct (Nat.eqb_spec q p) as [Q'|N]; [subst q|]; [eapply bc_eps; eauto|apply I4; exact K].
        -- intros q K. apply in_app_or in K. rewrite D2. destruct (Nat.eqb_spec q p) as [->|N].
           ++ split; [lia|eapply bc_eps; eauto].
           ++ destruct K as [K|[K|[]]]; [apply I5; exact K|congruence].
        -- intros q K. rewrite D2. destruct (Nat.eqb_spec q p) as [->|N]; [apply I6 in K; lia|apply I6; exact K].
        -- intros q. rewrite D2. pose proof (I7 q). destruct (Nat.eqb_spec q p); lia.
        -- intros q. rewrite D2. destruct (Nat.eqb_spec q p); [lia|apply I8].
        -- intros q K. injection K as <-. rewrite D2. destruct (Nat.eqb_spec cur p); [exfalso; subst p; lia|]. auto.
        -- intros q K. destruct (Nat.eq_dec q p) as [->|N]; [left; apply in_app_iff; right; left; reflexivity|].
           rewrite D2 in K. destruct (Nat.eqb_spec q p); [congruence|]. destruct (I10 q K) as [X|[X|X]].
           ++ left. apply in_app_iff. auto.
           ++ auto.
           ++ right. right. apply PD; [lia|exact N|exact X].
        -- intros q K c' p' K1 K2. injection K as <-. apply in_app_or in K1. destruct K1 as [K1|[K1|[]]].
           ++ destruct (I11 _ eq_refl c' p' K1 K2) as (X1 & X2). pose proof (MON len p' ltac:(lia)). fold d2 in H0.
              split; intros K; [specialize (X1 K)|specialize (X2 K)]; lia.
           ++ injection K1 as <- <-. split; [|congruence]. intros _. rewrite D2, Nat.eqb_refl. lia.
      * split; [exact J1|]. unfold d2 in J2. rewrite slack_upd in J2 by lia. rewrite app_length in J2. cbn [length] in J2. lia.
    + apply (IH d t0 t1 len cur _ d' t0' t1' HR'); [|exact H]. constructor; try assumption.
      intros q K c' p' K1 K2. injection K as <-. apply in_app_or in K1. destruct K1 as [K1|[K1|[]]]; [apply (I11 _ eq_refl c' p' K1 K2)|].
      injection K1 as <- <-. split; [lia|congruence].
  - destruct (Z.leb_spec (dist d p) len) as [Q|Q].
    + set (d2 := upd d p (fun _ => (len + 1)%Z)) in *.
      assert (D2 : forall q, dist d2 q = if Nat.eqb q p then (len + 1)%Z else dist d q) by (intros q; apply dist_upd; lia).
      assert (BC : bcost a p (Z.to_nat (len + 1))).
      { replace (Z.to_nat (len + 1)) with (S (Z.to_nat len)) by lia. eapply bc_chr; eauto. }
      destruct (IH d2 t0 (t1 ++ [p]) len cur (dn ++ [(c, p)]) d' t0' t1' HR') as (J1 & J2); [|exact H|].
      * constructor.
        -- unfold d2. rewrite upd_length. exact I1.
        -- exact I2.
        -- intros q K. pose proof (I3 q K). pose proof (MON (len + 1)%Z q ltac:(lia)). unfold d2. lia.
        -- intros q K. rewrite D2 in K |- *. destruct (Nat.eqb_spec q p) as [Q'|N]; [subst q|]; [exact BC|apply I4; exact K].
        -- intros q K. rewrite D2. destruct (I5 q K) as (X1 & X2). destruct (Nat.eqb_spec q p) as [->|N]; split; auto; lia.
        -- intros q K. apply in_app_or in K. rewrite D2. destruct (Nat.eqb_spec q p) as [->|N]; [reflexivity|].
           destruct K as [K|[K|[]]]; [apply I6; exact K|congruence].
        -- intros q. rewrite D2. pose proof (I7 q). destruct (Nat.eqb_spec q p); lia.
        -- intros q. rewrite D2. rewrite in_app_iff. destruct (Nat.eqb_spec q p) as [->|N]; [right; left; reflexivity|left; apply I8; assumption].
        -- intros q K. injection K as <-. rewrite D2. destruct (Nat.eqb_spec cur p); [split; [lia|exact U2]|]. auto.
        -- intros q K. rewrite D2 in K. destruct (Nat.eqb_spec q p) as [Q'|N]; [subst q|]; [lia|]. destruct (I10 q K) as [X|[X|X]]; auto.
           right. right. apply PD; [lia|exact N|exact X].
        -- intros q K c' p' K1 K2. injection K as <-. apply in_app_or in K1. destruct K1 as [K1|[K1|[]]].
           ++ destruct (I11 _ eq_refl c' p' K1 K2) as (X1 & X2). pose proof (MON (len + 1)%Z p' ltac:(lia)). fold d2 in H0.
              split; intros K; [specialize (X1 K)|specialize (X2 K)]; lia.
           ++ injection K1 as <- <-. split; [congruence|]. intros _. rewrite D2, Nat.eqb_refl. lia.
      * split; [exact J1|]. unfold d2 in J2. rewrite slack_upd in J2 by lia. rewrite app_length in J2. cbn [length] in J2. lia.
    + apply (IH d t0 t1 len cur _ d' t0' t1' HR'); [|exact H]. constructor; try assumption.
      intros q K c' p' K1 K2. injection K as <-. apply in_app_or in K1. destruct K1 as [K1|[K1|[]]]; [apply (I11 _ eq_refl c' p' K1 K2)|].
      injection K1 as <- <-. split; [congruence|lia].
Qed.

Lemma slack_pos d : length d = nst a -> (forall p, (0 <= dist d p)%Z -> bcost a p (Z.to_nat (dist d p))) -> (0 <= slack d)%Z.
Proof.
  intros _ H. assert (G : forall p, (dist d p <= Z.of_nat (nst a))%Z).
  { intros p. destruct (Z.leb_spec 0 (dist d p)) as [K|K]; [|lia]. pose proof (bcost_lt a p _ W AC (H p K)). lia. }
  clear H. induction d as [|x d IH]; [cbn; lia|]. cbn [slack fold_right]. change (fold_right _ 0%Z d) with (slack d).
  pose proof (G 0) as G0. cbn [nth] in G0. specialize (IH (fun p => G (S p))). lia.
Qed.

Lemma max_loop_ok : forall fuel d t0 t1 len, minv d t0 t1 len None [] -> (t0 = [] -> t1 = []) ->
  (Z.of_nat (length t0) + Z.of_nat (length t1) + slack d <= Z.of_nat fuel)%Z ->
  exists d', max_loop C fuel (back_rows C a) d t0 t1 len = Some d' /\
    (forall p, (0 <= dist d' p)%Z -> bcost a p (Z.to_nat (dist d' p))) /\
    (forall p k, bcost a p k -> (Z.of_nat k <= dist d' p)%Z).
Proof.
  induction fuel as [|f IH]; intros d t0 t1 len I T F.
  - destruct t0 as [|x t0].
    2:{ exfalso. pose proof (slack_pos d (m_len _ _ _ _ _ _ I) (m_real _ _ _ _ _ _ I)). cbn [length] in F. lia. }
    specialize (T eq_refl). subst t1. exists d. split; [reflexivity|]. destruct I as [I1 I2 I3 I4 I5 I6 I7 I8 I9 I10 I11].
    split; [exact I4|]. intros p k K. induction K as [p K|p c t k E Ec K IHk|p c t k E Ec K IHk].
    + pose proof (I3 p K). lia.
    + assert (R : (0 <= dist d t <= len)%Z).
      { pose proof (I7 t). destruct (Z.eq_dec (dist d t) (len + 1)) as [X|X]; [apply I8 in X; destruct X|]. lia. }
      destruct (I10 t R) as [[]|[X|X]]; [discriminate X|]. destruct (X p c E) as (X1 & _). specialize (X1 Ec). lia.
    + assert (R : (0 <= dist d t <= len)%Z).
      { pose proof (I7 t). destruct (Z.eq_dec (dist d t) (len + 1)) as [X|X]; [apply I8 in X; destruct X|]. lia. }
      destruct (I10 t R) as [[]|[X|X]]; [discriminate X|]. destruct (X p c E) as (_ & X1). specialize (X1 Ec). lia.
  - destruct t0 as [|x t0].
    { specialize (T eq_refl). subst t1. exists d. split; [reflexivity|]. destruct I as [I1 I2 I3 I4 I5 I6 I7 I8 I9 I10 I11].
      split; [exact I4|]. intros p k K. induction K as [p K|p c t k E Ec K IHk|p c t k E Ec K IHk].
      + pose proof (I3 p K). lia.
      + assert (R : (0 <= dist d t <= len)%Z).
        { pose proof (I7 t). destruct (Z.eq_dec (dist d t) (len + 1)) as [X|X]; [apply I8 in X; destruct X|]. lia. }
        destruct (I10 t R) as [[]|[X|X]]; [discriminate X|]. destruct (X p c E) as (X1 & _). specialize (X1 Ec). lia.
      + assert (R : (0 <= dist d t <= len)%Z).
        { pose proof (I7 t). destruct (Z.eq_dec (dist d t) (len + 1)) as [X|X]; [apply I8 in X; destruct X|]. lia. }
        destruct (I10 t R) as [[]|[X|X]]; [discriminate X|]. destruct (X p c E) as (_ & X1). specialize (X1 Ec). lia. }
    cbn [max_loop]. destruct (max_row C (rowof C (back_rows C a) x) d t0 t1 len) as [[v t0'] t1'] eqn:E.
    apply (max_row_ok _ d t0 t1 len x []) in E.
    2:{ intros c p K. apply (back_rows_ok a x c p W) in K. exact K. }
    2:{ destruct I as [I1 I2 I3 I4 I5 I6 I7 I8 I9 I10 I11]. constructor; try assumption.
        - intros q K. apply I5. right. exact K.
        - intros q K. injection K as <-. apply I5. left. reflexivity.
        - intros q K. destruct (I10 q K) as [[X|X]|[X|X]]; [right; left; congruence|auto|discriminate X|auto].
        - intros q K c p []. }
    destruct E as (J & F2). cbn [app] in J.
    assert (J' : minv v t0' t1' len None []).
    { destruct J as [I1 I2 I3 I4 I5 I6 I7 I8 I9 I10 I11]. constructor; try assumption.
      - discriminate.
      - intros q K. destruct (I10 q K) as [X|[X|X]]; auto. injection X as <-. right. right.
        destruct (I9 x eq_refl) as (Y1 & _). intros p c E. destruct (I11 x eq_refl c p) as (X1 & X2); [apply (back_rows_ok a x c p W); exact E|exact E|].
        split; intros Z; [specialize (X1 Z)|specialize (X2 Z)]; lia.
      - discriminate. }
    cbn [length] in F.
    destruct t0' as [|y t0'].
    + apply IH; [|intros ->; reflexivity|cbn [length] in *; lia].
      destruct J' as [I1 I2 I3 I4 I5 I6 I7 I8 I9 I10 I11]. constructor; try assumption.
      * lia.
      * intros p K. rewrite (I6 p K). split; [lia|]. rewrite <- (I6 p K). apply I4. rewrite (I6 p K). lia.
      * intros p [].
      * intros p. pose proof (I7 p). lia.
      * intros p K. pose proof (I7 p). lia.
      * discriminate.
      * intros q K. destruct (Z.eq_dec (dist v q) (len + 1)) as [X|X]; [left; apply I8; exact X|].
        destruct (I10 q ltac:(lia)) as [[]|[Y|Y]]; [discriminate Y|auto].
      * discriminate.
    + apply IH; [exact J'|discriminate|cbn [length] in *; lia].
Qed.

Lemma init_dist : forall l d p, (forall i, In i l -> i < length d) ->
  dist (fold_left (fun d i => upd d i (fun _ => 0%Z)) l d) p = (if existsb (Nat.eqb p) l then 0%Z else dist d p) /\
  length (fold_left (fun d i => upd d i (fun _ => 0%Z)) l d) = length d.
Proof.
  clear AC.
  induction l as [|i l IH]; intros d p H; cbn [fold_left existsb]; [auto|].
  destruct (IH (upd d i (fun _ => 0%Z)) p) as (I1 & I2); [intros j K; rewrite upd_length; apply H; right; exact K|].
  rewrite I1, I2, upd_length. split; [|reflexivity]. rewrite dist_upd by (apply H; left; reflexivity).
  destruct (Nat.eqb p i), (existsb (Nat.eqb p) l); reflexivity.
Qed.


(** Whenever the loop ends, its result is right. *)
Lemma max_loop_part : forall fuel d t0 t1 len d', minv d t0 t1 len None [] -> (t0 = [] -> t1 = []) ->
  max_loop C fuel (back_rows C a) d t0 t1 len = Some d' ->
  (forall p, (0 <= dist d' p)%Z -> bcost a p (Z.to_nat (dist d' p))) /\
  (forall p k, bcost a p k -> (Z.of_nat k <= dist d' p)%Z) /\ (forall p, (-1 <= dist d' p)%Z).
Proof.
  clear AC.
  assert (FIN : forall d len, minv d [] [] len None [] ->
    (forall p, (0 <= dist d p)%Z -> bcost a p (Z.to_nat (dist d p))) /\
    (forall p k, bcost a p k -> (Z.of_nat k <= dist d p)%Z) /\ (forall p, (-1 <= dist d p)%Z)).
  { intros d len [I1 I2 I3 I4 I5 I6 I7 I8 I9 I10 I11]. split; [exact I4|]. split; [|intros p; pose proof (I7 p); lia].
    intros p k K. induction K as [p K|p c t k E Ec K IHk|p c t k E Ec K IHk].
    - pose proof (I3 p K). lia.
    - assert (R : (0 <= dist d t <= len)%Z).
      { pose proof (I7 t). destruct (Z.eq_dec (dist d t) (len + 1)) as [X|X]; [apply I8 in X; destruct X|]. lia. }
      destruct (I10 t R) as [[]|[X|X]]; [discriminate X|]. destruct (X p c E) as (X1 & _). specialize (X1 Ec). lia.
    - assert (R : (0 <= dist d t <= len)%Z).
      { pose proof (I7 t). destruct (Z.eq_dec (dist d t) (len + 1)) as [X|X]; [apply I8 in X; destruct X|]. lia. }
      destruct (I10 t R) as [[]|[X|X]]; [discriminate X|]. destruct (X p c E) as (_ & X1). specialize (X1 Ec). lia. }
  induction fuel as [|f IH]; intros d t0 t1 len d' I T H; destruct t0 as [|x t0]; cbn [max_loop] in H.
  - rewrite (T eq_refl) in I. injection H as <-. apply (FIN _ _ I).
  - discriminate H.
  - rewrite (T eq_refl) in I. injection H as <-. apply (FIN _ _ I).
  - destruct (max_row C (rowof C (back_rows C a) x) d t0 t1 len) as [[v t0'] t1'] eqn:E.
    apply (max_row_ok _ d t0 t1 len x []) in E.
    2:{ intros c p K. apply (back_rows_ok a x c p W) in K. exact K. }
    2:{ destruct I as [I1 I2 I3 I4 I5 I6 I7 I8 I9 I10 I11]. constructor; try assumption.
        - intros q K. apply I5. right. exact K.
        - intros q K. injection K as <-. apply I5. left. reflexivity.
        - intros q K. destruct (I10 q K) as [[X|X]|[X|X]]; [right; left; congruence|auto|discriminate X|auto].
        - intros q K c p []. }
    destruct E as (J & _). cbn [app] in J.
    assert (J' : minv v t0' t1' len None []).
    { destruct J as [I1 I2 I3 I4 I5 I6 I7 I8 I9 I10 I11]. constructor; try assumption.
      - discriminate.
      - intros q K. destruct (I10 q K) as [X|[X|X]]; auto. injection X as <-. right. right.
        destruct (I9 x eq_refl) as (Y1 & _). intros p c E. destruct (I11 x eq_refl c p) as (X1 & X2); [apply (back_rows_ok a x c p W); exact E|exact E|].
        split; intros Z; [specialize (X1 Z)|specialize (X2 Z)]; lia.
      - discriminate. }
    destruct t0' as [|y t0'].
    + refine (IH _ _ _ _ _ _ _ H); [|intros _; reflexivity].
      destruct J' as [I1 I2 I3 I4 I5 I6 I7 I8 I9 I10 I11]. constructor; try assumption.
      * lia.
      * intros p K. rewrite (I6 p K). split; [lia|]. rewrite <- (I6 p K). apply I4. rewrite (I6 p K). lia.
      * intros p [].
      * intros p. pose proof (I7 p). lia.
      * intros p K. pose proof (I7 p). lia.
      * discriminate.
      * intros q K. destruct (Z.eq_dec (dist v q) (len + 1)) as [X|X]; [left; apply I8; exact X|].
        destruct (I10 q ltac:(lia)) as [[]|[Y|Y]]; [discriminate Y|auto].
      * discriminate.
    + refine (IH _ _ _ _ _ J' _ H). discriminate.
Qed.
Lemma minv_init : minv (fold_left (fun d i => upd d i (fun _ => 0%Z)) (seq (naccept a) (nst a - naccept a)) (repeat (-1)%Z (nst a)))
  (seq (naccept a) (nst a - naccept a)) [] 0 None [].
Proof.
  clear AC.
  pose proof W as (A1 & A2 & A3 & A4).
  set (accs := seq (naccept a) (nst a - naccept a)).
  set (d0 := fold_left (fun d i => upd d i (fun _ => 0%Z)) accs (repeat (-1)%Z (nst a))).
  assert (AI : forall i, In i accs <-> naccept a <= i < nst a) by (intros i; unfold accs; rewrite in_seq; lia).
  assert (D0 : forall p, dist d0 p = if existsb (Nat.eqb p) accs then 0%Z else (-1)%Z).
  { intros p. unfold d0. destruct (init_dist accs (repeat (-1)%Z (nst a)) p) as (I1 & _).
    { intros i K. rewrite repeat_length. apply AI in K. lia. }
    rewrite I1. replace (nth p (repeat (-1)%Z (nst a)) (-1)%Z) with (-1)%Z; [reflexivity|].
    symmetry. clear. revert p. induction (nst a) as [|n IH]; intros [|p]; cbn; auto. }
  assert (L0 : length d0 = nst a).
  { unfold d0. destruct (init_dist accs (repeat (-1)%Z (nst a)) 0) as (_ & I2); [intros i K; rewrite repeat_length; apply AI in K; lia|].
    rewrite I2. apply repeat_length. }
  assert (EX : forall p, existsb (Nat.eqb p) accs = true <-> naccept a <= p < nst a).
  { intros p. rewrite existsb_exists. split.
    - intros (i & K1 & K2). apply Nat.eqb_eq in K2. subst i. apply AI. exact K1.
    - intros K. exists p. split; [apply AI; exact K|apply Nat.eqb_refl]. }
  constructor.
    - exact L0.
    - lia.
    - intros p K. rewrite D0, (proj2 (EX p) K). lia.
    - intros p K. rewrite D0 in K |- *. destruct (existsb (Nat.eqb p) accs) eqn:X; [|lia]. apply EX in X. constructor. exact X.
    - intros p K. apply AI in K. rewrite D0, (proj2 (EX p) K). split; [lia|constructor; exact K].
    - intros p [].
    - intros p. rewrite D0. destruct (existsb (Nat.eqb p) accs); lia.
    - intros p K. rewrite D0 in K. destruct (existsb (Nat.eqb p) accs); lia.
    - discriminate.
    - intros q K. rewrite D0 in K. destruct (existsb (Nat.eqb q) accs) eqn:X; [|lia]. left. apply AI, EX. exact X.
    - discriminate.
Qed.

Theorem maxLength_cost : isUnbounded C a = Some false -> isEmpty C a = Some false ->
  exists m F, (forall f, F <= f -> maxLength C f a = Some m) /\
   ((m = (-1)%Z /\ forall k, ~ bcost a 0 k) \/ exists n, m = Z.of_nat n /\ bcost a 0 n /\ forall k, bcost a 0 k -> k <= n).
Proof.
  intros U E. pose proof W as (A1 & A2 & A3 & A4).
  set (accs := seq (naccept a) (nst a - naccept a)).
  set (d0 := fold_left (fun d i => upd d i (fun _ => 0%Z)) accs (repeat (-1)%Z (nst a))).
  assert (AI : forall i, In i accs <-> naccept a <= i < nst a) by (intros i; unfold accs; rewrite in_seq; lia).
  assert (D0 : forall p, dist d0 p = if existsb (Nat.eqb p) accs then 0%Z else (-1)%Z).
  { intros p. unfold d0. destruct (init_dist accs (repeat (-1)%Z (nst a)) p) as (I1 & _).
    { intros i K. rewrite repeat_length. apply AI in K. lia. }
    rewrite I1. replace (nth p (repeat (-1)%Z (nst a)) (-1)%Z) with (-1)%Z; [reflexivity|].
    symmetry. clear. revert p. induction (nst a) as [|n IH]; intros [|p]; cbn; auto. }
  assert (L0 : length d0 = nst a).
  { unfold d0. destruct (init_dist accs (repeat (-1)%Z (nst a)) 0) as (_ & I2); [intros i K; rewrite repeat_length; apply AI in K; lia|].
    rewrite I2. apply repeat_length. }
  assert (EX : forall p, existsb (Nat.eqb p) accs = true <-> naccept a <= p < nst a).
  { intros p. rewrite existsb_exists. split.
    - intros (i & K1 & K2). apply Nat.eqb_eq in K2. subst i. apply AI. exact K1.
    - intros K. exists p. split; [apply AI; exact K|apply Nat.eqb_refl]. }
  assert (I0 : minv d0 accs [] 0 None []).
  { constructor.
    - exact L0.
    - lia.
    - intros p K. rewrite D0, (proj2 (EX p) K). lia.
    - intros p K. rewrite D0 in K |- *. destruct (existsb (Nat.eqb p) accs) eqn:X; [|lia]. apply EX in X. constructor. exact X.
    - intros p K. apply AI in K. rewrite D0, (proj2 (EX p) K). split; [lia|constructor; exact K].
    - intros p [].
    - intros p. rewrite D0. destruct (existsb (Nat.eqb p) accs); lia.
    - intros p K. rewrite D0 in K. destruct (existsb (Nat.eqb p) accs); lia.
    - discriminate.
    - intros q K. rewrite D0 in K. destruct (existsb (Nat.eqb q) accs) eqn:X; [|lia]. left. apply AI, EX. exact X.
    - discriminate. }
  assert (NE : accs = [] -> @nil nat = []) by reflexivity.
  set (F := Z.to_nat (Z.of_nat (length accs) + Z.of_nat 0 + slack d0)).
  assert (MF : forall f, F <= f -> exists d', max_loop C f (back_rows C a) d0 accs [] 0 = Some d' /\
    (forall p, (0 <= dist d' p)%Z -> bcost a p (Z.to_nat (dist d' p))) /\ (forall p k, bcost a p k -> (Z.of_nat k <= dist d' p)%Z) ).
  { intros f Hf. apply max_loop_ok; [exact I0|exact NE|]. cbn [length]. unfold F in Hf. lia. }
  assert (MONO : forall f d t0 t1 len r, max_loop C f (back_rows C a) d t0 t1 len = Some r ->
    forall f', f <= f' -> max_loop C f' (back_rows C a) d t0 t1 len = Some r).
  { clear. induction f as [|f IH]; intros d t0 t1 len r H f' Hf.
    - destruct t0 as [|x t0]; cbn [max_loop] in H; [|discriminate H]. destruct f'; exact H.
    - destruct t0 as [|x t0]; [destruct f'; exact H|]. destruct f' as [|f']; [lia|]. cbn [max_loop] in *.
      destruct (max_row C (rowof C (back_rows C a) x) d t0 t1 len) as [[v t0'] t1']. destruct t0'; apply (IH _ _ _ _ _ H); lia. }
  destruct (MF F (le_n _)) as (d' & M1 & M2 & M3). exists (dist d' 0), F. split.
  - intros f Hf. unfold maxLength. rewrite U. cbn [obind]. rewrite E. cbn [obind]. fold accs. fold d0.
    rewrite (MONO _ _ _ _ _ _ M1 f Hf). reflexivity.
  - destruct (Z.leb_spec 0 (dist d' 0)) as [K|K].
    + right. exists (Z.to_nat (dist d' 0)). split; [lia|]. split; [apply M2; exact K|]. intros k Hk. apply M3 in Hk. lia.
    + left. split.
      * assert (LB : forall f d t0 t1 len r, max_loop C f (back_rows C a) d t0 t1 len = Some r -> (0 <= len)%Z ->
          (forall p, (-1 <= dist d p)%Z) -> forall p, (-1 <= dist r p)%Z).
        { clear. induction f as [|f IH]; intros d t0 t1 len r H Hl B.
          - destruct t0 as [|x t0]; cbn [max_loop] in H; [|discriminate H]. injection H as <-. exact B.
          - destruct t0 as [|x t0]; cbn [max_loop] in H; [injection H as <-; exact B|].
            destruct (max_row C (rowof C (back_rows C a) x) d t0 t1 len) as [[v t0'] t1'] eqn:R.
            assert (B' : forall p, (-1 <= dist v p)%Z).
            { revert d t0 t1 B R. generalize (rowof C (back_rows C a) x) as r0. induction r0 as [|[c q] r0 IHr]; intros d t0 t1 B R; cbn [max_row] in R.
              - injection R as <- _ _. exact B.
              - assert (UB : forall z p, (0 <= z)%Z -> (-1 <= dist (upd d q (fun _ => z)) p)%Z).
                { intros z p Hz. rewrite upd_nth. destruct ((p =? q) && (q <? length d)); [lia|apply B]. }
                destruct (c_eps C c).
                + destruct (dist d q <? len)%Z; [|apply (IHr _ _ _ B R)]. apply (IHr _ _ _ (fun p => UB len p Hl) R).
                + destruct (dist d q <=? len)%Z; [|apply (IHr _ _ _ B R)]. apply (IHr _ _ _ (fun p => UB (len + 1)%Z p ltac:(lia)) R). }
            destruct t0'; [apply (IH _ _ _ _ _ H ltac:(lia) B')|apply (IH _ _ _ _ _ H Hl B')]. }
        pose proof (LB _ _ _ _ _ _ M1 ltac:(lia) (fun p => proj1 (m_lo _ _ _ _ _ _ I0 p)) 0). lia.
      * intros k Hk. apply M3 in Hk. lia.
Qed.
End ML.

(** The automaton has states on every path only: every state can be reached
    from the start. *)
Definition all_from_start (a : nfa C) : Prop := forall q c t, nedge a q c t -> reachA a 0 q.
Lemma from_start_acyclic a : all_from_start a -> ~ cyclic a -> acyclic a.
Proof.
  intros A N q P. apply N. exists q. split; [|exact P]. apply plus_inv in P. destruct P as (c & t & E & _). apply (A _ _ _ E).
Qed.

(** Finite case: maxLength is the length of a longest word. *)
Theorem maxLength_finite a : wf a -> nee a -> all_from_start a -> ~ cyclic a ->
  exists m F, (forall f, F <= f -> maxLength C f a = Some m) /\
   ((m = (-1)%Z /\ forall w, ~ lang C a w) \/
    exists n, m = Z.of_nat n /\ (exists w, lang C a w /\ length w = n) /\ forall w, lang C a w -> length w <= n).
Proof.
  intros W T A NC. pose proof (from_start_acyclic a A NC) as AC.
  destruct (isUnbounded_ok a W) as (u & U1 & U2). destruct u; [exfalso; apply NC, U2; reflexivity|].
  destruct (isEmpty_ok C ok a W T) as (e & E1 & E2). destruct e.
  - exists (-1)%Z, 0. split; [|left; split; [reflexivity|apply E2; reflexivity]].
    intros f _. unfold maxLength. rewrite U1. cbn [obind]. rewrite E1. reflexivity.
  - destruct (maxLength_cost a W AC U1 E1) as (m & F & M1 & M2). exists m, F. split; [exact M1|].
    assert (LK : forall w, lang C a w -> bcost a 0 (length w)).
    { intros w (k & K1 & K2). apply bcost_path; [exact T|]. exists w, (naccept a + k). split; [reflexivity|]. split; [exact K2|lia]. }
    destruct M2 as [(-> & M2)|(n & -> & M2 & M3)].
    + left. split; [reflexivity|]. intros w K. apply (M2 (length w)). apply LK. exact K.
    + right. exists n. split; [reflexivity|]. split.
      * apply bcost_path in M2; [|exact T]. destruct M2 as (w & q & W1 & W2 & W3). exists w. split; [|exact W1].
        exists (q - naccept a). unfold laccepts. replace (naccept a + (q - naccept a)) with q by lia. split; [lia|exact W2].
      * intros w K. apply M3. apply LK. exact K.
Qed.

(** A result other than -2 is always right. *)
Theorem maxLength_sound a f m : wf a -> nee a -> maxLength C f a = Some m -> m <> (-2)%Z ->
  (m = (-1)%Z /\ forall w, ~ lang C a w) \/
  exists n, m = Z.of_nat n /\ (exists w, lang C a w /\ length w = n) /\ forall w, lang C a w -> length w <= n.
Proof.
  intros W T H N. unfold maxLength in H. destruct (isUnbounded C a) as [[|]|]; cbn [obind] in H; [congruence| |discriminate H].
  destruct (isEmpty_ok C ok a W T) as (e & E1 & E2). rewrite E1 in H. cbn [obind] in H. destruct e.
  { injection H as <-. left. split; [reflexivity|]. apply E2. reflexivity. }
  destruct (max_loop C f _ _ _ _ _) as [d|] eqn:ML; [|discriminate H]. cbn [obind] in H. injection H as <-.
  apply (max_loop_part a W) in ML; [|apply minv_init; exact W|reflexivity]. destruct ML as (M2 & M3 & M4).
  assert (LK : forall w, lang C a w -> bcost a 0 (length w)).
  { intros w (k & K1 & K2). apply bcost_path; [exact T|]. exists w, (naccept a + k). split; [reflexivity|]. split; [exact K2|lia]. }
  destruct (Z.leb_spec 0 (nth 0 d (-1)%Z)) as [K|K].
  - right. exists (Z.to_nat (nth 0 d (-1)%Z)). split; [lia|]. split.
    + apply M2 in K. apply bcost_path in K; [|exact T]. destruct K as (w & q & W1 & W2 & W3). exists w. split; [|exact W1].
      exists (q - naccept a). unfold laccepts. replace (naccept a + (q - naccept a)) with q by lia. split; [lia|exact W2].
    + intros w Hw. apply LK, M3 in Hw. lia.
  - left. split; [pose proof (M4 0); lia|]. intros w Hw. apply LK, M3 in Hw. lia.
Qed.

(** Infinite case: -2 means that words of any length occur, provided that
    every state leads to acceptance and no cycle consists of epsilon edges
    only. *)
Definition all_to_accept (a : nfa C) : Prop := forall q c t, nedge a q c t -> exists k, bcost a t k.
Definition eps_loop_free (a : nfa C) : Prop := forall q, plus a q q -> exists w, w <> [] /\ path (nedge a) q w q.

Theorem maxLength_infinite a f : wf a -> nee a -> all_to_accept a -> eps_loop_free a -> cyclic a ->
  maxLength C f a = Some (-2)%Z /\ forall n, exists w, lang C a w /\ n <= length w.
Proof.
  intros W T A EL CY. destruct (isUnbounded_ok a W) as (u & U1 & U2). rewrite (proj2 U2 CY) in U1.
  split; [unfold maxLength; rewrite U1; reflexivity|]. intros n.
  destruct CY as (q & Q1 & Q2). destruct (EL q Q2) as (w & W1 & W2).
  destruct (reach_any_path C a 0 q T Q1) as (u0 & P0).
  assert (Z : exists k, bcost a q k).
  { apply plus_inv in Q2. destruct Q2 as (c & t & E & R). clear -A E R.
    assert (G : forall x y, reachA a x y -> forall z c, nedge a z c x -> exists z' c', nedge a z' c' y).
    { intros x y. induction 1 as [x|x c0 t0 r K _ R0 IH]; intros z c' E0; [exists z, c'; exact E0|apply (IH x c0 K)]. }
    destruct (G t q R q c E) as (z & c' & E'). apply (A _ _ _ E'). }
  destruct Z as (k & Z). apply bcost_path in Z; [|exact T]. destruct Z as (v & r & V1 & V2 & V3).
  assert (LP : forall n, exists x, n <= length x /\ path (nedge a) q x q).
  { induction n0 as [|n0 (x & X1 & X2)]; [exists []; split; [cbn; lia|constructor]|]. exists (w ++ x). split.
    - rewrite app_length. destruct w; [congruence|cbn; lia].
    - apply (path_app C _ q w q W2 x q X2). }
  destruct (LP n) as (x & X1 & X2). exists (u0 ++ x ++ v). split.
  - exists (r - naccept a). unfold laccepts. replace (naccept a + (r - naccept a)) with r by lia. split; [lia|].
    apply (path_app C _ 0 u0 q P0). apply (path_app C _ q x q X2). exact V2.
  - rewrite !app_length. lia.
Qed.
End D.
