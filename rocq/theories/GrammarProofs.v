(** FIRST: what the last round of computeFirst leaves. *)
From Coq Require Import List Bool PeanoNat Lia.
From Verif Require Import Base GrammarModel GrammarSpec.
Import ListNotations.

Lemma mem_in n l : mem n l = true <-> In n l.
Proof.
  unfold mem. rewrite existsb_exists. split.
  - intros (x & H & E). apply Nat.eqb_eq in E. subst x. exact H.
  - intros H. exists n. rewrite Nat.eqb_refl. tauto.
Qed.
Lemma mem_not n l : mem n l = false <-> ~ In n l.
Proof. rewrite <- mem_in. destruct (mem n l); split; intros; congruence. Qed.
Lemma obind_inv {A B} (o : option A) (f : A -> option B) y : obind o f = Some y -> exists x, o = Some x /\ f x = Some y.
Proof. destruct o; cbn; [eauto|discriminate]. Qed.

Section G.
Variable g : grammar.
Notation kind := (kind g).
Notation derives := (derives g).
Notation eps_visit := (eps_visit g).
Notation first_node := (first_node g).

Lemma kind_lt n : kind n <> NOther -> n < size g.
Proof.
  intros H. unfold size. destruct (Nat.lt_ge_cases n (length (gnodes g))) as [L|L]; [exact L|].
  unfold GrammarModel.kind in H. rewrite nth_overflow in H by exact L. congruence.
Qed.

(** ** reducesToEpsilon always has an answer *)
Definition room (v : list id) : nat := length (filter (fun i => negb (mem i v)) (seq 0 (size g))).
Lemma filter_length_le {A} (p q : A -> bool) l : (forall x, In x l -> p x = true -> q x = true) ->
  length (filter p l) <= length (filter q l).
Proof.
  induction l as [|h l IH]; intros H; [apply le_n|]. cbn [filter].
  pose proof (IH (fun x Hx => H x (or_intror Hx))) as I.
  pose proof (H h (or_introl eq_refl)) as Hh.
  destruct (p h); [rewrite Hh by reflexivity; cbn [length]; lia|]. destruct (q h); cbn [length]; lia.
Qed.
Lemma filter_length_lt {A} (p q : A -> bool) l x : (forall x, In x l -> p x = true -> q x = true) ->
  In x l -> p x = false -> q x = true -> length (filter p l) < length (filter q l).
Proof.
  induction l as [|h l IH]; intros H Hx Px Qx; [destruct Hx|]. cbn [filter].
  pose proof (fun y Hy => H y (or_intror Hy)) as H'.
  destruct Hx as [-> | Hx].
  - rewrite Px, Qx. cbn [length]. pose proof (filter_length_le p q l H'). lia.
  - pose proof (IH H' Hx Px Qx) as I.
    pose proof (H h (or_introl eq_refl)) as Hh.
    destruct (p h); [rewrite Hh by reflexivity; cbn [length]; lia|]. destruct (q h); cbn [length]; lia.
Qed.
Lemma room_le v v' : incl v v' -> room v' <= room v.
Proof.
  intros I. apply filter_length_le. intros x _ H. apply negb_true_iff in H. apply negb_true_iff.
  apply mem_not in H. apply mem_not. auto.
Qed.
Lemma room_lt n v : n < size g -> mem n v = false -> room (n :: v) < room v.
Proof.
  intros L M. apply (filter_length_lt _ _ _ n).
  - intros x _ H. apply negb_true_iff in H. apply negb_true_iff. apply mem_not in H. apply mem_not.
    intro; apply H; right; assumption.
  - apply in_seq. lia.
  - apply negb_false_iff, mem_in. left; reflexivity.
  - rewrite M. reflexivity.
Qed.
Lemma room_nil : room [] = size g.
Proof.
  unfold room. replace (size g) with (length (seq 0 (size g))) at 2 by apply seq_length. f_equal.
  induction (seq 0 (size g)) as [|h l IH]; [reflexivity|]. cbn. f_equal. exact IH.
Qed.

Lemma eps_visit_total : forall f t n v, room v < f -> exists b v', eps_visit f t n v = Some (b, v') /\ incl v v'.
Proof.
  induction f as [|f IH]; intros t n v R; [lia|]. cbn [GrammarModel.eps_visit].
  destruct (mem n v) eqn:M; [exists true, v; split; [reflexivity|apply incl_refl]|].
  assert (K : kind n <> NOther -> room (n :: v) < f).
  { intros K. apply kind_lt in K. eapply Nat.lt_le_trans; [exact (room_lt n v K M)|]. lia. }
  assert (I : incl v (n :: v)) by (intros x Hx; right; exact Hx).
  assert (ONE : forall m, kind n <> NOther -> exists b v', eps_visit f t m (n :: v) = Some (b, v') /\ incl v v').
  { intros m Km. destruct (IH t m (n :: v) (K Km)) as (b & v' & E & J). exists b, v'. split; [exact E|].
    eapply incl_tran; eassumption. }
  assert (TWO : forall l r (k : bool -> bool), kind n <> NOther -> exists b v',
    obind (eps_visit f t l (n :: v)) (fun p => if k (fst p) then eps_visit f t r (snd p) else Some (fst p, snd p)) = Some (b, v') /\ incl v v').
  { intros l r k Km. destruct (IH t l (n :: v) (K Km)) as (b & v' & E & J). rewrite E. cbn [obind fst snd].
    destruct (k b).
    - destruct (IH t r v') as (b2 & v2 & E2 & J2); [eapply Nat.le_lt_trans; [exact (room_le _ _ J)|exact (K Km)]|].
      exists b2, v2. split; [exact E2|]. eapply incl_tran; [exact I|]. eapply incl_tran; eassumption.
    - exists b, v'. split; [reflexivity|]. eapply incl_tran; eassumption. }
  destruct (kind n) as [| | |s|s|i c a|i c a|[i|]|l r|l r|i s|tt [c|]|i|i|bb ops x|] eqn:Kn;
    try (eexists _, _; split; [reflexivity|exact I]); try (apply ONE; congruence).
  - destruct (TWO l r negb) as (b & v' & E & J); [congruence|]. exists b, v'. split; [|exact J].
    rewrite <- E. destruct (eps_visit f t l (n :: v)) as [[[] w]|]; reflexivity.
  - destruct (TWO l r (fun b => b)) as (b & v' & E & J); [congruence|]. exists b, v'. split; [|exact J].
    rewrite <- E. destruct (eps_visit f t l (n :: v)) as [[[] w]|]; reflexivity.
  - destruct (TWO tt c negb) as (b & v' & E & J); [congruence|]. exists b, v'. split; [|exact J].
    rewrite <- E. destruct (eps_visit f t tt (n :: v)) as [[[] w]|]; reflexivity.
  - destruct (TWO tt tt (fun _ => false)) as (b & v' & E & J); [congruence|]. exists b, v'. split; [|exact J].
    rewrite <- E. destruct (eps_visit f t tt (n :: v)) as [[[] w]|]; reflexivity.
Qed.
Lemma eps_runs t n : exists v', eps_visit (S (S (size g))) t n [] = Some (eps g t n, v').
Proof.
  destruct (eps_visit_total (S (S (size g))) t n []) as (b & v' & E & _); [rewrite room_nil; lia|].
  exists v'. unfold eps. rewrite E. reflexivity.
Qed.

(** ** Rounds without a change *)
Lemma add_to_quiet st d a st' : add_to g st d a = st' -> snd st' = false -> st' = st.
Proof. unfold add_to. destruct (news g (fst st) d a); intros <- H; [discriminate H|reflexivity]. Qed.
Lemma add_to_sub t d a : add_to g (t, false) d a = (t, false) -> forall x, x < size g -> a x = true -> t d x = true.
Proof.
  unfold add_to. destruct (news g (fst (t, false)) d a) eqn:E; [discriminate|]. intros _ x L A.
  destruct (t d x) eqn:T; [reflexivity|]. cbn [fst] in E.
  rewrite <- E. unfold news. apply existsb_exists. exists x. rewrite A, T. split; [apply in_seq; lia|reflexivity].
Qed.

Definition calm (st st' : table * bool) : Prop := snd st' = false -> st' = st.
Lemma calm_refl st : calm st st. Proof. intros _. reflexivity. Qed.
Lemma calm_trans a b c : calm a b -> calm b c -> calm a c.
Proof. intros A B H. pose proof (B H) as E. subst c. exact (A H). Qed.
Lemma calm_add st d a : calm st (add_to g st d a).
Proof. intros H. apply (add_to_quiet st d a); [reflexivity|exact H]. Qed.
Lemma calm_fmerge b st d s : calm st (fmerge g b st d s). Proof. apply calm_add. Qed.
Lemma calm_fmerge_opt b st d s : calm st (fmerge_opt g b st d s).
Proof. destruct s; [apply calm_fmerge|apply calm_refl]. Qed.

Lemma first_node_calm : forall f b P n st st', first_node f b P n st = Some st' -> calm st st'.
Proof.
  induction f as [|f IH]; intros b P n st st' E; [discriminate|]. cbn [GrammarModel.first_node] in E.
  assert (V : forall b m st st', (if mem m P then Some st else first_node f b (m :: P) m st) = Some st' -> calm st st').
  { intros b' m s s' H. destruct (mem m P); [injection H as <-; apply calm_refl|]. eapply IH; eassumption. }
  destruct (kind n) as [| | |s|s|i c a|i c a|[i|]|l r|l r|i s|tt [c|]|i|i|bb ops x|];
    try (injection E as <-; apply calm_refl);
    try (injection E as <-; eapply calm_trans; [apply calm_fmerge|apply calm_fmerge_opt]);
    try (apply obind_inv in E; destruct E as (s1 & E1 & E); injection E as <-; eapply calm_trans; [first [eapply IH; exact E1|eapply V; exact E1]|apply calm_fmerge]).
  - apply obind_inv in E; destruct E as (s1 & E1 & E); apply obind_inv in E; destruct E as (s2 & E2 & E); injection E as <-.
    eapply calm_trans; [eapply V; exact E1|]. eapply calm_trans; [eapply V; exact E2|]. eapply calm_trans; apply calm_fmerge.
  - apply obind_inv in E; destruct E as (s1 & E1 & E); apply obind_inv in E; destruct E as (s2 & E2 & E).
    eapply calm_trans; [eapply V; exact E1|]. eapply calm_trans; [eapply V; exact E2|].
    destruct (eps g _ l) in E.
    + apply obind_inv in E; destruct E as (s3 & E3 & E). injection E as <-. eapply calm_trans; [apply calm_fmerge|].
      eapply calm_trans; [eapply V; exact E3|]. apply calm_fmerge.
    + injection E as <-. apply calm_fmerge.
  - apply obind_inv in E; destruct E as (s1 & E1 & E); injection E as <-.
    eapply calm_trans; [eapply V; exact E1|]. eapply calm_trans; apply calm_fmerge.
  - apply obind_inv in E; destruct E as (s1 & E1 & E); apply obind_inv in E; destruct E as (s2 & E2 & E); injection E as <-.
    eapply calm_trans; [eapply V; exact E1|]. eapply calm_trans; [eapply V; exact E2|]. eapply calm_trans; apply calm_fmerge.
Qed.
Lemma each_rule_calm F l : (forall e st st', F e st = Some st' -> calm st st') ->
  forall st st', each_rule F l st = Some st' -> calm st st'.
Proof.
  intros H. induction l as [|e l IH]; intros st st' E; cbn [each_rule] in E; [injection E as <-; apply calm_refl|].
  apply obind_inv in E. destruct E as (s1 & E1 & E). eapply calm_trans; [eapply H; exact E1|]. eapply IH; exact E.
Qed.
Lemma each_rule_quiet F l t : (forall e st st', F e st = Some st' -> calm st st') ->
  each_rule F l (t, false) = Some (t, false) -> forall e, In e l -> F e (t, false) = Some (t, false).
Proof.
  intros H. induction l as [|h l IH]; intros E e He; [destruct He|]. cbn [each_rule] in E.
  apply obind_inv in E. destruct E as (s1 & E1 & E).
  pose proof (each_rule_calm F l H _ _ E eq_refl) as Q. subst s1.
  destruct He as [-> | He]; [exact E1|]. apply IH; assumption.
Qed.
End G.
