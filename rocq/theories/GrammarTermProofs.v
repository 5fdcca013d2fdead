(** The computations end, and what their results are. *)
From Coq Require Import List Bool PeanoNat Lia.
From Verif Require Import Base GrammarModel GrammarSpec GrammarProofs FirstProofs FollowProofs.
Import ListNotations.

Section G.
Variable g : grammar.
Notation kind := (kind g).
Hypothesis WF : well_formed g = true.
Let shaped := shaped g WF.

(** ** Every change makes the tables larger *)
Definition cells : list (id * id) := list_prod (seq 0 (size g)) (seq 0 (size g)).
Definition missing (f : table) : nat := length (filter (fun p => negb (f (fst p) (snd p))) cells).
Definition grows (f f' : table) : Prop := forall n x, f n x = true -> f' n x = true.
Definition progress (st st' : table * bool) : Prop :=
  grows (fst st) (fst st') /\ (snd st' = true -> snd st = true \/ missing (fst st') < missing (fst st)).
Lemma missing_le f f' : grows f f' -> missing f' <= missing f.
Proof.
  intros G. apply filter_length_le. intros [n x] _ H. cbn [fst snd] in *. apply negb_true_iff in H. apply negb_true_iff.
  destruct (f n x) eqn:E; [|reflexivity]. apply G in E. congruence.
Qed.
Lemma missing_bound f : missing f <= size g * size g.
Proof.
  unfold missing. etransitivity; [apply (filter_length_le _ (fun _ : id * id => true)); reflexivity|].
  assert (E : filter (fun _ : id * id => true) cells = cells) by (induction cells as [|h l IH]; [reflexivity|cbn; f_equal; exact IH]).
  rewrite E. unfold cells. rewrite prod_length, seq_length. apply le_n.
Qed.
Lemma progress_refl st : progress st st.
Proof. split; [intros n x H; exact H|auto]. Qed.
Lemma progress_trans a b c : progress a b -> progress b c -> progress a c.
Proof.
  intros [G1 P1] [G2 P2]. split; [intros n x H; apply G2, G1, H|].
  intros H. destruct (P2 H) as [P|P].
  - destruct (P1 P) as [Q|Q]; [auto|]. right. pose proof (missing_le _ _ G2). lia.
  - right. pose proof (missing_le _ _ G1). lia.
Qed.
Lemma add_to_progress st d a : d < size g -> progress st (add_to g st d a).
Proof.
  intros L. unfold add_to. destruct (news g (fst st) d a) eqn:N; [|apply progress_refl].
  assert (G : grows (fst st) (upd (fst st) d (fun x => fst st d x || a x))).
  { intros n x H. unfold upd. destruct (Nat.eqb n d) eqn:E; [|exact H]. apply Nat.eqb_eq in E. subst n. rewrite H. reflexivity. }
  split; [exact G|]. intros _. right. cbn [fst]. unfold news in N. apply existsb_exists in N. destruct N as (x & Hx & A).
  apply andb_true_iff in A. destruct A as [A1 A2].
  apply (filter_length_lt _ _ _ (d, x)).
  - intros [n y] _ H. cbn [fst snd] in *. apply negb_true_iff in H. apply negb_true_iff.
    destruct (fst st n y) eqn:E; [|reflexivity]. apply G in E. congruence.
  - apply in_prod; [apply in_seq; lia|exact Hx].
  - cbn [fst snd]. unfold upd. rewrite Nat.eqb_refl, A1, orb_true_r. reflexivity.
  - cbn [fst snd]. exact A2.
Qed.
Lemma fmerge_progress b st d s : d < size g -> progress st (fmerge g b st d s).
Proof. intros L. apply add_to_progress. exact L. Qed.
Lemma fmerge_opt_progress b st d s : d < size g -> progress st (fmerge_opt g b st d s).
Proof. intros L. destruct s; [apply fmerge_progress; exact L|apply progress_refl]. Qed.
Lemma omerge_progress st d s : d < size g -> progress st (omerge g st d s).
Proof. intros L. unfold omerge. destruct (is_zero g d || is_term g d); [apply progress_refl|apply add_to_progress; exact L]. Qed.
Lemma down_progress st d n : d < size g -> progress st (down g st d n).
Proof. intros L. apply omerge_progress. exact L. Qed.
Lemma omerge_opt_progress st d n : (forall e, d = Some e -> e < size g) -> progress st (omerge_opt g st d n).
Proof. intros L. destruct d; [apply omerge_progress; auto|apply progress_refl]. Qed.

(** ** Depth *)
Definition wide : nat := S (S (size g)).
Definition urank (n : id) : nat := if inside g n then S n else 0.
Lemma urank_le n : urank n <= size g.
Proof.
  unfold urank. destruct (inside g n) eqn:I; [|lia]. apply inside_lt in I. pose proof (proj1 (wf_parts g WF)). lia.
Qed.
Definition need (P : list id) (n : id) : nat := room g P * wide + urank n.
Lemma item_lt n : is_item g n = true -> n < size g.
Proof. intros H. apply kind_lt. intro E. unfold is_item in H. rewrite E in H. discriminate. Qed.
Lemma kid_lt n m : In m (kids g n) -> m < size g.
Proof. intros H. apply item_lt. eapply kid_item; eassumption. Qed.
Lemma need_guarded P n m f : need P n < S f -> In m (kids g n) -> mem m P = false -> need (m :: P) m < f.
Proof.
  intros H K M. pose proof (room_lt g m P (kid_lt n m K) M) as R. unfold need in *. pose proof (urank_le m) as U.
  unfold wide in *. assert (Q : S (room g (m :: P)) * S (S (size g)) <= room g P * S (S (size g))) by (apply Nat.mul_le_mono_r; exact R).
  cbn [Nat.mul] in Q. lia.
Qed.
Definition direct (n : id) : bool := match kind n with NPlus _ _ _ | NStar _ _ _ | NOper _ _ _ | NAct (Some _) | NTry _ None => true | _ => false end.
Lemma need_direct P n m f : need P n < S f -> In m (kids g n) -> direct n = true -> need P m < f.
Proof.
  intros H K D. unfold need in *. assert (U : urank m < urank n); [|lia].
  assert (KN : kind n <> NOther) by (intro E; unfold direct in D; rewrite E in D; discriminate).
  pose proof (shaped n KN) as SH. unfold shape in SH. unfold direct in D. unfold kids in K. unfold urank at 2.
  destruct (inside g n) eqn:I; [|destruct (kind n) as [| | |s|s|i c a|i c a|[i|]|l r|l r|i s|tt [c|]|i|i|bb ops x|]; discriminate].
  assert (BELOW : forall i, below g i n = true -> urank i < S n).
  { intros i B. apply below_lt in B. unfold urank. destruct (inside g i); lia. }
  assert (OUT : forall c, outside g c = true -> urank c < S n).
  { intros c O. unfold outside in O. apply andb_true_iff in O. destruct O as [O _]. apply Nat.leb_le in O. unfold urank.
    destruct (inside g c) eqn:IC; [apply inside_lt in IC; lia|lia]. }
  destruct (kind n) as [| | |s|s|i c a|i c a|[i|]|l r|l r|i s|tt [c|]|i|i|bb ops x|]; try discriminate; destruct K as [<- | []]; auto.
  - repeat rewrite andb_true_iff in SH. apply OUT. tauto.
  - repeat rewrite andb_true_iff in SH. apply OUT. tauto.
  - apply andb_true_iff in SH. destruct SH as [B C]. destruct ops as [|oo ops]; cbn [chain] in C.
    + apply Nat.eqb_eq in C. subst x. auto.
    + apply andb_true_iff in C. apply OUT. apply C.
Qed.

Lemma first_node_total : forall f b P n st, n < size g -> need P n < f -> exists st', first_node g f b P n st = Some st' /\ progress st st'.
Proof.
  induction f as [|f IH]; intros b P n st L H; [lia|]. cbn [first_node].
  assert (V : forall b m st, In m (kids g n) -> exists st', (if mem m P then Some st else first_node g f b (m :: P) m st) = Some st' /\ progress st st').
  { intros b' m s K. destruct (mem m P) eqn:M; [exists s; split; [reflexivity|apply progress_refl]|].
    apply IH; [eapply kid_lt; exact K|]. eapply need_guarded; eassumption. }
  assert (D : forall b m st, direct n = true -> In m (kids g n) -> exists st', first_node g f b P m st = Some st' /\ progress st st').
  { intros b' m s DI K. apply IH; [eapply kid_lt; exact K|]. eapply need_direct; eassumption. }
  assert (KIDS : kids g n = kids g n) by reflexivity. unfold kids in KIDS at 2.
  unfold direct in D.
  destruct (kind n) as [| | |s|s|i c a|i c a|[i|]|l r|l r|i s|tt [c|]|i|i|bb ops x|] eqn:K;
    try (eexists; split; [reflexivity|apply progress_refl]);
    try (eexists; split; [reflexivity|eapply progress_trans; [apply fmerge_progress|apply fmerge_opt_progress]; exact L]);
    try (destruct (D b c st eq_refl) as (s1 & E1 & P1); [rewrite KIDS; left; reflexivity|]; rewrite E1; cbn [obind]; eexists; split; [reflexivity|eapply progress_trans; [exact P1|apply fmerge_progress; exact L]]);
    try (destruct (D b a st eq_refl) as (s1 & E1 & P1); [rewrite KIDS; left; reflexivity|]; rewrite E1; cbn [obind]; eexists; split; [reflexivity|eapply progress_trans; [exact P1|apply fmerge_progress; exact L]]);
    try (destruct (D b x st eq_refl) as (s1 & E1 & P1); [rewrite KIDS; left; reflexivity|]; rewrite E1; cbn [obind]; eexists; split; [reflexivity|eapply progress_trans; [exact P1|apply fmerge_progress; exact L]]);
    try (destruct (D b i st eq_refl) as (s1 & E1 & P1); [rewrite KIDS; left; reflexivity|]; rewrite E1; cbn [obind]; eexists; split; [reflexivity|eapply progress_trans; [exact P1|apply fmerge_progress; exact L]]);
    try (destruct (D b tt st eq_refl) as (s1 & E1 & P1); [rewrite KIDS; left; reflexivity|]; rewrite E1; cbn [obind]; eexists; split; [reflexivity|eapply progress_trans; [exact P1|apply fmerge_progress; exact L]]).
  - destruct (V b l st) as (s1 & E1 & P1); [rewrite KIDS; left; reflexivity|]. rewrite E1. cbn [obind].
    destruct (V b r s1) as (s2 & E2 & P2); [rewrite KIDS; right; left; reflexivity|]. rewrite E2. cbn [obind].
    eexists. split; [reflexivity|]. eapply progress_trans; [exact P1|]. eapply progress_trans; [exact P2|].
    eapply progress_trans; apply fmerge_progress; exact L.
  - destruct (V b r st) as (s1 & E1 & P1); [rewrite KIDS; right; left; reflexivity|]. rewrite E1. cbn [obind].
    set (b' := if eps g (fst s1) r then b else true).
    destruct (V b' l s1) as (s2 & E2 & P2); [rewrite KIDS; left; reflexivity|]. rewrite E2. cbn [obind].
    set (s3 := fmerge g b' s2 n l). assert (P3 : progress s2 s3) by (apply fmerge_progress; exact L).
    destruct (eps g (fst s3) l).
    + destruct (V b' r s3) as (s4 & E4 & P4); [rewrite KIDS; right; left; reflexivity|]. rewrite E4. cbn [obind].
      eexists. split; [reflexivity|]. eapply progress_trans; [exact P1|]. eapply progress_trans; [exact P2|].
      eapply progress_trans; [exact P3|]. eapply progress_trans; [exact P4|]. apply fmerge_progress. exact L.
    + eexists. split; [reflexivity|]. eapply progress_trans; [exact P1|]. eapply progress_trans; [exact P2|exact P3].
  - destruct (V b i st) as (s1 & E1 & P1); [rewrite KIDS; left; reflexivity|]. rewrite E1. cbn [obind].
    assert (SH : shape g n = true) by (apply shaped; rewrite K; discriminate). unfold shape in SH. rewrite K in SH.
    destruct (inside g n); [|discriminate]. apply andb_true_iff in SH. destruct SH as [_ SY]. unfold is_sym in SY. apply andb_true_iff in SY. destruct SY as [SY _].
    apply inside_lt in SY. pose proof (proj1 (wf_parts g WF)) as R.
    eexists. split; [reflexivity|]. eapply progress_trans; [exact P1|]. eapply progress_trans; apply fmerge_progress; [exact L|lia].
  - destruct (V b tt st) as (s1 & E1 & P1); [rewrite KIDS; left; reflexivity|]. rewrite E1. cbn [obind].
    destruct (V b c s1) as (s2 & E2 & P2); [rewrite KIDS; right; left; reflexivity|]. rewrite E2. cbn [obind].
    eexists. split; [reflexivity|]. eapply progress_trans; [exact P1|]. eapply progress_trans; [exact P2|].
    eapply progress_trans; apply fmerge_progress; exact L.
  - destruct (V b i st) as (s1 & E1 & P1); [rewrite KIDS; left; reflexivity|]. rewrite E1. cbn [obind].
    eexists. split; [reflexivity|]. eapply progress_trans; [exact P1|]. apply fmerge_progress; exact L.
  - destruct (V b i st) as (s1 & E1 & P1); [rewrite KIDS; left; reflexivity|]. rewrite E1. cbn [obind].
    eexists. split; [reflexivity|]. eapply progress_trans; [exact P1|]. apply fmerge_progress; exact L.
Qed.

Lemma follow_node_total : forall f t P n st, n < size g -> need P n < f -> exists st', follow_node g f t P n st = Some st' /\ progress st st'.
Proof.
  induction f as [|f IH]; intros t P n st L H; [lia|]. cbn [follow_node].
  assert (V : forall m st, In m (kids g n) -> exists st', (if mem m P then Some st else follow_node g f t (m :: P) m st) = Some st' /\ progress st st').
  { intros m s K. destruct (mem m P) eqn:M; [exists s; split; [reflexivity|apply progress_refl]|].
    apply IH; [eapply kid_lt; exact K|]. eapply need_guarded; eassumption. }
  assert (D : forall m st, direct n = true -> In m (kids g n) -> exists st', follow_node g f t P m (down g st m n) = Some st' /\ progress st st').
  { intros m s DI K. destruct (IH t P m (down g s m n)) as (s' & E & PR); [eapply kid_lt; exact K|eapply need_direct; eassumption|].
    exists s'. split; [exact E|]. eapply progress_trans; [|exact PR]. apply down_progress. eapply kid_lt; exact K. }
  assert (KL : forall m, In m (kids g n) -> m < size g) by (intros m; apply kid_lt).
  assert (SYM : forall s, is_sym g s = true -> s < size g).
  { intros s SY. unfold is_sym in SY. apply andb_true_iff in SY. destruct SY as [SY _].
    apply inside_lt in SY. pose proof (proj1 (wf_parts g WF)) as R. lia. }
  assert (SR : forall s e, search_rule g s = Some e -> e < size g).
  { intros s e E. unfold search_rule in E. apply find_some in E. destruct E as [E _].
    destruct (rule_kind g WF e E) as (_ & i & s' & E'). apply kind_lt. rewrite E'. discriminate. }
  assert (KIDS : kids g n = kids g n) by reflexivity. unfold kids in KIDS at 2.
  unfold direct in D. assert (KN : kind n <> NOther -> shape g n = true) by apply shaped. unfold shape in KN.
  destruct (kind n) as [| | |s|s|i c a|i c a|[i|]|l r|l r|i s|tt [c|]|i|i|bb ops x|] eqn:K;
    try (eexists; split; [reflexivity|apply progress_refl]);
    try (apply D; [reflexivity|rewrite KIDS; left; reflexivity]).
  - specialize (KN ltac:(discriminate)). destruct (inside g n); [|discriminate].
    eexists; split; [reflexivity|]. eapply progress_trans; [apply omerge_opt_progress; intros e; apply SR|apply down_progress; apply SYM; exact KN].
  - specialize (KN ltac:(discriminate)). destruct (inside g n); [|discriminate].
    eexists; split; [reflexivity|]. eapply progress_trans; [apply omerge_opt_progress; intros e; apply SR|apply down_progress; apply SYM; exact KN].
  - destruct (V l (down g (down g st l n) r n)) as (s1 & E1 & P1); [rewrite KIDS; left; reflexivity|]. rewrite E1. cbn [obind].
    destruct (V r s1) as (s2 & E2 & P2); [rewrite KIDS; right; left; reflexivity|]. exists s2. split; [exact E2|].
    eapply progress_trans; [|exact P2]. eapply progress_trans; [|exact P1].
    eapply progress_trans; apply down_progress; apply KL; rewrite KIDS; [left|right; left]; reflexivity.
  - set (st1 := omerge g (down g st r n) l (t r)). set (st2 := if eps g t r then down g st1 l n else st1).
    assert (Ll : l < size g) by (apply KL; rewrite KIDS; left; reflexivity).
    assert (Lr : r < size g) by (apply KL; rewrite KIDS; right; left; reflexivity).
    destruct (V l st2) as (s1 & E1 & P1); [rewrite KIDS; left; reflexivity|]. rewrite E1. cbn [obind].
    destruct (V r s1) as (s2 & E2 & P2); [rewrite KIDS; right; left; reflexivity|]. exists s2. split; [exact E2|].
    eapply progress_trans; [|exact P2]. eapply progress_trans; [|exact P1].
    apply (progress_trans st st1 st2).
    + eapply progress_trans; [apply down_progress; exact Lr|apply omerge_progress; exact Ll].
    + unfold st2. destruct (eps g t r); [apply down_progress; exact Ll|apply progress_refl].
  - destruct (V i (down g (down g st n s) i n)) as (s1 & E1 & P1); [rewrite KIDS; left; reflexivity|]. exists s1. split; [exact E1|].
    eapply progress_trans; [|exact P1]. eapply progress_trans; apply down_progress; [exact L|apply KL; rewrite KIDS; left; reflexivity].
  - destruct (V tt (down g (down g st tt n) c n)) as (s1 & E1 & P1); [rewrite KIDS; left; reflexivity|]. rewrite E1. cbn [obind].
    destruct (V c s1) as (s2 & E2 & P2); [rewrite KIDS; right; left; reflexivity|]. exists s2. split; [exact E2|].
    eapply progress_trans; [|exact P2]. eapply progress_trans; [|exact P1].
    eapply progress_trans; apply down_progress; apply KL; rewrite KIDS; [left|right; left]; reflexivity.
  - destruct (V i (down g st i n)) as (s1 & E1 & P1); [rewrite KIDS; left; reflexivity|]. exists s1. split; [exact E1|].
    eapply progress_trans; [|exact P1]. apply down_progress. apply KL; rewrite KIDS; left; reflexivity.
  - destruct (V i (down g st i n)) as (s1 & E1 & P1); [rewrite KIDS; left; reflexivity|]. exists s1. split; [exact E1|].
    eapply progress_trans; [|exact P1]. apply down_progress. apply KL; rewrite KIDS; left; reflexivity.
Qed.

(** ** The loops *)
Definition deep (fuel : nat) : Prop := S (size g) * S (S (size g)) < fuel.
Lemma deep_rule fuel e : deep fuel -> In e (grules g) -> e < size g /\ need [e] e < fuel.
Proof.
  intros D He. destruct (rule_kind g WF e He) as (_ & i & s & K).
  assert (L : e < size g) by (apply kind_lt; rewrite K; discriminate). split; [exact L|].
  unfold need, deep, wide in *. pose proof (urank_le e) as U.
  assert (R : room g [e] <= size g) by (rewrite <- (room_nil g); apply room_le; intros x []).
  assert (room g [e] * S (S (size g)) <= size g * S (S (size g))) by (apply Nat.mul_le_mono_r; exact R).
  cbn [Nat.mul] in D. lia.
Qed.
Lemma each_rule_total F l : (forall e st, In e l -> exists st', F e st = Some st' /\ progress st st') ->
  forall st, exists st', each_rule F l st = Some st' /\ progress st st'.
Proof.
  induction l as [|e l IH]; intros H st; cbn [each_rule]; [exists st; split; [reflexivity|apply progress_refl]|].
  destruct (H e st (or_introl eq_refl)) as (s1 & E1 & P1). rewrite E1. cbn [obind].
  destruct (IH (fun e0 st0 He => H e0 st0 (or_intror He)) s1) as (s2 & E2 & P2). exists s2. split; [exact E2|]. eapply progress_trans; eassumption.
Qed.
Lemma first_loop_total : forall rounds fuel f, deep fuel -> missing f < rounds ->
  exists t, first_loop g rounds fuel f = Some t /\ grows f t /\ forall e, In e (grules g) -> exists k, quiet g t k false [e] e.
Proof.
  induction rounds as [|k IH]; intros fuel f D M; [lia|]. cbn [first_loop].
  destruct (each_rule_total (first_rule g fuel) (grules g)) with (st := (f, false)) as (st & E & P).
  { intros e st He. destruct (deep_rule fuel e D He) as [L N]. apply first_node_total; assumption. }
  rewrite E. cbn [obind]. destruct P as [G P]. cbn [fst snd] in *. destruct (snd st) eqn:C.
  - destruct (P eq_refl) as [P'|P']; [discriminate|]. destruct (IH fuel (fst st) D) as (t & E2 & G2 & Q2); [lia|].
    exists t. split; [exact E2|]. split; [intros n x H; apply G2, G, H|exact Q2].
  - exists (fst st). split; [reflexivity|]. split; [exact G|].
    assert (ST : st = (f, false)).
    { apply (each_rule_calm (first_rule g fuel) (grules g)) in E; [|intros e s s' H; eapply first_node_calm; exact H]. apply E. exact C. }
    subst st. cbn [fst]. intros e He. exists fuel.
    apply (each_rule_quiet (first_rule g fuel) (grules g) f); [intros e' s s' H; eapply first_node_calm; exact H|exact E|exact He].
Qed.
Lemma follow_loop_total t : forall rounds fuel f (c : bool), deep fuel -> missing f + (if c then 1 else 0) < rounds ->
  exists o, follow_loop g rounds fuel t (f, c) = Some o /\ grows f o /\ forall e, In e (grules g) -> exists k, fquiet g t o k [e] e.
Proof.
  induction rounds as [|k IH]; intros fuel f c D M; [lia|]. cbn [follow_loop].
  destruct (each_rule_total (follow_rule g fuel t) (grules g)) with (st := (f, c)) as (st & E & P).
  { intros e st He. destruct (deep_rule fuel e D He) as [L N]. apply follow_node_total; assumption. }
  rewrite E. cbn [obind]. destruct P as [G P]. cbn [fst snd] in *. destruct (snd st) eqn:C.
  - pose proof (missing_le _ _ G) as ML.
    assert (DEC : missing (fst st) + 0 < k).
    { destruct (P eq_refl) as [P'|P']; [subst c; lia|destruct c; lia]. }
    destruct (IH fuel (fst st) false D) as (o & E2 & G2 & Q2); [exact DEC|].
    exists o. split; [exact E2|]. split; [intros n x H; apply G2, G, H|exact Q2].
  - exists (fst st). split; [reflexivity|]. split; [exact G|].
    assert (ST : st = (f, c)).
    { apply (each_rule_calm (follow_rule g fuel t) (grules g)) in E; [|intros e s s' H; eapply follow_node_calm; exact H]. apply E. exact C. }
    subst st. cbn [fst snd] in *. subst c. intros e He. exists fuel.
    apply (each_rule_quiet (follow_rule g fuel t) (grules g) f); [intros e' s s' H; eapply follow_node_calm; exact H|exact E|exact He].
Qed.

(** More rounds or more depth make no difference. *)
End G.
