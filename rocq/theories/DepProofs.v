(** The explanations of conflicts. *)
From Coq Require Import List Bool PeanoNat Lia.
From Verif Require Import Base GrammarModel GrammarSpec GrammarProofs FirstProofs FollowProofs DepModel DepSpec.
Import ListNotations.

Lemma NoDup_app_intro {A} : forall l m : list A, NoDup l -> NoDup m -> (forall i, In i l -> ~ In i m) -> NoDup (l ++ m).
Proof.
  induction l as [|x l IH]; intros m L M H; cbn; [exact M|]. inversion L as [|? ? X L']; subst. constructor.
  - rewrite in_app_iff. intros [I|I]; [exact (X I)|]. apply (H x); [left; reflexivity|exact I].
  - apply IH; [exact L'|exact M|]. intros i Hi. apply H. right. exact Hi.
Qed.
Section C.
Variable inner has : id -> bool.
Variable ds : deps.
Notation picked := (picked ds).
Lemma picked_in b n m : In m (picked b n) <-> In (b, (n, m)) ds.
Proof.
  unfold DepModel.picked. rewrite nodup_In, in_map_iff. split.
  - intros ((b', (n', m')) & E & H). cbn in E. subst m'. apply filter_In in H. destruct H as (H & C). cbn in C. apply andb_true_iff in C. destruct C as (C1 & C2).
    apply eqb_prop in C1. apply Nat.eqb_eq in C2. subst. exact H.
  - intros H. exists (b, (n, m)). split; [reflexivity|]. apply filter_In. split; [exact H|]. cbn. rewrite eqb_reflx, Nat.eqb_refl. reflexivity.
Qed.
Lemma picked_nodup b n : NoDup (picked b n).
Proof. apply NoDup_nodup. Qed.
(** Nodes that are not yet in [all]. *)
Definition world : list id := nodup Nat.eq_dec (map (fun e => snd (snd e)) ds).
Definition missing (all : list id) : nat := length (filter (fun m => negb (mem m all)) world).
Lemma picked_world b n m : In m (picked b n) -> In m world.
Proof. intros H. apply picked_in in H. unfold world. rewrite nodup_In. apply in_map_iff. exists (b, (n, m)). auto. Qed.
Lemma fresh_in all l m : In m (fresh all l) <-> In m l /\ ~ In m all.
Proof. unfold fresh. rewrite filter_In, negb_true_iff. rewrite <- (mem_in m all). destruct (mem m all); intuition congruence. Qed.
Lemma missing_more all a : NoDup a -> (forall m, In m a -> In m world /\ ~ In m all) -> missing (all ++ a) + length a <= missing all.
Proof.
  intros N H. unfold missing. rewrite Nat.add_comm, <- app_length. apply NoDup_incl_length.
  - apply NoDup_app_intro; [exact N|apply NoDup_filter, NoDup_nodup|]. intros x X Y. apply filter_In in Y. destruct Y as (_ & Y). apply negb_true_iff in Y.
    assert (mem x (all ++ a) = true) by (apply mem_in, in_or_app; auto). congruence.
  - intros x X. apply in_app_or in X. apply filter_In. destruct X as [X|X].
    + destruct (H x X) as (W & A). split; [exact W|]. apply negb_true_iff. destruct (mem x all) eqn:M; [|reflexivity]. apply mem_in in M. contradiction.
    + apply filter_In in X. destruct X as (W & Y). split; [exact W|]. apply negb_true_iff in Y. apply negb_true_iff. destruct (mem x all) eqn:M; [|reflexivity].
      assert (mem x (all ++ a) = true) by (apply mem_in, in_or_app; left; apply mem_in; exact M). congruence.
Qed.
Lemma missing_less a b : incl a b -> missing b <= missing a.
Proof.
  intros I. unfold missing. apply NoDup_incl_length; [apply NoDup_filter, NoDup_nodup|]. intros x X. apply filter_In in X. destruct X as (W & Y). apply filter_In. split; [exact W|].
  apply negb_true_iff in Y. apply negb_true_iff. destruct (mem x a) eqn:M; [|reflexivity]. apply mem_in in M. apply I, mem_in in M. congruence.
Qed.
Lemma missing_all a : missing a <= length ds.
Proof.
  unfold missing. apply Nat.le_trans with (length world).
  - apply NoDup_incl_length; [apply NoDup_filter, NoDup_nodup|]. intros x X. apply filter_In in X. apply X.
  - unfold world. apply Nat.le_trans with (length (map (fun e : bool * (id * id) => snd (snd e)) ds)); [|rewrite map_length; lia].
    apply NoDup_incl_length; [apply NoDup_nodup|]. intros x X. apply nodup_In in X. exact X.
Qed.
Lemma picked_length b n : length (picked b n) <= length ds.
Proof.
  apply Nat.le_trans with (length (map (fun e : bool * (id * id) => snd (snd e)) ds)); [|rewrite map_length; lia].
  apply NoDup_incl_length; [apply picked_nodup|]. intros x X. apply picked_in in X. apply in_map_iff. eexists. split; [|exact X]. reflexivity.
Qed.
Lemma fd_ends : forall k all todo, 2 * missing all + length todo <= k -> exists r, fd_loop inner has ds k all todo = Some r.
Proof.
  induction k as [|k IH]; intros all todo L; destruct todo as [|x todo]; cbn [fd_loop]; eauto; cbn [length] in L; [lia|].
  destruct (inner x).
  - set (a := filter (fun m => negb (inner m)) (fresh all (picked true x))). set (b := fresh all (picked false x)). cbv zeta. apply IH.
    assert (A : missing (all ++ a) + length a <= missing all).
    { apply missing_more; [apply NoDup_filter, NoDup_filter, picked_nodup|]. intros m M. apply filter_In in M. destruct M as (M & _). apply fresh_in in M. split; [eapply picked_world; apply M|apply M]. }
    assert (B : missing (all ++ b) + length b <= missing all).
    { apply missing_more; [apply NoDup_filter, picked_nodup|]. intros m M. apply fresh_in in M. split; [eapply picked_world; apply M|apply M]. }
    assert (A' : missing (all ++ a ++ b) <= missing (all ++ a)) by (apply missing_less; intros y Y; rewrite !in_app_iff in *; tauto).
    assert (B' : missing (all ++ a ++ b) <= missing (all ++ b)) by (apply missing_less; intros y Y; rewrite !in_app_iff in *; tauto).
    rewrite !app_length. lia.
  - destruct (IH all todo) as (r & ->); [lia|]. cbn. eauto.
Qed.
Lemma fld_ends call v0 : (forall v x, incl v0 v -> In x world -> exists p, call v x = Some p /\ incl v (snd p)) ->
  forall k all todo v, 2 * missing all + length todo <= k -> incl todo world -> incl v0 v -> exists p, fld_loop inner ds call k all todo v = Some p /\ incl v (snd p).
Proof.
  intros C. induction k as [|k IH]; intros all todo v L T I; destruct todo as [|x todo]; cbn [fld_loop]; try (exists ([], v); split; [reflexivity|apply incl_refl]); cbn [length] in L; [lia|].
  assert (T' : incl todo world) by (intros y Y; apply T; right; exact Y).
  destruct (inner x).
  - set (b := fresh all (picked false x)). cbv zeta.
    assert (BW : forall m, In m b -> In m world /\ ~ In m all) by (intros m M; apply fresh_in in M; split; [eapply picked_world; apply M|apply M]).
    apply IH; [|apply incl_app; [exact T'|intros m M; apply (BW m M)]|exact I].
    assert (B : missing (all ++ b) + length b <= missing all) by (apply missing_more; [apply NoDup_filter, picked_nodup|exact BW]).
    rewrite app_length. lia.
  - destruct (C v x I (T x (or_introl eq_refl))) as (p & -> & I1). cbn [obind]. destruct (IH all todo (snd p)) as (q & -> & I2); [lia|exact T'|eapply incl_tran; eassumption|].
    cbn [obind]. eexists. split; [reflexivity|]. cbn [snd]. eapply incl_tran; eassumption.
Qed.
(** Nodes that can still be entered: those of [world], and the first. *)
Lemma explain_ends steps : 3 * length ds <= steps -> forall f v n, missing v < f -> In n world \/ S (missing v) < f -> exists p, explain inner has ds steps f v n = Some p /\ incl v (snd p).
Proof.
  intros ST. induction f as [|f IH]; intros v n L W; [lia|]. cbn [explain].
  destruct (mem n v) eqn:M; [exists ([], v); split; [reflexivity|apply incl_refl]|].
  assert (ML : missing (n :: v) < f).
  { destruct W as [W|W]; [|assert (missing (n :: v) <= missing v) by (apply missing_less; intros y Y; right; exact Y); lia].
    assert (missing (v ++ [n]) + length [n] <= missing v).
    { apply missing_more; [repeat constructor; intros []|]. intros m [<- | []]. split; [exact W|]. rewrite <- mem_in. congruence. }
    assert (missing (n :: v) <= missing (v ++ [n])) by (apply missing_less; intros y Y; apply in_app_or in Y; destruct Y as [Y|[<- | []]]; [right; exact Y|left; reflexivity]).
    cbn [length] in *. lia. }
  assert (BD : forall b, 2 * missing (picked b n) + length (picked b n) <= steps) by (intros b; pose proof (missing_all (picked b n)); pose proof (picked_length b n); lia).
  destruct (fd_ends steps (picked true n) (picked true n) (BD true)) as (r & ->). cbn [obind].
  destruct (fld_ends (explain inner has ds steps f) (n :: v)) with (k := steps) (all := picked false n) (todo := picked false n) (v := n :: v) as (q & -> & Q).
  - intros v' x I X. apply IH; [|left; exact X]. pose proof (missing_less _ _ I). lia.
  - apply BD.
  - intros m H. eapply picked_world; exact H.
  - apply incl_refl.
  - cbn [obind]. eexists. split; [reflexivity|]. cbn [snd]. intros y Y. apply Q. right. exact Y.
Qed.

(** What is printed begins with the token. *)
Lemma fd_right : forall k all todo r, fd_loop inner has ds k all todo = Some r -> forall m, In m r -> inner m = false /\ has m = true.
Proof.
  induction k as [|k IH]; intros all todo r E m M; destruct todo as [|x todo]; cbn [fd_loop] in E; try (injection E as <-; destruct M); try discriminate.
  destruct (inner x) eqn:X; [eapply IH; eassumption|]. apply obind_inv in E. destruct E as (r' & E & Q). injection Q as <-.
  destruct (has x) eqn:H; [destruct M as [<- | M]; [auto|]|]; eapply IH; eassumption.
Qed.
Lemma fld_right call : (forall v x p, call v x = Some p -> forall m, In m (fst p) -> inner m = false /\ has m = true) ->
  forall k all todo v p, fld_loop inner ds call k all todo v = Some p -> forall m, In m (fst p) -> inner m = false /\ has m = true.
Proof.
  intros C. induction k as [|k IH]; intros all todo v p E m M; destruct todo as [|x todo]; cbn [fld_loop] in E; try (injection E as <-; destruct M); try discriminate.
  destruct (inner x) eqn:X; [eapply IH; eassumption|]. apply obind_inv in E. destruct E as (p1 & E1 & E). apply obind_inv in E. destruct E as (q & E2 & Q). injection Q as <-.
  cbn [fst] in M. apply in_app_or in M. destruct M as [M|M]; [eapply C; eassumption|eapply IH; eassumption].
Qed.
Lemma explain_right steps : forall f v n p, explain inner has ds steps f v n = Some p -> forall m, In m (fst p) -> inner m = false /\ has m = true.
Proof.
  induction f as [|f IH]; intros v n p E m M; [discriminate|]. cbn [explain] in E. destruct (mem n v); [injection E as <-; destruct M|].
  apply obind_inv in E. destruct E as (r & E1 & E). apply obind_inv in E. destruct E as (q & E2 & Q). injection Q as <-. cbn [fst] in M. apply in_app_or in M.
  destruct M as [M|M]; [eapply fd_right; eassumption|eapply fld_right; [|exact E2|exact M]; exact IH].
Qed.

(** ** Nothing is passed over but what goes into added nodes *)
Definition covered (all : list id) (done : id -> Prop) (y : id) : Prop :=
  (inner y = true -> forall z, In (false, (y, z)) ds -> In z all) /\ (inner y = false -> done y).
Lemma covered_thru all done : (forall y, In y all -> covered all done y) -> forall x y, thru inner ds x y -> In x all -> In y all.
Proof. intros C x y T X. induction T as [|y z T IH Y H]; [exact X|]. apply (proj1 (C y IH) Y z H). Qed.
Lemma fd_covers : forall k all todo r p, fd_loop inner has ds k all todo = Some r ->
  (forall y, In y all -> ~ In y todo -> covered all (fun y => has y = true -> In y p) y) ->
  exists all', incl all all' /\ forall y, In y all' -> covered all' (fun y => has y = true -> In y (p ++ r)) y.
Proof.
  induction k as [|k IH]; intros all todo r p E I; destruct todo as [|x todo]; cbn [fd_loop] in E; try discriminate;
    try (injection E as <-; exists all; split; [apply incl_refl|]; intros y Y; destruct (I y Y (fun x => x)) as (A & B); split; [exact A|rewrite app_nil_r; exact B]).
  destruct (inner x) eqn:X.
  - destruct (IH _ _ _ p E) as (all' & J & C).
    + intros y Y N. destruct (Nat.eq_dec y x) as [->|D].
      * split; [|congruence]. intros _ z Z. apply in_or_app. destruct (in_dec Nat.eq_dec z all) as [L|L]; [left; exact L|right].
        apply in_or_app. right. apply fresh_in. split; [apply picked_in; exact Z|exact L].
      * apply in_app_or in Y. destruct Y as [Y|Y]; [|exfalso; apply N, in_or_app; right; exact Y].
        destruct (I y Y) as (A & B); [intros [->|Q]; [congruence|apply N, in_or_app; left; exact Q]|].
        split; [|exact B]. intros T z Z. apply in_or_app. left. exact (A T z Z).
    + exists all'. split; [|exact C]. intros y Y. apply J, in_or_app. left. exact Y.
  - apply obind_inv in E. destruct E as (r' & E & Q). injection Q as <-.
    destruct (IH _ _ _ (p ++ if has x then [x] else []) E) as (all' & J & C).
    + intros y Y N. destruct (Nat.eq_dec y x) as [->|D]; [split; [congruence|]; intros _ H; rewrite H; apply in_or_app; right; left; reflexivity|].
      destruct (I y Y) as (A & B); [intros [->|Q]; [congruence|exact (N Q)]|]. split; [exact A|]. intros T H. apply in_or_app. left. exact (B T H).
    + exists all'. split; [exact J|]. intros y Y. destruct (C y Y) as (A & B). split; [exact A|]. intros T H. specialize (B T H). rewrite <- app_assoc in B. destruct (has x); exact B.
Qed.
Definition closed (v v' r : list id) : Prop := incl v v' /\ forall d, In d v' -> ~ In d v ->
  (forall m y, In (false, (d, m)) ds -> thru inner ds m y -> inner y = false -> In y v') /\
  (forall m y, In (true, (d, m)) ds -> thru inner ds m y -> inner y = false -> has y = true -> In y r).
Lemma closed_app v v1 v2 r1 r2 : closed v v1 r1 -> closed v1 v2 r2 -> closed v v2 (r1 ++ r2).
Proof.
  intros (I1 & C1) (I2 & C2). split; [eapply incl_tran; eassumption|]. intros d D N. destruct (in_dec Nat.eq_dec d v1) as [D1|D1].
  - destruct (C1 d D1 N) as (A & B). split; [intros m y H T Y; apply I2; eapply A; eassumption|]. intros m y H T Y F. apply in_or_app. left. eapply B; eassumption.
  - destruct (C2 d D D1) as (A & B). split; [exact A|]. intros m y H T Y F. apply in_or_app. right. eapply B; eassumption.
Qed.
Lemma closed_same v r : closed v v r. Proof. split; [apply incl_refl|intros d D N; contradiction]. Qed.
Lemma fld_covers call : (forall v x p, call v x = Some p -> closed v (snd p) (fst p) /\ In x (snd p)) ->
  forall k all todo v p, fld_loop inner ds call k all todo v = Some p -> (forall y, In y all -> ~ In y todo -> covered all (fun y => In y v) y) ->
  closed v (snd p) (fst p) /\ exists all', incl all all' /\ forall y, In y all' -> covered all' (fun y => In y (snd p)) y.
Proof.
  intros C. induction k as [|k IH]; intros all todo v p E I; destruct todo as [|x todo]; cbn [fld_loop] in E; try discriminate;
    try (injection E as <-; split; [apply closed_same|exists all; split; [apply incl_refl|]; intros y Y; exact (I y Y (fun x => x))]).
  destruct (inner x) eqn:X.
  - destruct (IH _ _ _ _ E) as (CL & all' & J & CO).
    + intros y Y N. destruct (Nat.eq_dec y x) as [->|D].
      * split; [|congruence]. intros _ z Z. apply in_or_app. destruct (in_dec Nat.eq_dec z all) as [L|L]; [left; exact L|right].
        apply fresh_in. split; [apply picked_in; exact Z|exact L].
      * apply in_app_or in Y. destruct Y as [Y|Y]; [|exfalso; apply N, in_or_app; right; exact Y].
        destruct (I y Y) as (A & B); [intros [->|Q]; [congruence|apply N, in_or_app; left; exact Q]|].
        split; [|exact B]. intros T z Z. apply in_or_app. left. exact (A T z Z).
    + split; [exact CL|]. exists all'. split; [|exact CO]. intros y Y. apply J, in_or_app. left. exact Y.
  - apply obind_inv in E. destruct E as (p1 & E1 & E). apply obind_inv in E. destruct E as (q & E2 & Q). injection Q as <-. cbn [fst snd].
    destruct (C _ _ _ E1) as (C1 & X1). destruct (IH _ _ _ _ E2) as (CL & all' & J & CO).
    + intros y Y N. destruct (Nat.eq_dec y x) as [->|D]; [split; [congruence|]; intros _; exact X1|].
      destruct (I y Y) as (A & B); [intros [->|Q]; [congruence|exact (N Q)]|]. split; [exact A|]. intros T. apply C1. exact (B T).
    + split; [eapply closed_app; eassumption|]. exists all'. split; [exact J|exact CO].
Qed.
Lemma explain_closed steps : forall f v n p, explain inner has ds steps f v n = Some p -> closed v (snd p) (fst p) /\ In n (snd p).
Proof.
  induction f as [|f IH]; intros v n p E; [discriminate|]. cbn [explain] in E. destruct (mem n v) eqn:M.
  { injection E as <-. split; [apply closed_same|]. apply mem_in. exact M. }
  apply obind_inv in E. destruct E as (r & E1 & E). apply obind_inv in E. destruct E as (q & E2 & Q). injection Q as <-. cbn [fst snd].
  destruct (fd_covers _ _ _ _ [] E1) as (a1 & J1 & C1); [intros y Y N; contradiction|].
  destruct (fld_covers _ IH _ _ _ _ _ E2) as ((I2 & CL) & a2 & J2 & C2); [intros y Y N; contradiction|].
  split; [|apply I2; left; reflexivity]. split; [intros y Y; apply I2; right; exact Y|].
  intros d D N. destruct (Nat.eq_dec d n) as [->|ND].
  - split.
    + intros m y H T Y. apply (C2 y); [|exact Y]. apply (covered_thru _ _ C2 m y T). apply J2, picked_in, H.
    + intros m y H T Y F. apply in_or_app. left. apply (C1 y); [|exact Y|exact F]. apply (covered_thru _ _ C1 m y T). apply J1, picked_in, H.
  - destruct (CL d D) as (A & B); [intros [->|Y]; contradiction|]. split; [exact A|]. intros m y H T Y F. apply in_or_app. right. eapply B; eassumption.
Qed.
Lemma explain_complete steps f n p : explain inner has ds steps f [] n = Some p ->
  forall d m y, leads ds n d -> d = n \/ inner d = false -> In (true, (d, m)) ds -> thru inner ds m y -> inner y = false -> has y = true -> In y (fst p).
Proof.
  intros E d m y L DI H T Y F. destruct (explain_closed _ _ _ _ _ E) as ((_ & C) & N).
  assert (D : In d (snd p) \/ exists e k, In e (snd p) /\ In (false, (e, k)) ds /\ thru inner ds k d).
  { clear H DI. induction L as [|d k L IH Hk]; [left; exact N|].
    assert (K : forall d, In d (snd p) -> In (false, (d, k)) ds -> In k (snd p) \/ exists e k', In e (snd p) /\ In (false, (e, k')) ds /\ thru inner ds k' k).
    { intros d' D' H'. right. exists d', k. split; [exact D'|split; [exact H'|apply th_self]]. }
    destruct IH as [IH|(e & k' & X & X2 & X3)]; [exact (K d IH Hk)|].
    destruct (inner d) eqn:DI; [right; exists e, k'; split; [exact X|split; [exact X2|eapply th_step; eassumption]]|].
    apply (K d); [|exact Hk]. exact (proj1 (C e X (fun x => x)) k' d X2 X3 DI). }
  assert (D' : In d (snd p)).
  { destruct DI as [->|DI]; [exact N|]. destruct D as [D|(e & k & X & X2 & X3)]; [exact D|]. exact (proj1 (C e X (fun x => x)) k d X2 X3 DI). }
  exact (proj2 (C d D' (fun x => x)) m y H T Y F).
Qed.
(** ** Nothing else is said, if nothing that comes first is noted for added nodes *)
Section F.
Hypothesis FIRSTS : forall d m, In (true, (d, m)) ds -> inner d = false.
Lemma fd_from (ok : id -> Prop) : (forall x y, ok x -> inner x = true -> In (false, (x, y)) ds -> ok y) ->
  forall k all todo r, (forall m, In m todo -> ok m) -> fd_loop inner has ds k all todo = Some r -> forall m, In m r -> ok m.
Proof.
  intros STEP. induction k as [|k IH]; intros all todo r T E m M; destruct todo as [|x todo]; cbn [fd_loop] in E; try discriminate; try (injection E as <-; destruct M).
  assert (T' : forall m, In m todo -> ok m) by (intros y Y; apply T; right; exact Y).
  destruct (inner x) eqn:X.
  - eapply IH; [|exact E|exact M]. intros y Y. apply in_app_or in Y. destruct Y as [Y|Y]; [exact (T' y Y)|]. apply in_app_or in Y. destruct Y as [Y|Y].
    + exfalso. apply filter_In in Y. destruct Y as (Y & _). apply fresh_in in Y. destruct Y as (Y & _). apply picked_in in Y. apply FIRSTS in Y. congruence.
    + apply fresh_in in Y. destruct Y as (Y & _). apply picked_in in Y. apply (STEP x y); [apply T; left; reflexivity|exact X|exact Y].
  - apply obind_inv in E. destruct E as (r' & E & Q). injection Q as <-.
    assert (C : m = x \/ In m r') by (destruct (has x); [destruct M as [<- | M]; auto|auto]). destruct C as [->|C]; [apply T; left; reflexivity|]. eapply IH; eassumption.
Qed.
Definition heard (n m : id) : Prop := exists k, cause ds n k /\ thru inner ds k m.
Lemma fld_from call n0 : (forall v x p, leads ds n0 x -> call v x = Some p -> forall m, In m (fst p) -> heard n0 m) ->
  forall k all todo v p, (forall m, In m todo -> leads ds n0 m) -> fld_loop inner ds call k all todo v = Some p -> forall m, In m (fst p) -> heard n0 m.
Proof.
  intros C. induction k as [|k IH]; intros all todo v p T E m M; destruct todo as [|x todo]; cbn [fld_loop] in E; try discriminate; try (injection E as <-; destruct M).
  assert (T' : forall m, In m todo -> leads ds n0 m) by (intros y Y; apply T; right; exact Y).
  destruct (inner x) eqn:X.
  - eapply IH; [|exact E|exact M]. intros y Y. apply in_app_or in Y. destruct Y as [Y|Y]; [exact (T' y Y)|]. apply fresh_in in Y. destruct Y as (Y & _). apply picked_in in Y.
    eapply ld_step; [apply T; left; reflexivity|exact Y].
  - apply obind_inv in E. destruct E as (p1 & E1 & E). apply obind_inv in E. destruct E as (q & E2 & Q). injection Q as <-. cbn [fst] in M. apply in_app_or in M.
    destruct M as [M|M]; [exact (C _ _ _ (T x (or_introl eq_refl)) E1 m M)|eapply IH; eassumption].
Qed.
Lemma explain_from steps n0 : forall f v n p, leads ds n0 n -> explain inner has ds steps f v n = Some p -> forall m, In m (fst p) -> heard n0 m.
Proof.
  induction f as [|f IH]; intros v n p L E m M; [discriminate|]. cbn [explain] in E. destruct (mem n v); [injection E as <-; destruct M|].
  apply obind_inv in E. destruct E as (r & E1 & E). apply obind_inv in E. destruct E as (q & E2 & Q). injection Q as <-. cbn [fst] in M. apply in_app_or in M. destruct M as [M|M].
  - apply (fd_from (heard n0)) with (k := steps) (all := picked true n) (todo := picked true n) (r := r); [| |exact E1|exact M].
    + intros x y (k & C & T) X H. exists k. split; [exact C|eapply th_step; eassumption].
    + intros k K. apply picked_in in K. exists k. split; [exists n; auto|apply th_self].
  - eapply (fld_from (explain inner has ds steps f) n0); [| |exact E2|exact M].
    + intros v' x p' L' E'. eapply IH; eassumption.
    + intros k K. apply picked_in in K. eapply ld_step; eassumption.
Qed.
End F.
(** ** Without added nodes, nothing else either *)
Hypothesis PLAIN : forall b d m, In (b, (d, m)) ds -> inner m = false.
Lemma fd_plain : forall k all todo r, (forall m, In m todo -> inner m = false) -> fd_loop inner has ds k all todo = Some r -> forall m, In m r <-> In m todo /\ has m = true.
Proof.
  induction k as [|k IH]; intros all todo r P E m; destruct todo as [|x todo]; cbn [fd_loop] in E; try discriminate; try (injection E as <-; cbn; tauto).
  rewrite (P x (or_introl eq_refl)) in E. apply obind_inv in E. destruct E as (r' & E & Q). injection Q as <-. specialize (IH all todo r' (fun y Y => P y (or_intror Y)) E m).
  destruct (has x) eqn:H; cbn; rewrite IH; split; intuition congruence.
Qed.
Definition via (n : id) (r : list id) : Prop := forall m, In m r -> cause ds n m.
Lemma fld_sound call n : (forall v x p, leads ds n x -> call v x = Some p -> via n (fst p)) ->
  forall k all todo v p, (forall m, In m todo -> inner m = false) -> (forall m, In m todo -> leads ds n m) -> fld_loop inner ds call k all todo v = Some p -> via n (fst p).
Proof.
  intros C. induction k as [|k IH]; intros all todo v p P L E; destruct todo as [|x todo]; cbn [fld_loop] in E; try discriminate; try (injection E as <-; intros m []).
  rewrite (P x (or_introl eq_refl)) in E. apply obind_inv in E. destruct E as (p1 & E1 & E). apply obind_inv in E. destruct E as (q & E2 & Q). injection Q as <-. cbn [fst].
  intros m M. apply in_app_or in M. destruct M as [M|M]; [exact (C _ _ _ (L x (or_introl eq_refl)) E1 m M)|].
  exact (IH _ _ _ _ (fun y Y => P y (or_intror Y)) (fun y Y => L y (or_intror Y)) E2 m M).
Qed.
Lemma explain_sound steps n0 : forall f v n p, leads ds n0 n -> explain inner has ds steps f v n = Some p -> via n0 (fst p).
Proof.
  induction f as [|f IH]; intros v n p L E; [discriminate|]. cbn [explain] in E. destruct (mem n v); [injection E as <-; intros m []|].
  apply obind_inv in E. destruct E as (r & E1 & E). apply obind_inv in E. destruct E as (q & E2 & Q). injection Q as <-. cbn [fst].
  assert (PI : forall b m, In m (picked b n) -> inner m = false) by (intros b m H; apply picked_in in H; eapply PLAIN; exact H).
  intros m M. apply in_app_or in M. destruct M as [M|M].
  - apply (fd_plain _ _ _ _ (PI true) E1) in M. destruct M as (M & _). apply picked_in in M. exists n. auto.
  - eapply (fld_sound (explain inner has ds steps f) n0); [|exact (PI false)| |exact E2|exact M].
    + intros v' x p' L' E'. eapply IH; eassumption.
    + intros k K. apply picked_in in K. eapply ld_step; eassumption.
Qed.
End C.
