From Coq Require Import List NArith PeanoNat Bool Lia Permutation.
From Verif Require Import AstModel AstSpec.
Import ListNotations.
Local Open Scope N_scope.

(** ** Kinds and dispatch *)
Lemma kinds_values l : forall id x v, In (x, v) (kinds id l) -> id <= v < id + N.of_nat (length (kinds id l)).
Proof.
  induction l as [|s l IH]; intros id x v I; cbn [kinds] in *; [destruct I|]. destruct (soper s); cbn [In length] in *.
  - decompose [or] I; clear I; try (match goal with E : _ = _ |- _ => injection E as <- <- end; lia). match goal with H : In _ _ |- _ => apply IH in H; lia end.
  - destruct I as [E|I]; [injection E as <- <-; lia|apply IH in I; lia].
Qed.
Lemma kinds_snd l : forall id, map snd (kinds id l) = map (fun k => id + N.of_nat k) (seq 0 (length (kinds id l))).
Proof.
  assert (SH : forall n k id, map (fun i => id + N.of_nat i) (seq k n) = map (fun i => id + N.of_nat k + N.of_nat i) (seq 0 n)).
  { induction n as [|n IHn]; intros k id; [reflexivity|]. cbn [seq map]. f_equal; [lia|]. rewrite IHn. rewrite (IHn 1%nat). apply map_ext. intros i. lia. }
  induction l as [|s l IH]; intros id; cbn [kinds]; [reflexivity|]. destruct (soper s); cbn [map snd length seq].
  - rewrite IH, (SH _ 5%nat). change (N.of_nat 5) with 5. change (N.of_nat 0) with 0. change (N.of_nat 1) with 1. change (N.of_nat 2) with 2. change (N.of_nat 3) with 3. change (N.of_nat 4) with 4. rewrite N.add_0_r. reflexivity.
  - rewrite IH, (SH _ 1%nat). change (N.of_nat 1) with 1. change (N.of_nat 0) with 0. rewrite N.add_0_r. reflexivity.
Qed.
Lemma kinds_nodup l id : NoDup (map snd (kinds id l)).
Proof.
  rewrite kinds_snd. apply FinFun.Injective_map_NoDup; [|apply seq_NoDup]. intros a b E. lia.
Qed.
(** The n-th entry of the table is for the n-th kind. *)
Lemma kinds_table l : forall id k x v, nth_error (kinds id l) k = Some (x, v) -> v = id + N.of_nat k /\
  (nth_error (visit_table l) k = Some (Some x) \/ nth_error (visit_table l) k = Some None /\ exists s, In s l /\ soper s = true /\ x = capitalized (sname s)).
Proof.
  induction l as [|s l IH]; intros id k x v E; cbn [kinds visit_table] in *; [destruct k; discriminate|]. destruct (soper s) eqn:O; cbn [app] in *.
  - destruct k as [|[|[|[|[|k]]]]]; cbn [nth_error] in *; try (injection E as <- <-; split; [lia|auto]).
    + right. split; [reflexivity|]. exists s. split; [left; reflexivity|auto].
    + apply IH in E. destruct E as [-> [E|(E & s' & I & H)]]; (split; [lia|]); [left; exact E|right; split; [exact E|]]. exists s'. split; [right; exact I|exact H].
  - destruct k as [|k]; cbn [nth_error] in *; [injection E as <- <-; split; [lia|auto]|].
    apply IH in E. destruct E as [-> [E|(E & s' & I & H)]]; (split; [lia|]); [left; exact E|right; split; [exact E|]]. exists s'. split; [right; exact I|exact H].
Qed.
Lemma table_entry l x v : In (x, v) (node_kinds l) ->
  visit_by_table l v = Some (Some x) \/ visit_by_table l v = Some None /\ exists s, In s l /\ soper s = true /\ x = capitalized (sname s).
Proof.
  intros I. apply In_nth_error in I. destruct I as (k & E). destruct (kinds_table l 1000 k x v E) as [-> H]. unfold visit_by_table.
  replace (N.to_nat (1000 + N.of_nat k - 1000)) with k by lia. exact H.
Qed.
Lemma created_kinds l s x : In s l -> In x (created s) -> forall id, exists v, In (x, v) (kinds id l).
Proof.
  intros I C. induction l as [|t l IH]; intros id; [destruct I|]. destruct I as [<- | I].
  - unfold created in C. cbn [kinds]. destruct (soper t); cbn [In] in *; [decompose [or] C; try contradiction; subst x; eauto 10|destruct C as [<- | []]; eauto].
  - destruct (IH I (if soper t then id + 5 else id + 1)) as (v & H). exists v. cbn [kinds]. destruct (soper t); cbn [In]; tauto.
Qed.
Lemma lookup_in x v l : NoDup (map fst l) -> In (x, v) l -> lookup x l = Some v.
Proof.
  induction l as [|[y w] l IH]; intros N I; [destruct I|]. cbn [map fst] in N. inversion N as [|? ? N1 N2]; subst. cbn [lookup].
  destruct (list_eq_dec N.eq_dec x y) as [-> | NE]; destruct I as [E|I].
  - congruence.
  - destruct N1. apply (in_map fst) in I. exact I.
  - congruence.
  - apply IH; assumption.
Qed.
Lemma lookup_some x v l : lookup x l = Some v -> In (x, v) l.
Proof.
  induction l as [|[y w] l IH]; intros E; cbn [lookup] in E; [discriminate|]. destruct (list_eq_dec N.eq_dec x y) as [-> | _]; [left; congruence|right; auto].
Qed.
Lemma snd_inj {A} (l : list (A * N)) x y v : NoDup (map snd l) -> In (x, v) l -> In (y, v) l -> x = y.
Proof.
  induction l as [|[z w] l IH]; intros N I J; [destruct I|]. cbn [map snd] in N. inversion N as [|? ? N1 N2]; subst. destruct I as [I|I], J as [J|J].
  - congruence.
  - injection I as <- <-. destruct N1. apply (in_map snd) in J. exact J.
  - injection J as <- <-. destruct N1. apply (in_map snd) in I. exact I.
  - apply IH; assumption.
Qed.
Lemma cases_same l a b : In (a, b) (visit_cases l) -> a = b /\ exists s, In s l /\ In a (created s).
Proof.
  induction l as [|s l IH]; intros I; cbn [visit_cases] in I; [destruct I|]. apply in_app_or in I. destruct I as [I|I].
  - assert (C : a = b /\ In a (created s)); [|destruct C; split; [assumption|exists s; split; [left; reflexivity|assumption]]].
    unfold created. destruct (soper s); cbn [In] in I |- *; decompose [or] I; try contradiction; match goal with E : _ = _ |- _ => injection E as <- <- end; auto 10.
  - destruct (IH I) as [E (s' & J & C)]. split; [exact E|]. exists s'. split; [right; exact J|exact C].
Qed.
Lemma cases_created l s x : In s l -> In x (created s) -> In (x, x) (visit_cases l).
Proof.
  intros I C. induction l as [|t l IH]; [destruct I|]. cbn [visit_cases]. apply in_or_app. destruct I as [<- | I]; [left|right; auto].
  unfold created in C. destruct (soper t); cbn [In] in *; decompose [or] C; try contradiction; subst x; auto 10.
Qed.
Lemma dispatch l s x : NoDup (map fst (node_kinds l)) -> In s l -> In x (created s) ->
  exists v, lookup x (node_kinds l) = Some v /\ visit_by_switch l v = Some x /\ visit_by_table l v = Some (Some x).
Proof.
  intros N I C. destruct (created_kinds l s x I C 1000) as (v & K). exists v. split; [apply lookup_in; assumption|].
  assert (INJ : forall y, In (y, v) (node_kinds l) -> y = x) by (intros y J; eapply snd_inj; [apply (kinds_nodup l 1000)|exact J|exact K]). split.
  - unfold visit_by_switch. destruct (find _ (visit_cases l)) as [[a b]|] eqn:F.
    + apply find_some in F. destruct F as [Ia E]. cbn [fst] in E. destruct (lookup a (node_kinds l)) as [w|] eqn:L; [|discriminate]. apply N.eqb_eq in E. subst w.
      apply lookup_some in L. apply INJ in L. subst a. destruct (cases_same l x b Ia) as [-> _]. reflexivity.
    + pose proof (find_none _ _ F _ (cases_created l s x I C)) as X. cbn [fst] in X. rewrite (lookup_in x v _ N K) in X. rewrite N.eqb_refl in X. discriminate.
  - destruct (table_entry l x v K) as [E|(_ & s' & I' & O & E)]; [exact E|exfalso].
    (* a bare operator kind has the same name as a created one *)
    assert (P : forall l id, In s' l -> soper s' = true -> exists k, nth_error (kinds id l) k = Some (capitalized (sname s'), id + N.of_nat k) /\ nth_error (visit_table l) k = Some None).
    { clear. induction l as [|t l IH]; intros id I O; [destruct I|]. cbn [kinds visit_table]. destruct I as [<- | I].
      - rewrite O. exists 4%nat. cbn [nth_error app]. split; [f_equal; f_equal; lia|reflexivity].
      - destruct (soper t); cbn [app].
        + destruct (IH (id + 5) I O) as (k & A & B). exists (5 + k)%nat. cbn [nth_error Nat.add]. rewrite A. split; [f_equal; f_equal; lia|exact B].
        + destruct (IH (id + 1) I O) as (k & A & B). exists (S k). cbn [nth_error]. rewrite A. split; [f_equal; f_equal; lia|exact B]. }
    assert (Q : forall l id, In s l -> exists k, nth_error (kinds id l) k = Some (x, id + N.of_nat k) /\ nth_error (visit_table l) k = Some (Some x)).
    { clear - C. induction l as [|t l IH]; intros id I; [destruct I|]. cbn [kinds visit_table]. destruct I as [<- | I].
      - unfold created in C. destruct (soper t); cbn [In] in C.
        + decompose [or] C; try contradiction; subst x; [exists 0%nat|exists 1%nat|exists 2%nat|exists 3%nat]; cbn [nth_error app]; (split; [f_equal; f_equal; lia|reflexivity]).
        + destruct C as [<- | []]. exists 0%nat. cbn [nth_error app]. split; [f_equal; f_equal; lia|reflexivity].
      - destruct (soper t); cbn [app].
        + destruct (IH (id + 5) I) as (k & A & B). exists (5 + k)%nat. cbn [nth_error Nat.add]. rewrite A. split; [f_equal; f_equal; lia|exact B].
        + destruct (IH (id + 1) I) as (k & A & B). exists (S k). cbn [nth_error]. rewrite A. split; [f_equal; f_equal; lia|exact B]. }
    destruct (P l 1000 I' O) as (k1 & A1 & B1). destruct (Q l 1000 I) as (k2 & A2 & B2). rewrite <- E in A1.
    apply nth_error_In in A1. apply nth_error_In in A2. apply (lookup_in _ _ _ N) in A1. apply (lookup_in _ _ _ N) in A2. 
    assert (X : 1000 + N.of_nat k1 = 1000 + N.of_nat k2) by congruence. assert (k1 = k2) by (clear - X; lia). subst k2. congruence.
Qed.

(** ** Emission *)
Definition blank (s : symbol) : bool := match sbase s with [] => true | _ => false end.
Lemma first_time_perm l : forall g, exists e, Permutation l (e ++ snd (first_time l g)) /\ out (fst (first_time l g)) = out g ++ flat_map structs e.
Proof.
  induction l as [|s l IH]; intros g; cbn [first_time].
  - exists []. split; [reflexivity|]. cbn. rewrite app_nil_r. reflexivity.
  - destruct (must_wait s g).
    + destruct (IH g) as (e & P & O). destruct (first_time l g) as [g' w]. cbn [fst snd] in *. exists e. split; [|exact O]. apply Permutation_cons_app. exact P.
    + destruct (IH (generate s g)) as (e & P & O). exists (s :: e). split; [cbn [app]; constructor; exact P|]. rewrite O. cbn [out generate flat_map]. rewrite app_assoc. reflexivity.
Qed.
Lemma first_time_shorter l g : (length (snd (first_time l g)) <= length l)%nat.
Proof.
  destruct (first_time_perm l g) as (e & P & _). apply Permutation_length in P. rewrite app_length in P. lia.
Qed.
Lemma rounds_end fuel : forall w g, (length w < fuel)%nat -> exists g' w' e, rounds fuel w g = Some (g', w') /\ Permutation w (e ++ w') /\ out g' = out g ++ flat_map structs e.
Proof.
  induction fuel as [|f IH]; intros w g L; [lia|]. cbn [rounds]. unfold round. destruct (first_time_perm w g) as (e & P & O). pose proof (first_time_shorter w g) as SH.
  destruct (first_time w g) as [g' w'] eqn:E. cbn [fst snd] in *. destruct (Nat.eqb_spec (length w') (length w)) as [_|NE].
  - exists g', w', e. auto.
  - destruct (IH w' g') as (g2 & w2 & e2 & R & P2 & O2); [lia|]. exists g2, w2, (e ++ e2). split; [exact R|]. split.
    + rewrite <- app_assoc. rewrite P. apply Permutation_app_head. exact P2.
    + rewrite O2, O, flat_map_app, app_assoc. reflexivity.
Qed.
Lemma force_out w : forall g, out (force w g) = out g ++ flat_map structs w.
Proof.
  unfold force. induction w as [|s w IH]; intros g; cbn [fold_left flat_map]; [rewrite app_nil_r; reflexivity|]. rewrite IH. cbn [out generate]. rewrite app_assoc. reflexivity.
Qed.
Lemma emitted hash fuel l : (forall w, Permutation w (hash w)) -> (length l < fuel)%nat ->
  exists e, generate_ast hash fuel l = Some (flat_map structs e) /\ Permutation l e.
Proof.
  intros H F. unfold generate_ast. destruct (first_time_perm l {| generated := []; out := [] |}) as (e & P & O). pose proof (first_time_shorter l {| generated := []; out := [] |}) as SH.
  destruct (first_time l _) as [g w]. cbn [fst snd out app] in *. destruct (rounds_end fuel (hash w) g) as (g' & w' & e' & R & P' & O').
  { rewrite <- (Permutation_length (H w)). lia. }
  rewrite R. exists (e ++ e' ++ w'). rewrite force_out, O', O, !flat_map_app. split; [rewrite app_assoc; reflexivity|]. rewrite P. apply Permutation_app_head. rewrite (H w). exact P'.
Qed.
(** Bases that do not begin with a blank: all that have one come last. *)
Definition plain_base (s : symbol) : Prop := match sbase s with 32 :: _ => False | _ => True end.
Definition plain_marks (g : gen) : Prop := forall x, In x (generated g) -> exists y, x = 32 :: y.
Lemma marks_plain s x : In x (marks s) -> exists y, x = 32 :: y.
Proof. unfold marks. destruct (existsb _ _); [intros [<- | [<- | []]]; eauto|intros []]. Qed.
Lemma waits s g : plain_base s -> plain_marks g -> must_wait s g = negb (blank s).
Proof.
  intros PB PM. unfold must_wait, blank. destruct (sbase s) as [|c b] eqn:E; [reflexivity|]. cbn [negb andb].
  destruct (contains (c :: b) (generated g)) eqn:C; [|reflexivity]. unfold contains in C. rewrite existsb_exists in C. destruct C as (y & I & Q).
  destruct (list_eq_dec N.eq_dec (c :: b) y) as [<- |]; [|discriminate]. destruct (PM _ I) as (z & Z). injection Z as -> _. unfold plain_base in PB. rewrite E in PB. contradiction.
Qed.
Lemma generate_marks s g : plain_marks g -> plain_marks (generate s g).
Proof. intros PM x I. cbn [generated generate] in I. apply in_app_or in I. destruct I as [I|I]; [eapply marks_plain; exact I|auto]. Qed.
Lemma first_time_plain l : (forall s, In s l -> plain_base s) -> forall g, plain_marks g ->
  plain_marks (fst (first_time l g)) /\ snd (first_time l g) = filter (fun s => negb (blank s)) l /\ out (fst (first_time l g)) = out g ++ flat_map structs (filter blank l).
Proof.
  induction l as [|s l IH]; intros A g PM; cbn [first_time filter].
  - cbn. rewrite app_nil_r. auto.
  - assert (A' : forall t, In t l -> plain_base t) by (intros t I; apply A; right; exact I).
    rewrite (waits s g (A s (or_introl eq_refl)) PM). destruct (blank s) eqn:B; cbn [negb].
    + destruct (IH A' (generate s g) (generate_marks s g PM)) as (H1 & H2 & H3). split; [exact H1|]. split; [exact H2|]. rewrite H3. cbn [out generate flat_map]. rewrite app_assoc. reflexivity.
    + destruct (IH A' g PM) as (H1 & H2 & H3). destruct (first_time l g) as [g' w]. cbn [fst snd] in *. split; [exact H1|]. split; [congruence|exact H3].
Qed.
Lemma emitted_plain hash fuel l : (forall w, Permutation w (hash w)) -> (length l < fuel)%nat -> (forall s, In s l -> plain_base s) ->
  generate_ast hash fuel l = Some (flat_map structs (filter blank l) ++ flat_map structs (hash (filter (fun s => negb (blank s)) l))).
Proof.
  intros H F A. unfold generate_ast. destruct (first_time_plain l A {| generated := []; out := [] |}) as (PM & W & O); [intros x []|].
  destruct (first_time l _) as [g w]. cbn [fst snd out app] in *. subst w. set (w := filter (fun s => negb (blank s)) l) in *.
  assert (AW : forall s, In s (hash w) -> plain_base s /\ blank s = false).
  { intros s I. apply (Permutation_in _ (Permutation_sym (H w))) in I. apply filter_In in I. destruct I as [I B]. split; [apply A; exact I|]. destruct (blank s); [discriminate|reflexivity]. }
  destruct (first_time_plain (hash w) (fun s I => proj1 (AW s I)) g PM) as (_ & W' & O').
  assert (NB : filter (fun s => negb (blank s)) (hash w) = hash w /\ filter blank (hash w) = []).
  { clear - AW. induction (hash w) as [|s t IH]; [auto|]. destruct IH as [I1 I2]; [intros r J; apply AW; right; exact J|]. cbn [filter]. rewrite (proj2 (AW s (or_introl eq_refl))).
    cbn [negb]. rewrite I1, I2. auto. }
  destruct NB as [N1 N2]. rewrite N1 in W'. rewrite N2 in O'. cbn [flat_map] in O'. rewrite app_nil_r in O'.
  assert (FU : exists f, fuel = S f) by (destruct fuel; [lia|eauto]). destruct FU as (f & ->). cbn [rounds]. unfold round. destruct (first_time (hash w) g) as [g' w']. cbn [fst snd] in *.
  rewrite W', Nat.eqb_refl. rewrite force_out, O', O. reflexivity.
Qed.

Lemma flat_map_split {A B} (f : A -> list B) l : forall before x after, flat_map f l = before ++ x :: after ->
  exists l1 a l2 b1 b2, l = l1 ++ a :: l2 /\ f a = b1 ++ x :: b2 /\ before = flat_map f l1 ++ b1.
Proof.
  induction l as [|a l IH]; intros before x after E; cbn [flat_map] in E; [destruct before; discriminate|].
  symmetry in E. apply app_eq_app in E. destruct E as (m & [[E1 E2]|[E1 E2]]).
  - destruct (IH m x after E2) as (l1 & a' & l2 & b1 & b2 & -> & F & ->). exists (a :: l1), a', l2, b1, b2. split; [reflexivity|]. split; [exact F|].
    rewrite E1. cbn [flat_map]. rewrite app_assoc. reflexivity.
  - destruct m as [|y m]; cbn [app] in E2.
    + rewrite app_nil_r in E1. destruct (IH [] x after (eq_sym E2)) as (l1 & a' & l2 & b1 & b2 & -> & F & EB). exists (a :: l1), a', l2, b1, b2.
      split; [reflexivity|]. split; [exact F|]. cbn [flat_map]. rewrite <- app_assoc, <- EB, app_nil_r. symmetry. exact E1.
    + injection E2 as <- E2. exists [], a, l, before, m. auto.
Qed.
Definition ends_ast (x : text) : Prop := exists y, x = y ++ t_ast.
Lemma class_names s x : In x (classes s) -> ends_ast x.
Proof.
  unfold classes, structs. intros I. apply in_map_iff in I. destruct I as ([n b] & <- & I). apply in_flat_map in I. destruct I as (r & _ & I). unfold structs_of_rule in I.
  cbn [fst]. unfold ends_ast. destruct r; cbn [In] in I; decompose [or] I; try contradiction; match goal with E : (?a, _) = (n, b) |- _ => replace n with a by congruence end;
    try (eexists; rewrite app_assoc; reflexivity); eexists; reflexivity.
Qed.
Lemma node_no_class : ~ ends_ast t_node.
Proof. intros (y & E). apply (f_equal (@rev N)) in E. rewrite rev_app_distr in E. discriminate. Qed.
Lemma bases_ok l h : (forall s, In s h -> blank s = false) -> (forall s, In s l -> blank s = true) ->
  (forall s, In s h -> In (sbase s) (flat_map classes (l ++ h)) -> In (sbase s) (flat_map classes l)) ->
  bases_first (flat_map structs (l ++ h)).
Proof.
  intros NB BL ONE before name base after E IN.
  assert (CL : forall x k, In x (map fst (flat_map structs k)) <-> In x (flat_map classes k)).
  { intros x k. induction k as [|s k IH]; [reflexivity|]. cbn [flat_map]. rewrite map_app, !in_app_iff, IH. reflexivity. }
  destruct (flat_map_split _ _ _ _ _ E) as (l1 & s & l2 & b1 & b2 & EL & ES & ->). unfold structs in ES.
  destruct (flat_map_split _ _ _ _ _ ES) as (r1 & r & r2 & c1 & c2 & ER & EC & ->). rewrite map_app, in_app_iff.
  unfold structs_of_rule in EC. destruct c1 as [|y c1]; cbn [app] in EC.
  - injection EC as EN EB _. destruct (blank s) eqn:B.
    + exfalso. unfold base_class, blank in *. destruct (sbase s); [|discriminate]. subst base. apply CL in IN. apply in_flat_map in IN. destruct IN as (s' & _ & I). apply node_no_class. eapply class_names. exact I.
    + left. assert (SB : base = sbase s) by (unfold base_class, blank in *; destruct (sbase s); [discriminate|congruence]). subst base.
      assert (SH : In s h /\ exists l1', l1 = l ++ l1').
      { symmetry in EL. apply app_eq_app in EL. destruct EL as (m & [[E1 E2]|[E1 E2]]).
        - split; [rewrite E2; apply in_or_app; right; left; reflexivity|eauto].
        - destruct m as [|z m]; cbn [app] in E2.
          + rewrite app_nil_r in E1. split; [rewrite <- E2; left; reflexivity|exists []; rewrite app_nil_r; congruence].
          + injection E2 as <- E2. assert (X : blank s = true) by (apply BL; rewrite E1; apply in_or_app; right; left; reflexivity). congruence. }
      destruct SH as (SH & l1' & ->). rewrite flat_map_app, map_app, in_app_iff. left. apply CL. rewrite SB in *. apply ONE; [exact SH|]. apply CL. exact IN.
  - right. rewrite map_app, in_app_iff. right. injection EC as <- EC. cbn [map fst]. left.
    destruct r; [|destruct c1; discriminate].
    destruct c1 as [|? [|? [|? [|? [|? ?]]]]]; cbn [app] in EC; try (injection EC; intros; subst; reflexivity); try discriminate.
Qed.
