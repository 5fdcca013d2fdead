(** The generated parsers: property C122. *)
From Coq Require Import List Bool PeanoNat Lia.
From Verif Require Import Base GrammarModel GrammarSpec ParserModel ParserSpec ParserProofs ParserKeepProofs ParserProps CountSpec CountProofs.
Import ListNotations.

(** ** C122: one message for one mistake
    Full statement: a run that succeeds without try/recover gives no message,
    and one that fails gives at most one; both false (below, and C69). *)
Theorem C122_success_quiet_partial : forall g first follow tok cond f cur caught j st st', no_recover g -> no_oper g \/ no_try g ->
  run g first follow tok cond f cur caught j st = Done st' -> perr st' = perr st.
Proof.
  intros g first follow tok cond f cur caught j st st' NR ALT E. pose proof (run_hush g first follow tok cond NR ALT f cur caught j st) as H. rewrite E in H. exact H.
Qed.
Print Assumptions C122_success_quiet_partial.
(** At most one for each call that is open, and one for the token. *)
Theorem C122_depth_partial : forall g depth first follow tok cond f s st st', no_recover g -> no_oper g -> depth_of g depth ->
  run g first follow tok cond f s false (Rules (env g s)) st = Fail st' -> perr st' <= perr st + depth s.
Proof.
  intros g depth first follow tok cond f s st st' NR NO D E.
  pose proof (run_few g first follow tok cond NR (or_introl NO) depth D NO f s false (Rules (env g s)) (depth s) st (env_depth g depth D s)) as H. rewrite E in H. exact H.
Qed.
Print Assumptions C122_depth_partial.
(** [A x -> start] and [A B -> x]: two messages for one wrong token in
    [A A A], and the bound is two. *)
Definition twice : grammar := {|
  gnodes := [NZero; NTerm; NTerm; NSym; NSym; NNon 4; NCons 1 5; NEvolve 6 3; NCons 1 2; NEvolve 8 4; NTerm];
  gregular := 10; grules := [7; 9]; gzero := 0; gterms := [1; 2]; gstart := [3]; geof := 10 |}.
Definition twice_depth (n : id) : nat := nth n [0; 1; 1; 2; 1; 2; 2; 2; 1; 1; 1] 0.
Example C122_case : well_formed twice = true /\ silent twice = true /\ no_recover twice /\ no_oper twice /\ depth_of twice twice_depth /\ twice_depth 3 = 2 /\
  try_parse twice 3 [1; 1; 2] = Some (Done (PS 4 10 false 0 0)) /\ try_parse twice 3 [1; 1; 1] = Some (Fail (PS 3 1 false 0 2)).
Proof.
  split; [vm_compute; reflexivity|]. split; [vm_compute; reflexivity|].
  split; [intros n t; do 11 (destruct n as [|n]; [discriminate|]); unfold kind; rewrite nth_overflow by (cbn; lia); discriminate|].
  split; [intros n b ops x; do 11 (destruct n as [|n]; [discriminate|]); unfold kind; rewrite nth_overflow by (cbn; lia); discriminate|].
  split; [|repeat split; vm_compute; reflexivity].
  intros n. do 11 (destruct n as [|n]; [cbn; lia|]). unfold kind. rewrite nth_overflow by (cbn; lia). exact I.
Qed.
Theorem C122_one_refuted : exists g s w st, well_formed g = true /\ silent g = true /\ no_try g /\ no_oper g /\ try_parse g s w = Some (Fail st) /\ perr st = 2.
Proof.
  exists twice, 3, [1; 1; 1], (PS 3 1 false 0 2). destruct C122_case as (A & B & _ & C & _ & _ & _ & D). split; [exact A|]. split; [exact B|].
  split; [intros n t c; do 11 (destruct n as [|n]; [discriminate|]); unfold kind; rewrite nth_overflow by (cbn; lia); discriminate|]. auto.
Qed.
Print Assumptions C122_one_refuted.

(** [x -> start], [A x -> x] and [B -> x]: [A A ... A], where B is missing at
    the end, gives one message for each A and one more. *)
Lemma nth_repeat_lt (a d n : nat) : forall j, j < n -> nth j (repeat a n) d = a.
Proof. induction n as [|n IH]; intros [|j] L; cbn; try lia; auto. apply IH. lia. Qed.
Definition deep : grammar := {|
  gnodes := [NZero; NTerm; NTerm; NSym; NSym; NNon 4; NEvolve 5 3; NCons 1 5; NEvolve 7 4; NEvolve 2 4; NTerm];
  gregular := 10; grules := [6; 8; 9]; gzero := 0; gterms := [1; 2]; gstart := [3]; geof := 10 |}.
Lemma deep_x t o tok : rule_test deep t o 8 7 4 1 = true -> rule_test deep t o 8 7 4 10 = false -> rule_test deep t o 9 2 4 1 = false -> rule_test deep t o 9 2 4 10 = false ->
  forall k i e, (forall j, j < k -> tok (i + j) = 1) -> tok (i + k) = 10 -> forall f, 4 * k + 8 <= f ->
  run deep t o tok always f 4 false (Rules (env deep 4)) (PS (S i) (tok i) false 0 e) = Fail (PS (S (i + k)) 10 false 0 (e + k)).
Proof.
  intros T1 T1' T2 T2'. change (env deep 4) with [9; 8]. induction k as [|k IH]; intros i e A E f B.
  - rewrite Nat.add_0_r in *. destruct f as [|[|[|f]]]; try lia. rewrite E.
    cbn [run]. change (kind deep 9) with (NEvolve 2 4). cbv beta iota. unfold guarded. cbn [ptok]. rewrite T2'.
    change (kind deep 8) with (NEvolve 7 4). cbv beta iota. cbn [ptok]. rewrite T1'. rewrite Nat.add_0_r. reflexivity.
  - assert (A0 : tok i = 1) by (rewrite <- (Nat.add_0_r i); apply A; lia). rewrite A0.
    destruct f as [|[|[|[|f]]]]; try lia. cbn [run].
    change (kind deep 9) with (NEvolve 2 4). cbv beta iota. unfold guarded. cbn [ptok]. rewrite T2.
    change (kind deep 8) with (NEvolve 7 4). cbv beta iota. cbn [ptok]. rewrite T1.
    change (is_cond deep 7) with false. cbv beta iota. change (kind deep 7) with (NCons 1 5). cbv beta iota.
    change (kind deep 1) with NTerm. change (kind deep 5) with (NNon 4). cbv beta iota. cbn [ptok Nat.eqb next_do]. unfold yylex. cbn [pidx pblock pclock perr].
    change (env deep 4) with [9; 8].
    pose proof (IH (S i) e) as H.
    assert (H1 : forall j, j < k -> tok (S i + j) = 1) by (intros j L; replace (S i + j) with (i + S j) by lia; apply A; lia).
    assert (H2 : tok (S i + k) = 10) by (replace (S i + k) with (i + S k) by lia; exact E).
    specialize (H H1 H2 f ltac:(lia)). rewrite H.
    cbn [called next_do]. unfold report, complain. cbn. replace (S (i + k)) with (i + S k) by lia. replace (S (e + k)) with (e + S k) by lia. reflexivity.
Qed.
Theorem C122_cascade_refuted : well_formed deep = true /\ silent deep = true /\ no_try deep /\ no_oper deep /\
  exists t o, sets deep = Some (t, o) /\ forall k, exists f st, parse deep t o (stream deep (repeat 1 (S k))) always f 3 = Fail st /\ perr st = S (S k).
Proof.
  split; [vm_compute; reflexivity|]. split; [vm_compute; reflexivity|].
  split; [intros n t c; do 11 (destruct n as [|n]; [discriminate|]); unfold kind; rewrite nth_overflow by (cbn; lia); discriminate|].
  split; [intros n b ops x; do 11 (destruct n as [|n]; [discriminate|]); unfold kind; rewrite nth_overflow by (cbn; lia); discriminate|].
  assert (C : match sets deep with Some (t, o) =>
      rule_test deep t o 8 7 4 1 = true /\ rule_test deep t o 8 7 4 10 = false /\ rule_test deep t o 9 2 4 1 = false /\ rule_test deep t o 9 2 4 10 = false /\
      rule_test deep t o 6 5 3 1 = true | None => False end) by (vm_compute; repeat split; reflexivity).
  destruct (sets deep) as [[t o]|]; [|destruct C]. exists t, o. split; [reflexivity|]. destruct C as (C1 & C2 & C3 & C4 & C5).
  intros k. exists (S (S (4 * S k + 8))). eexists. unfold parse.
  assert (ST : forall j, j < S k -> stream deep (repeat 1 (S k)) (0 + j) = 1).
  { intros j L. unfold stream. rewrite nth_repeat_lt by lia. reflexivity. }
  assert (EN : stream deep (repeat 1 (S k)) (0 + S k) = 10).
  { unfold stream. rewrite nth_overflow; [reflexivity|]. rewrite repeat_length. lia. }
  pose proof (deep_x t o (stream deep (repeat 1 (S k))) C1 C2 C3 C4 (S k) 0 0 ST EN (4 * S k + 8) (le_n _)) as H.
  unfold start_state. set (tk := stream deep (repeat 1 (S k))) in *. assert (T0 : tk 0 = 1) by (apply (ST 0); lia).
  change (env deep 3) with [6]. remember (4 * S k + 8) as F. cbn [run]. change (kind deep 6) with (NEvolve 5 3). cbv beta iota. unfold guarded. cbn [ptok].
  rewrite T0 in *. rewrite C5. change (is_cond deep 5) with false. cbv beta iota. change (kind deep 5) with (NNon 4). cbv beta iota. rewrite H.
  split; [reflexivity|]. cbn. reflexivity.
Qed.
Print Assumptions C122_cascade_refuted.
