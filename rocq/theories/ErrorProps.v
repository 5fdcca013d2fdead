(** Where the generated parser finds an error. *)
From Coq Require Import List Bool PeanoNat Lia.
From Verif Require Import Base GrammarModel GrammarSpec GrammarProofs FirstProofs ParserModel ParserSpec ParserProofs ParserKeepProofs
  CheckerModel CompleteSpec CompleteProofs CheckerProofs ErrorSpec ErrorProofs ParserProps.
Import ListNotations.

(** C77.  A parser that fails has read the beginning of a sentence, and nothing
    more: errors are not found too late.  For all sets and conditions; needed:
    everything in the grammar describes some word, no try/recover, and what is
    inlined can be empty. *)
Theorem C77_read_is_viable_partial : forall g first follow tok cond fuel s st,
  well_formed g = true -> operators_on_top g -> operators_alone g -> no_recovery g -> inlined_can_be_empty g -> productive g -> kind g s = NSym ->
  parse g first follow tok cond fuel s = Fail st ->
  viable g s (slice tok 0 (pidx st - 1)) /\ ptok st = tok (pidx st - 1).
Proof.
  intros g first follow tok cond fuel s st WF TOP AL NR IN PR K E. unfold parse in E.
  assert (G0 : good tok (start_state tok)) by (split; [cbn; lia|reflexivity]).
  pose proof (run_viable g first follow tok cond WF TOP AL NR IN PR fuel s false _ _ _ E G0 K (env_rules g s)) as V. split; [exact V|].
  pose proof (run_moves g first follow tok cond fuel s false (Rules (env g s)) _ G0) as M. rewrite E in M. apply M.
Qed.
Print Assumptions C77_read_is_viable_partial.

Lemma slice_firstn g w k : k <= length w -> slice (stream g w) 0 k = firstn k w.
Proof.
  intros L. apply (nth_ext _ _ (geof g) (geof g)); unfold slice; rewrite map_length, seq_length; [rewrite firstn_length; lia|].
  intros n Ln. rewrite (nth_indep _ (geof g) (stream g w 0)) by (rewrite map_length, seq_length; exact Ln).
  rewrite (map_nth (stream g w) (seq 0 k) 0 n). rewrite seq_nth by exact Ln. cbn [plus]. unfold stream. revert k L n Ln. clear.
  induction w as [|x w IH]; intros k L n Ln; [cbn in L; lia|]. destruct k as [|k]; [lia|]. cbn [firstn]. destruct n as [|n]; [reflexivity|]. cbn [nth]. apply IH; [cbn in L; lia|lia].
Qed.
(** Under the conditions of C70 the error is at the first token that no sentence
    has there: the tokens before it are the beginning of a sentence, and with it they are
    not. *)
Theorem C77_error_position_partial : forall g rounds fuel first follow w s e i,
  well_formed g = true -> code_has_company g -> operators_on_top g -> operators_alone g -> no_recovery g -> inlined_can_be_empty g -> end_not_written g -> productive g ->
  compute_first g rounds fuel = Some first -> compute_follow g rounds fuel first = Some follow ->
  no_error g first = true -> no_conflict g first follow = true -> careful g first follow = true ->
  In e (grules g) -> kind g e = NEvolve i s -> In s (gstart g) ->
  forall cond, (forall k, cond k = true) -> forall f st, parse g first follow (stream g w) cond f s = Fail st ->
  let k := pidx st - 1 in
  k <= length w /\ viable g s (firstn k w) /\ (k < length w -> ~ viable g s (firstn (S k) w)) /\ (k = length w -> ~ derives g s w).
Proof.
  intros g rounds fuel first follow w s e i WF CO TOP AL NR IN EN PR E1 E2 NE NC OK He Ke Is cond C f st E k.
  pose proof (rule_sym g WF e i s Ke) as K.
  destruct (C77_read_is_viable_partial g first follow (stream g w) cond f s st WF TOP AL NR IN PR K E) as (V & T). fold k in V.
  assert (G0 : good (stream g w) (start_state (stream g w))) by (split; [cbn; lia|reflexivity]).
  pose proof (run_moves g first follow (stream g w) cond f s false (Rules (env g s)) _ G0) as M. unfold parse in E. rewrite E in M. destruct M as [[M1 _] _].
  assert (L : k <= length w).
  { destruct (Nat.lt_ge_cases (length w) k) as [L|L]; [|exact L]. exfalso. apply EN. destruct V as (v & D).
    apply (words_declared g WF s _ D); [exact (sym_inside g WF s K)|]. apply in_app_iff. left. unfold slice. apply in_map_iff. exists (length w).
    split; [unfold stream; apply nth_overflow; lia|apply in_seq; lia]. }
  split; [exact L|]. split; [rewrite <- (slice_firstn g w k L); exact V|]. split.
  - intros LK (v & D).
    destruct (accepts g first follow WF rounds fuel _ s e i CO TOP E1 E2 NE NC OK He Ke Is D cond C) as (f' & st' & P & _).
    assert (AG : forall j, j < pidx st -> stream g (firstn (S k) w ++ v) j = stream g w j).
    { intros j Lj. unfold stream. assert (Lf : j < length (firstn (S k) w)) by (rewrite firstn_length; lia).
      rewrite app_nth1 by exact Lf. rewrite <- (firstn_skipn (S k) w) at 2. rewrite app_nth1 by exact Lf. reflexivity. }
    assert (NR2 : forall n t c, kind g n <> NTry t (Some c)).
    { intros n t c Kn. assert (SH : shape g n = true) by (apply (shaped g WF); rewrite Kn; discriminate).
      assert (IN2 : inside g n = true) by (unfold shape in SH; destruct (inside g n); [reflexivity|rewrite Kn in SH; discriminate SH]).
      pose proof (item_fine g first follow OK n IN2) as F. unfold item_ok in F. rewrite Kn in F. discriminate F. }
    pose proof (run_follows g first follow (stream g w) (stream g (firstn (S k) w ++ v)) cond (pidx st) AG NR2 f s false (Rules (env g s)) _ G0) as X.
    rewrite E in X. destruct X as (_ & _ & X). specialize (X (le_n _)).
    assert (ST : start_state (stream g w) = start_state (stream g (firstn (S k) w ++ v))) by (unfold start_state; rewrite AG by lia; reflexivity).
    rewrite ST in X. exact (never g first follow _ cond s f st X f' st' P).
  - intros EQ D. destruct (accepts g first follow WF rounds fuel w s e i CO TOP E1 E2 NE NC OK He Ke Is D cond C) as (f' & st' & P & _).
    exact (never g first follow _ cond s f st E f' st' P).
Qed.
Print Assumptions C77_error_position_partial.

Lemma inlined_not_viable : ~ viable inlined 4 [2; 2].
Proof.
  intros (v & D).
  destruct (sym_inv inlined 4 _ eq_refl D) as (e & i & He & Ke & D1). destruct He as [<- | [<- | []]]; cbn in Ke; try discriminate. injection Ke as <-.
  destruct (cons_inv inlined 8 2 7 _ eq_refl D1) as (u & v' & E & D2 & D3). rewrite (term_inv inlined 2 _ eq_refl D2) in E. injection E as E.
  destruct (cons_inv inlined 7 6 2 _ eq_refl D3) as (u' & v2 & E' & D4 & D5). rewrite E' in E.
  apply (inl_inv inlined 6 3 _ eq_refl) in D4. destruct (sym_inv inlined 3 _ eq_refl D4) as (e & i & He & Ke & D6). destruct He as [<- | [<- | []]]; cbn in Ke; try discriminate. injection Ke as <-.
  rewrite (term_inv inlined 1 _ eq_refl D6) in E. discriminate E.
Qed.
(** False for what is inlined and cannot be empty: [C #s C -> start ;; A -> s] reads
    two C and fails at the third. *)
Theorem C77_inline_refuted : exists g w s t o f st, well_formed g = true /\ no_recovery g /\
  compute_first g 300 1500 = Some t /\ compute_follow g 300 1500 t = Some o /\ no_error g t = true /\ no_conflict g t o = true /\
  In s (gstart g) /\ parse g t o (stream g w) always f s = Fail st /\ ~ viable g s (firstn (pidx st - 1) w).
Proof.
  assert (P : exists t o st, sets inlined = Some (t, o) /\ no_error inlined t = true /\ no_conflict inlined t o = true /\
    parse inlined t o (stream inlined [2; 2; 2]) always 300 4 = Fail st /\ pidx st = 3).
  { assert (H : match sets inlined with
                | Some (t, o) => (no_error inlined t && no_conflict inlined t o && match parse inlined t o (stream inlined [2; 2; 2]) always 300 4 with Fail st => Nat.eqb (pidx st) 3 | _ => false end)%bool
                | None => false end = true) by (vm_compute; reflexivity).
    destruct (sets inlined) as [[t o]|]; [|discriminate H]. apply andb_true_iff in H. destruct H as (H & X). apply andb_true_iff in H. destruct H as (H1 & H2).
    destruct (parse inlined t o (stream inlined [2; 2; 2]) always 300 4) as [st|st| |] eqn:Q; try discriminate X. apply Nat.eqb_eq in X. exists t, o, st. split; [reflexivity|]. split; [exact H1|]. split; [exact H2|]. split; [exact Q|exact X]. }
  destruct P as (t & o & st & S0 & N1 & N2 & P & X). apply sets_first in S0. destruct S0 as (S1 & S2).
  exists inlined, [2; 2; 2], 4, t, o, 300, st.
  split; [vm_compute; reflexivity|]. split.
  { intros n k K. destruct (Nat.lt_ge_cases n 11) as [L|L]; [do 11 (destruct n as [|n]; [discriminate|]); lia|unfold kind in K; rewrite nth_overflow in K by exact L; discriminate]. }
  split; [exact S1|]. split; [exact S2|]. split; [exact N1|]. split; [exact N2|]. split; [cbn; auto|]. split; [exact P|].
  rewrite X. exact inlined_not_viable.
Qed.
Print Assumptions C77_inline_refuted.

(** [! ( ID + ;]: the error is at [;], which is position 4. *)
Lemma psample_productive : productive psample.
Proof.
  assert (T : forall n, kind psample n = NTerm -> derives psample n [n]) by (intros; apply d_term; assumption).
  assert (D19 : derives psample 19 [1]) by (eapply d_altl; [reflexivity|apply T; reflexivity]).
  assert (D10 : derives psample 10 [1]) by (eapply (d_sym psample 10 20); [reflexivity|cbn; auto|reflexivity|exact D19]).
  assert (D15 : derives psample 15 [1]) by (eapply d_non; [reflexivity|exact D10]).
  assert (D16 : derives psample 16 [1]) by (eapply d_base; [reflexivity|exact D15]).
  assert (D9 : derives psample 9 [1]) by (eapply (d_sym psample 9 17); [reflexivity|cbn; auto|reflexivity|exact D16]).
  assert (D11 : derives psample 11 [1]) by (eapply d_non; [reflexivity|exact D9]).
  assert (D12 : derives psample 12 ([1] ++ [3])) by (eapply d_cons; [reflexivity|exact D11|apply T; reflexivity]).
  assert (D13 : derives psample 13 []) by (eapply d_star0; reflexivity).
  assert (Z : derives psample 0 []) by (apply d_zero; reflexivity).
  assert (D8 : derives psample 8 []) by (eapply (d_sym psample 8 14); [reflexivity|cbn; auto|reflexivity|exact D13]).
  assert (D22 : derives psample 22 []) by (eapply d_altl; [reflexivity|exact Z]).
  assert (D24 : derives psample 24 []) by (eapply d_altl; [reflexivity|exact Z]).
  assert (D18 : derives psample 18 [2]) by (eapply d_plus1; [reflexivity|apply T; reflexivity]).
  assert (D21 : derives psample 21 (([1] ++ [3]) ++ [])) by (eapply d_cons; [reflexivity|exact D12|exact D22]).
  assert (D23 : derives psample 23 ([2] ++ [])) by (eapply d_cons; [reflexivity|apply T; reflexivity|exact D24]).
  assert (D30 : derives psample 30 [1]) by (eapply d_altr; [reflexivity|exact D15]).
  assert (D27 : derives psample 27 [1]) by (eapply d_altr; [reflexivity|exact D30]).
  assert (D25 : derives psample 25 [1]) by (eapply d_altr; [reflexivity|exact D27]).
  assert (D26 : derives psample 26 ([7] ++ [1])) by (eapply d_cons; [reflexivity|apply T; reflexivity|exact D25]).
  assert (D29 : derives psample 29 ([4] ++ [1])) by (eapply d_cons; [reflexivity|apply T; reflexivity|exact D25]).
  assert (D28 : derives psample 28 ([1] ++ [4] ++ [1])) by (eapply d_cons; [reflexivity|exact D25|exact D29]).
  assert (D32 : derives psample 32 ([1] ++ [6])) by (eapply d_cons; [reflexivity|exact D25|apply T; reflexivity]).
  assert (D31 : derives psample 31 ([5] ++ [1] ++ [6])) by (eapply d_cons; [reflexivity|apply T; reflexivity|exact D32]).
  assert (D14 : derives psample 14 []) by (eapply d_evolve; [reflexivity|exact D13]).
  assert (D17 : derives psample 17 [1]) by (eapply d_evolve; [reflexivity|exact D16]).
  assert (D20 : derives psample 20 [1]) by (eapply d_evolve; [reflexivity|exact D19]).
  intros n L _. change (size psample) with 34 in L.
  do 34 (destruct n as [|n]; [first [eexists; eassumption|eexists; apply T; reflexivity]|]). lia.
Qed.
Example C77_case : productive psample /\
  (exists st, try_parse psample 8 [7; 5; 1; 4; 3] = Some (Fail st) /\ pidx st = 5) /\ viable psample 8 [7; 5; 1; 4].
Proof.
  split; [exact psample_productive|]. split.
  - assert (H : match try_parse psample 8 [7; 5; 1; 4; 3] with Some (Fail st) => Nat.eqb (pidx st) 5 | _ => false end = true) by (vm_compute; reflexivity).
    destruct (try_parse psample 8 [7; 5; 1; 4; 3]) as [[st|st| |]|] ; try discriminate H. exists st. split; [reflexivity|]. apply Nat.eqb_eq. exact H.
  - exists [2; 2; 6; 3]. exact psample_derives.
Qed.
