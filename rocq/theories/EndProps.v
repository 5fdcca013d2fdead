(** The generated parser ends on every text. *)
From Coq Require Import List Bool PeanoNat Lia Relations.
From Verif Require Import Base GrammarModel GrammarSpec GrammarProofs FirstProofs ParserModel ParserSpec ParserProofs ParserKeepProofs
  CheckerModel CompleteSpec CompleteProofs CheckerProofs ErrorSpec ErrorProofs EndSpec EndProofs ParserProps ErrorProps.
Import ListNotations.

(** C78.  If no item can be come to from itself with nothing read between, the
    parser ends: for all sets, conditions and texts, with try/rollback and
    try/recover as well. *)
Theorem C78_parser_ends_partial : forall g first follow cond w s,
  well_formed g = true -> end_not_written g -> no_left_recursion g ->
  exists f, forall f', f <= f' -> parse g first follow (stream g w) cond f' s <> Out.
Proof. intros g first follow cond w s WF EN NLR. exact (parse_ends g first follow w cond WF EN NLR s). Qed.
Print Assumptions C78_parser_ends_partial.

(** With the conditions of C70, the parser gives the right verdict on every
    text. *)
Theorem C78_verdict_partial : forall g rounds fuel first follow w s e i,
  well_formed g = true -> code_has_company g -> operators_on_top g -> operators_alone g -> no_recovery g -> inlined_can_be_empty g -> end_not_written g ->
  compute_first g rounds fuel = Some first -> compute_follow g rounds fuel first = Some follow ->
  no_error g first = true -> no_conflict g first follow = true -> careful g first follow = true -> no_left_recursion g ->
  In e (grules g) -> kind g e = NEvolve i s -> In s (gstart g) -> ~ In (geof g) w ->
  forall cond, (forall k, cond k = true) ->
  exists f st, parse g first follow (stream g w) cond f s = Done st /\ derives g s w \/
               parse g first follow (stream g w) cond f s = Fail st /\ ~ derives g s w.
Proof.
  intros g rounds fuel first follow w s e i WF CO TOP AL NR IN EN E1 E2 NE NC OK NLR He Ke Is NW cond C.
  pose proof (C70_exact_language_partial g rounds fuel first follow w s e i WF CO TOP AL NR IN EN E1 E2 NE NC OK He Ke Is NW cond C) as X.
  destruct (C78_parser_ends_partial g first follow cond w s WF EN NLR) as (f & H). specialize (H f (le_n f)).
  pose proof (run_not_odd g first follow w cond WF OK f s false (Rules (env g s)) (start_state (stream g w)) (ok_env g s)) as NO. fold (parse g first follow (stream g w) cond f s) in NO.
  destruct (parse g first follow (stream g w) cond f s) as [st|st| |] eqn:P; [| |exfalso; apply H; reflexivity|exfalso; apply NO; reflexivity]; exists f, st.
  - left. split; [exact P|]. apply X. eauto.
  - right. split; [exact P|]. intros D. apply X in D. destruct D as (f' & st' & P'). exact (never g first follow _ cond s f st P f' st' P').
Qed.
Print Assumptions C78_verdict_partial.

(** False in general: the tool says nothing about [(s A | 0) -> s], and its parser
    calls itself for ever if the text begins with A. *)
Definition lefty : grammar := {|
  gnodes := [NZero; NTerm; NSym; NNon 2; NCons 3 1; NAlt 4 0; NEvolve 5 2; NTerm];
  gregular := 7; grules := [6]; gzero := 0; gterms := [1]; gstart := [2]; geof := 7 |}.
Lemma lefty_loops t o tok : test_set lefty (t 6) 1 = true -> test_set lefty (t 4) 1 = true ->
  forall f st cc j, ptok st = 1 -> In j [Rules [6]; Item 5; Branches [4; 0]; Item 4; Item 3] -> run lefty t o tok always f 2 cc j st = Out.
Proof.
  intros T6 T4 f. induction f as [|f IH]; intros st cc j P J; [reflexivity|].
  destruct J as [<- | [<- | [<- | [<- | [<- | []]]]]]; cbn [run].
  - change (kind lefty 6) with (NEvolve 5 2). cbv iota beta. rewrite P. unfold rule_test, test. change (is_term lefty 6) with false. cbv iota. rewrite T6. cbn [orb].
    unfold guarded. change (is_cond lefty 5) with false. cbv iota. rewrite (IH st) by (exact P || (cbn; tauto)). reflexivity.
  - change (kind lefty 5) with (NAlt 4 0). cbv iota. match goal with |- context [flatten lefty f ?l] => destruct (flatten lefty f l) as [ns|] eqn:F; [|reflexivity] end.
    assert (X : ns = [4; 0]) by (destruct f as [|[|[|f]]]; try discriminate F; injection F as <-; reflexivity). rewrite X. apply IH; [exact P|cbn; auto].
  - rewrite P. unfold test. change (is_term lefty 4) with false. cbv iota. rewrite T4. unfold guarded. change (is_cond lefty 4) with false. cbv iota. apply IH; [exact P|cbn; auto].
  - change (kind lefty 4) with (NCons 3 1). cbv iota. rewrite (IH st) by (exact P || (cbn; tauto)). reflexivity.
  - change (kind lefty 3) with (NNon 2). cbv iota. change (env lefty 2) with [6]. rewrite (IH st) by (exact P || (cbn; tauto)). reflexivity.
Qed.
Theorem C78_left_recursion_refuted : exists g s t o w, well_formed g = true /\ end_not_written g /\ In s (gstart g) /\
  compute_first g 300 1500 = Some t /\ compute_follow g 300 1500 t = Some o /\ no_error g t = true /\ no_conflict g t o = true /\ derives g s w /\
  forall f, parse g t o (stream g w) always f s = Out.
Proof.
  assert (X : match sets lefty with Some (t, o) => no_error lefty t && no_conflict lefty t o && test_set lefty (t 6) 1 && test_set lefty (t 4) 1 | None => false end = true) by (vm_compute; reflexivity).
  destruct (sets lefty) as [[t o]|] eqn:E; [|discriminate X]. repeat rewrite andb_true_iff in X. destruct X as (((X1 & X2) & X3) & X4).
  apply sets_first in E. destruct E as (E1 & E2). exists lefty, 2, t, o, [1].
  split; [vm_compute; reflexivity|]. split; [intros [X|[]]; discriminate X|]. split; [left; reflexivity|]. do 4 (split; [assumption|]). split.
  - assert (Z : derives lefty 2 []) by (eapply (d_sym lefty 2 6 5); [reflexivity|cbn; auto|reflexivity|]; eapply d_altr; [reflexivity|]; apply d_zero; reflexivity).
    eapply (d_sym lefty 2 6 5); [reflexivity|cbn; auto|reflexivity|]. eapply d_altl; [reflexivity|]. change [1] with ([] ++ [1]).
    eapply d_cons; [reflexivity| |apply d_term; reflexivity]. eapply d_non; [reflexivity|exact Z].
  - intros f. apply lefty_loops; auto. left. reflexivity.
Qed.
Print Assumptions C78_left_recursion_refuted.

(** A grammar with a loop, operators and several rules, without left recursion. *)
Definition prank (n : id) : nat := nth n [0; 0; 0; 0; 0; 0; 0; 0; 0; 0; 0; 5; 6; 7; 0; 3; 4; 0; 1; 2; 0] 0.
Lemma starts_cases g n m : starts g n m ->
  match kind g n with
  | NNon s | NInl s => exists e, In e (grules g) /\ kind g e = NEvolve m s
  | NPlus i _ _ | NStar i _ _ => m = i \/ m = n /\ idle g i
  | NAct (Some i) | NAnn i | NCond i | NTry i None | NOper i _ _ => m = i
  | NAlt l r | NTry l (Some r) => m = l \/ m = r
  | NCons l r => m = l \/ m = r /\ idle g l
  | _ => False
  end.
Proof.
  intros X. destruct X as [n s e i K|n s e i K|n i c a K|n i c a K|n i c a [K|K]|n i K|n l r K|n l r K|n l r K|n l r K|n t [c|] K|n t c K|n i K|n i K|n b ops x K]; rewrite K; eauto.
Qed.
Lemma psample_down n m : inside psample n = true -> starts psample n m -> prank m < prank n.
Proof.
  intros I X. unfold inside in I. apply Nat.ltb_lt in I. change (gregular psample) with 21 in I. apply starts_cases in X.
  assert (N2 : ~ idle psample 2) by (intros K; inversion K; subst; discriminate).
  assert (N3 : ~ idle psample 3) by (intros K; inversion K; subst; discriminate).
  assert (N9 : ~ idle psample 12) by (intros J; inversion J; subst; try discriminate; injection H as <- <-; exact (N3 H1)).
  assert (R : forall s, (exists e, In e (grules psample) /\ kind psample e = NEvolve m s) -> In (m, s) [(13, 8); (16, 9); (19, 10)]).
  { intros s (e & [<- | [<- | [<- | []]]] & K); injection K as <- <-; cbn; auto. }
  do 21 (destruct n as [|n]; [change (kind psample _) with (nth 0 [NZero] NZero) in X ||
    (match type of X with context [kind psample ?k] => let v := eval vm_compute in (kind psample k) in change (kind psample k) with v in X end; cbv iota in X);
    first [ destruct X; fail
          | apply R in X; destruct X as [X | [X | [X | []]]]; try discriminate X; injection X as <-; vm_compute; lia
          | destruct X as [-> | [-> X]]; [vm_compute; lia|first [vm_compute; lia|exfalso; tauto]]
          | destruct X as [-> | ->]; vm_compute; lia
          | rewrite X; vm_compute; lia ]|]). lia.
Qed.
Example C78_case : well_formed psample = true /\ end_not_written psample /\ no_left_recursion psample.
Proof.
  destruct psample_conditions as (_ & _ & _ & _ & E & _). split; [exact (proj1 psample_sets)|]. split; [exact E|].
  pose proof (proj1 psample_sets) as W.
  assert (D : forall n m, clos_trans id (starts psample) n m -> inside psample n = true -> prank m < prank n /\ inside psample m = true).
  { intros n m T. induction T as [n m X|n k m _ IH1 _ IH2]; intros I.
    - split; [exact (psample_down n m I X)|]. exact (starts_inside psample W n m I X).
    - destruct (IH1 I) as [L1 I1]. destruct (IH2 I1) as [L2 I2]. split; [lia|exact I2]. }
  intros n I T. destruct (D n n T I) as [L _]. lia.
Qed.
