(** The generated parsers: property C123. *)
From Coq Require Import List Bool PeanoNat Lia.
From Verif Require Import Base GrammarModel GrammarSpec GrammarProofs FirstProofs ParserModel ParserSpec ParserProofs ParserKeepProofs ParserProps ReportSpec ReportProofs.
Import ListNotations.

(** ** C123: what is skipped is reported
    Full statement: if errors are not blocked and what stands in try/recover
    fails, then there is a message; so a text that is accepted without one is
    a sentence.  False (below). *)
(** A call, whose rules are made of parts that tell, that has read something. *)
Theorem C123_recovered_partial : forall g rounds fuel first follow tok cond f cur caught n t s st st1 st', well_formed g = true -> compute_first g rounds fuel = Some first ->
  kind g n = NTry t None -> kind g t = NNon s -> ~ In s (gstart g) -> (forall e i, In e (grules g) -> kind g e = NEvolve i s -> tells g i) -> pblock st = false ->
  run g first follow tok cond f cur true (Item t) st = Fail st1 -> pidx st1 <> pidx st ->
  run g first follow tok cond (S f) cur caught (Item n) st = Done st' -> perr st < perr st'.
Proof.
  intros g rounds fuel first follow tok cond f cur caught n t s st st1 st' WF FI K Kt NS T B E1 MV E.
  cbn [run] in E. rewrite K, E1 in E.
  assert (P1 : perr st < perr st1).
  { destruct f as [|f]; [discriminate|]. cbn [run] in E1. rewrite Kt in E1.
    destruct (run g first follow tok cond f s false (Rules (env g s)) st) as [a|a| |] eqn:R; try discriminate. cbn [called] in E1. unfold report in E1. cbn [orb] in E1. injection E1 as <-.
    destruct (rules_tell g first follow tok cond WF (first_zero_set g WF _ _ _ FI) f s s (env g s) st a) as [L|[(A1 & _)|[A _]]]; auto; [|contradiction|contradiction].
    intros e H. unfold env in H. apply in_rev in H. apply filter_In in H. destruct H as [H1 H2]. unfold rule_of in H2. destruct (kind g e) as [| | |?|?|? ? ?|? ? ?|?|? ?|? ?|i s'|? ?|?|?|? ? ?|] eqn:Ke; try discriminate.
    apply Nat.eqb_eq in H2. subst s'. exists i. split; [reflexivity|exact (T e i H1 Ke)]. }
  set (st2 := if Nat.eqb (pidx st - 1) (pidx st1 - 1) && negb (Nat.eqb (ptok st1) (geof g)) then yylex tok st1 else st1) in E.
  assert (P2 : perr st2 = perr st1) by (unfold st2; destruct (Nat.eqb (pidx st - 1) (pidx st1 - 1) && negb (Nat.eqb (ptok st1) (geof g)))%bool; reflexivity).
  pose proof (skip_keeps g follow tok True f n st2) as SK. rewrite E in SK. cbn in SK. lia.
Qed.
Print Assumptions C123_recovered_partial.
(** [(try/recover (x) B)* -> start] and [A A -> x] on [A C A A B]. *)
Definition recover_call : grammar := {|
  gnodes := [NZero; NTerm; NTerm; NTerm; NSym; NSym; NNon 5; NTry 6 None; NCons 7 2; NStar 8 13 14; NEvolve 9 4; NCons 1 1; NEvolve 11 5; NCons 8 14; NAlt 0 13; NTerm];
  gregular := 13; grules := [10; 12]; gzero := 0; gterms := [1; 2; 3]; gstart := [4]; geof := 15 |}.
Example C123_case : well_formed recover_call = true /\ kind recover_call 7 = NTry 6 None /\ kind recover_call 6 = NNon 5 /\ ~ In 5 (gstart recover_call) /\
  (forall e i, In e (grules recover_call) -> kind recover_call e = NEvolve i 5 -> tells recover_call i) /\
  try_parse recover_call 4 [1; 1; 2] = Some (Done (PS 4 15 false 0 0)) /\
  try_parse recover_call 4 [1; 3; 1; 1; 2] = Some (Done (PS 6 15 false 0 1)).
Proof.
  split; [vm_compute; reflexivity|]. split; [reflexivity|]. split; [reflexivity|]. split; [intros [H|[]]; discriminate|]. split; [|split; vm_compute; reflexivity].
  intros e i [<-|[<-|[]]] K; [discriminate|]. injection K as <-. eapply tells_cons; [reflexivity|apply tells_term; reflexivity|apply tells_term; reflexivity].
Qed.
(** [(try/recover (A A) B)* -> start] accepts [A C A B] and says nothing, though
    no sentence has a C in it. *)
Lemma recover_words : forall n w, derives recover n w -> n <> 3 -> ~ In 3 w.
Proof.
  assert (KIDS : forall n, n <> 3 -> match kind recover n with
    | NPlus i _ _ | NStar i _ _ | NAct (Some i) | NAnn i | NCond i | NTry i None | NEvolve i _ => i <> 3
    | NAlt l r | NCons l r | NTry l (Some r) => l <> 3 /\ r <> 3 | NNon s | NInl s => s <> 3 | NOper _ _ _ => False | _ => True end).
  { intros n N. do 13 (destruct n as [|n]; [cbn; lia|]). unfold kind. rewrite nth_overflow by (cbn; lia). exact I. }
  assert (APP : forall (v w : list nat), ~ In 3 v -> ~ In 3 w -> ~ In 3 (v ++ w)) by (intros v w A B H; apply in_app_or in H; tauto).
  intros n w D. induction D as [n K|n K|s e i w K Ie Ke D IH|e i s w K D IH|n s w K D IH|n s w K D IH|n i c a w K D IH|n i c a u w K D1 IH1 D2 IH2|n i c a K|n i c a u w K D1 IH1 D2 IH2
    |n K|n i w K D IH|n l r w K D IH|n l r w K D IH|n l r u w K D1 IH1 D2 IH2|n t c w K D IH|n t c w K D IH|n i w K D IH|n i w K D IH
    |n b ops x w K D IH|n b ops x t w K|n b ops x t w K|n b ops x t u w K|n b ops x s t u v w K|n b ops x s t w K]; intros N.
  3: { destruct Ie as [<-|[]]. injection Ke as <- _. apply IH. discriminate. }
  2: { intros [H|[]]. congruence. }
  all: pose proof (KIDS _ N) as KK; rewrite K in KK; try (destruct c); try (destruct KK; fail); try (exact (fun H => H)); try (apply IH; tauto); try (apply APP; [apply IH1|apply IH2]; tauto).
Qed.
Theorem C123_recovered_refuted : well_formed recover = true /\ silent recover = true /\
  (exists st, try_parse recover 4 [1; 3; 1; 2] = Some (Done st) /\ perr st = 0) /\ ~ derives recover 4 [1; 3; 1; 2].
Proof.
  split; [vm_compute; reflexivity|]. split; [vm_compute; reflexivity|]. split; [eexists; split; [vm_compute; reflexivity|reflexivity]|].
  intros D. apply (recover_words _ _ D); [discriminate|]. right. left. reflexivity.
Qed.
Print Assumptions C123_recovered_refuted.
