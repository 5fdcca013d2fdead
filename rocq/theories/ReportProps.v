(** The generated parsers: property C120. *)
From Coq Require Import List Bool PeanoNat Lia.
From Verif Require Import Base GrammarModel GrammarSpec GrammarProofs FirstProofs ParserModel ParserSpec ParserProofs ParserKeepProofs ParserProps ReportSpec ReportProofs.
Import ListNotations.

(** ** C120: what is rejected is reported
    Full statement: if the function of a start symbol returns false, and errors
    are not blocked, then expectedToken or expectedSymbol was called; false
    (below). *)
(** Each failing call of a rule that is not inside a try block. *)
Theorem C120_calls_reported : forall g first follow tok cond f cur n s st st', kind g n = NNon s -> pblock st = false ->
  run g first follow tok cond f cur false (Item n) st = Fail st' -> perr st < perr st'.
Proof.
  intros g first follow tok cond f cur n s st st' K B E. destruct f as [|f]; [discriminate|]. cbn [run] in E. rewrite K in E.
  assert (KR : keeps (calm g) st (run g first follow tok cond f s false (Rules (env g s)) st)) by (apply run_keeps; intros ? ? ? [?|?]; discriminate).
  destruct (run g first follow tok cond f s false (Rules (env g s)) st) as [a|a| |]; try discriminate. cbn in KR. destruct KR as (R1 & R2 & _).
  cbn [called] in E. unfold report in E. rewrite R1, B in E. cbn in E. injection E as <-. cbn. lia.
Qed.
Print Assumptions C120_calls_reported.
(** A function whose rules are made of parts that tell: if it fails without a
    message, then at its first token, where none of its rules can begin, or
    after its rule, at a token that is not the end.  Missing: choices without
    an empty branch, parentheses of operator expressions. *)
Theorem C120_reported_partial : forall g rounds fuel first follow tok cond f s st st', well_formed g = true -> compute_first g rounds fuel = Some first ->
  (forall e i, In e (grules g) -> kind g e = NEvolve i s -> tells g i) -> pblock st = false ->
  run g first follow tok cond f s false (Rules (env g s)) st = Fail st' ->
  perr st < perr st' \/
  (pidx st' = pidx st /\ ptok st' = ptok st /\
   forall e i, In e (grules g) -> kind g e = NEvolve i s -> (forall k, kind g i <> NCond k) -> kind g (ptok st) = NTerm ->
     first e (ptok st) = false /\ (eps g first i = true -> follow s (ptok st) = false)) \/
  (In s (gstart g) /\ ptok st' <> geof g).
Proof.
  intros g rounds fuel first follow tok cond f s st st' WF FI T B E.
  assert (ENV : forall e, In e (env g s) <-> In e (grules g) /\ exists i, kind g e = NEvolve i s).
  { intros e. unfold env. rewrite <- in_rev, filter_In. unfold rule_of. destruct (kind g e) eqn:K;
      (split; [intros [A H]; try discriminate; try (apply Nat.eqb_eq in H; subst; eauto)|intros [A [j H]]; try discriminate]).
    injection H as <- <-. split; [exact A|apply Nat.eqb_refl]. }
  destruct (rules_tell g first follow tok cond WF (first_zero_set g WF _ _ _ FI) f s s (env g s) st st') as [L|[(A1 & A2 & A3)|R]]; auto.
  - intros e H. apply ENV in H. destruct H as [H [i K]]. exists i. split; [exact K|exact (T e i H K)].
  - right. left. split; [exact A1|]. split; [exact A2|]. intros e i H K NC KT. assert (HE : In e (env g s)) by (apply ENV; eauto).
    specialize (A3 e i HE K NC). unfold rule_test in A3. apply orb_false_iff in A3. destruct A3 as [A3 A4].
    assert (IT : is_term g (ptok st) = true) by (unfold is_term; rewrite KT; reflexivity).
    split.
    + unfold test in A3. unfold is_term in A3 at 1. rewrite K in A3. unfold test_set in A3. rewrite IT in A3. apply orb_false_iff in A3. exact (proj2 A3).
    + intros EP. rewrite EP in A4. unfold test_set in A4. rewrite IT in A4. apply orb_false_iff in A4. exact (proj2 A4).
Qed.
Print Assumptions C120_reported_partial.
(** [A [B] x -> start] and [A -> x]. *)
Definition telling : grammar := {|
  gnodes := [NZero; NTerm; NTerm; NSym; NSym; NAlt 2 0; NNon 4; NCons 5 6; NCons 1 7; NEvolve 8 3; NEvolve 1 4; NTerm];
  gregular := 11; grules := [9; 10]; gzero := 0; gterms := [1; 2]; gstart := [3]; geof := 11 |}.
(** On [A B A] it succeeds; on [A B B] it fails in [x] with a message; on [B]
    and [A B A A] without one. *)
Example C120_case : well_formed telling = true /\ silent telling = true /\
  (forall e i, In e (grules telling) -> kind telling e = NEvolve i 3 -> tells telling i) /\
  try_parse telling 3 [1; 2; 1] = Some (Done (PS 4 11 false 0 0)) /\
  try_parse telling 3 [1; 2; 2] = Some (Fail (PS 3 2 false 0 1)) /\
  try_parse telling 3 [2] = Some (Fail (PS 1 2 false 0 0)) /\
  try_parse telling 3 [1; 2; 1; 1] = Some (Fail (PS 4 1 false 0 0)).
Proof.
  split; [vm_compute; reflexivity|]. split; [vm_compute; reflexivity|]. split; [|repeat split; vm_compute; reflexivity].
  intros e i [<-|[<-|[]]] K; [|discriminate]. injection K as <-.
  eapply tells_cons; [reflexivity|apply tells_term; reflexivity|]. eapply tells_cons; [reflexivity| |eapply tells_call; reflexivity].
  eapply tells_alt; [reflexivity|eapply branch_right; [reflexivity|apply branch_here; discriminate]|reflexivity|].
  intros m B. inversion B as [n l r k K1 B1|n l r k K1 B1|n N]; subst; try (injection K1 as <- <-; inversion B1; subst; try discriminate).
  - apply tells_term. reflexivity.
  - apply tells_zero. reflexivity.
  - destruct (N 2 0 eq_refl).
Qed.

(** [A (A | B) -> start]: [B], [A A B] and [A] are rejected, at the first
    token, at the end and in between, and nothing is reported. *)
Definition mute : grammar := {|
  gnodes := [NZero; NTerm; NTerm; NSym; NAlt 1 2; NCons 1 4; NEvolve 5 3; NTerm];
  gregular := 7; grules := [6]; gzero := 0; gterms := [1; 2]; gstart := [3]; geof := 7 |}.
Theorem C120_reported_refuted : well_formed mute = true /\ silent mute = true /\
  (exists st, try_parse mute 3 [2] = Some (Fail st) /\ pblock st = false /\ perr st = 0) /\
  (exists st, try_parse mute 3 [1; 1; 2] = Some (Fail st) /\ pblock st = false /\ perr st = 0) /\
  (exists st, try_parse mute 3 [1] = Some (Fail st) /\ pblock st = false /\ perr st = 0) /\
  derives mute 3 [1; 1] /\ (exists st, try_parse mute 3 [1; 1] = Some (Done st)).
Proof.
  split; [vm_compute; reflexivity|]. split; [vm_compute; reflexivity|].
  split; [eexists; split; [vm_compute; reflexivity|split; reflexivity]|].
  split; [eexists; split; [vm_compute; reflexivity|split; reflexivity]|].
  split; [eexists; split; [vm_compute; reflexivity|split; reflexivity]|].
  split; [|eexists; vm_compute; reflexivity].
  eapply (d_sym mute 3 6); [reflexivity|cbn; auto|reflexivity|]. apply (d_cons mute 5 1 4 [1] [1]); [reflexivity|apply d_term; reflexivity|].
  eapply d_altl; [reflexivity|]. apply d_term. reflexivity.
Qed.
Print Assumptions C120_reported_refuted.
