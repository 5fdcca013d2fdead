(** Explanations of FIRST/FOLLOW conflicts: property C119. *)
From Coq Require Import List Bool PeanoNat Lia.
From Verif Require Import Base GrammarModel GrammarSpec GrammarProofs FirstProofs FollowProofs GrammarLoopProofs ParserModel CheckerModel ConflictSpec DepModel DepSpec DepProofs DepLinkProofs ConflictProps.
Import ListNotations.

(** ** What is noted is where the sets come from: with operators, loops and all.
    (What is noted for a nonterminal is noted for its symbol, which is therefore
    asked for instead; tokens have no FOLLOW set.) *)
Theorem C119_noted_exact : forall g rounds fuel t o, well_formed g = true -> compute_follow g rounds fuel t = Some o ->
  exists D, compute_deps g fuel t = Some D /\
  forall n x, (forall s, kind g n <> NNon s) -> kind g n <> NTerm -> kind g n <> NZero -> kind g x = NTerm -> x <> geof g ->
    (o n x = true <-> exists m, cause D n m /\ t m x = true).
Proof.
  intros g rounds fuel t o WF EO. destruct (follow_caused g WF t rounds fuel o EO) as (D & ED & H). exists D. split; [exact ED|].
  destruct (follow_loop_some g t rounds fuel (follow_init g, true) o EO) as (_ & Q).
  intros n x K1 K2 K3 KX NX. split.
  - intros HO. destruct (H n x HO) as [X|(d & m & L & I & F)]; [contradiction|]. exists m. split; [|exact F]. exists d. split; [|exact I].
    assert (KY : key g n = n) by (unfold key; destruct (kind g n) eqn:K; try reflexivity; exfalso; exact (K1 _ eq_refl)). rewrite KY in L. exact L.
  - intros (m & C & F). apply (cause_right g WF t o Q fuel D ED n m x); [|exact C|exact KX|exact F]. unfold plain, is_zero, is_term. destruct (kind g n) eqn:K; try reflexivity; exfalso; auto.
Qed.
Print Assumptions C119_noted_exact.

(** ** The explanation ends, whatever was noted *)
Theorem C119_ends : forall inner has D steps depth n, 3 * length D <= steps -> length D + 2 <= depth ->
  exists said v, explain inner has D steps depth [] n = Some (said, v) /\ forall m, In m said -> inner m = false /\ has m = true.
Proof.
  intros inner has D steps dep n S1 S2. pose proof (missing_all D []) as B. destruct (explain_ends inner has D steps S1 dep [] n) as ((said & v) & E & _); [lia|right; lia|].
  exists said, v. split; [exact E|]. exact (explain_right inner has D steps dep [] n _ E).
Qed.
Print Assumptions C119_ends.

(** ** Something is said about every token in conflict, and all that is said is
    right: what is named begins with the token, and can only begin with what is
    in FOLLOW of the place in conflict.
    Full statement: with operators, too; false then (below). *)
Theorem C119_explained_partial : forall g rounds fuel t o, well_formed g = true -> (forall n b ops x, kind g n <> NOper b ops x) ->
  compute_first g rounds fuel = Some t -> compute_follow g rounds fuel t = Some o ->
  exists D, compute_deps g fuel t = Some D /\
  forall n x steps depth, (forall s, kind g n <> NNon s) -> kind g n <> NTerm -> kind g n <> NZero -> kind g x = NTerm -> x <> geof g -> o n x = true -> 3 * length D <= steps -> length D + 2 <= depth ->
  exists said v, explain (internal g) (fun m => t m x) D steps depth [] n = Some (said, v) /\ said <> [] /\
    forall m, In m said -> internal g m = false /\ t m x = true /\ forall y, kind g y = NTerm -> t m y = true -> o n y = true.
Proof.
  intros g rounds fuel t o WF NO E EO. destruct (follow_caused g WF t rounds fuel o EO) as (D & ED & H). exists D. split; [exact ED|].
  intros n x steps dep K1 K2 K3 KX NX HO S1 S2. destruct (C119_ends (internal g) (fun m => t m x) D steps dep n S1 S2) as (said & v & EX & R). exists said, v. split; [exact EX|].
  assert (KY : key g n = n) by (unfold key; destruct (kind g n) eqn:K; try reflexivity; exfalso; exact (K1 _ eq_refl)).
  destruct (H n x HO) as [X|(d & m & L & I & F)]; [contradiction|]. rewrite KY in L.
  pose proof (rules_owned g WF t NO D fuel (grules g) D (incl_refl _) ED (incl_refl _)) as OWN. destruct (OWN d m I) as (ID & RM).
  destruct (first_loop_some g rounds fuel (first_init g) t E) as (_ & Q).
  split; [|intros m' I'; destruct (R m' I') as (R1 & R2); split; [exact R1|]; split; [exact R2|]; intros z KZ HZ].
  2: { destruct (follow_loop_some g t rounds fuel (follow_init g, true) o EO) as (_ & FQ).
    destruct (explain_from (internal g) (fun m => t m x) D (fun d m H => inside_not g d (proj1 (OWN d m H))) steps n dep [] n _ (ld_self D n) EX m' I') as (k & C & T).
    apply (cause_right g WF t o FQ fuel D ED n k z); [|exact C|exact KZ|].
    - unfold plain, is_zero, is_term. destruct (kind g n) eqn:K; try reflexivity; exfalso; auto.
    - destruct C as (d' & _ & C). apply (same_begins g WF t NO D Q (compute_straight g WF rounds fuel t E) k m' z (proj2 (OWN d' k C))); [|exact T|exact KZ|exact HZ].
      intros k' w Hw. exact (rules_from g t fuel (grules g) D (incl_refl _) ED _ Hw). }
  destruct (resolves g WF t D Q (compute_straight g WF rounds fuel t E) m x RM KX F) as (y & T & Y & FY).
  pose proof (explain_complete (internal g) (fun m => t m x) D steps dep n _ EX d m y L (or_intror (inside_not g d ID)) I T Y FY) as J. cbn [fst] in J. intros ->. destruct J.
Qed.
Print Assumptions C119_explained_partial.
(** Where nothing was added to the grammar, the explanation is what was noted. *)
Theorem C119_said_exact_partial : forall inner has D steps depth n, (forall b d m, In (b, (d, m)) D -> inner m = false) -> 3 * length D <= steps -> length D + 2 <= depth ->
  exists said v, explain inner has D steps depth [] n = Some (said, v) /\ forall m, In m said <-> cause D n m /\ has m = true.
Proof.
  intros inner has D steps dep n P S1 S2. destruct (C119_ends inner has D steps dep n S1 S2) as (said & v & EX & R). exists said, v. split; [exact EX|].
  intros m. split.
  - intros I. split; [|apply (R m I)]. exact (explain_sound inner has D P steps n dep [] n _ (ld_self D n) EX m I).
  - intros ((d & L & I) & F).
    assert (DI : d = n \/ inner d = false) by (destruct L as [|d' d L Hd]; [left; reflexivity|right; exact (P _ _ _ Hd)]).
    exact (explain_complete inner has D steps dep n _ EX d m m L DI I (th_self inner D m) (P _ _ _ I) F).
Qed.
Print Assumptions C119_said_exact_partial.

(** The inner loop of [(A B* | B)* -> s] (C117) is in conflict with the outer
    one, which is what is said. *)
Example C119_case : well_formed inner_loop = true /\ (forall n b ops x, kind inner_loop n <> NOper b ops x) /\
  exists t o D, compute_first inner_loop 100 100 = Some t /\ compute_follow inner_loop 100 100 t = Some o /\ compute_deps inner_loop 100 t = Some D /\ o 4 2 = true /\
    first_follow inner_loop t o (depth inner_loop) 8 = Warn [4] /\ option_map fst (explain (internal inner_loop) (fun m => t m 2) D (3 * length D) (length D + 2) [] 4) = Some [7].
Proof.
  split; [vm_compute; reflexivity|]. split; [intros n b ops x K; do 14 (try destruct n as [|n]; [discriminate|]); cbn in K; destruct n; discriminate|].
  eexists. eexists. eexists. split; [vm_compute; reflexivity|]. split; [vm_compute; reflexivity|]. split; [vm_compute; reflexivity|]. split; [vm_compute; reflexivity|]. split; vm_compute; reflexivity.
Qed.
(** Without loops: [?A A -> s], whose optional [A] is an alternative. *)
Definition optional_a : grammar := {|
  gnodes := [NZero; NTerm; NSym; NAlt 1 0; NCons 3 1; NEvolve 4 2; NTerm];
  gregular := 6; grules := [5]; gzero := 0; gterms := [1]; gstart := [2]; geof := 6 |}.
Example C119_plain_case : well_formed optional_a = true /\ exists t o D, compute_first optional_a 100 100 = Some t /\ compute_follow optional_a 100 100 t = Some o /\
  compute_deps optional_a 100 t = Some D /\ (forall b d m, In (b, (d, m)) D -> internal optional_a m = false) /\ cause D 3 1 /\ t 1 1 = true /\ o 3 1 = true /\
  option_map fst (explain (internal optional_a) (fun m => t m 1) D (3 * length D) (length D + 2) [] 3) = Some [1].
Proof.
  split; [vm_compute; reflexivity|]. eexists. eexists. eexists. split; [vm_compute; reflexivity|]. split; [vm_compute; reflexivity|]. split; [vm_compute; reflexivity|]. split.
  - intros b d m I. cbn in I. repeat (destruct I as [I|I]; [injection I as <- <- <-; reflexivity|]). destruct I.
  - split; [exists 3; split; [apply ld_self|cbn; tauto]|]. split; [vm_compute; reflexivity|]. split; vm_compute; reflexivity.
Qed.

(** [A B* -> base ;; { (B) } : base -> s], [B] a binary operator: after [A B], the
    next [B] can belong to the loop or be the operator.  The conflict is
    reported, but nothing is said to be in conflict with it: what comes after
    an operand is noted for an added node, and of those only the FOLLOW sets are
    looked through. *)
Definition oper_base : grammar := {|
  gnodes := [NZero; NTerm; NTerm; NSym; NSym; NStar 2 11 12; NCons 1 5; NEvolve 6 4; NNon 4; NOper 8 [OBin 2] 13; NEvolve 9 3;
             NCons 2 12; NAlt 0 11; NAlt 14 8; NCons 13 15; NCons 2 13; NTerm];
  gregular := 11; grules := [7; 10]; gzero := 0; gterms := [1; 2]; gstart := [3]; geof := 16 |}.
Theorem C119_explained_refuted : exists g t o D n x e, well_formed g = true /\ compute_first g 100 100 = Some t /\ compute_follow g 100 100 t = Some o /\ compute_deps g 100 t = Some D /\
  In e (grules g) /\ first_follow g t o (depth g) e = Warn [n] /\ kind g x = NTerm /\ x <> geof g /\ t n x = true /\ o n x = true /\
  (exists m, cause D n m /\ t m x = true) /\ begin_after g n /\
  exists v, explain (internal g) (fun m => t m x) D (3 * length D) (length D + 2) [] n = Some ([], v).
Proof.
  exists oper_base. eexists. eexists. eexists. exists 5, 2, 7. split; [vm_compute; reflexivity|]. split; [vm_compute; reflexivity|]. split; [vm_compute; reflexivity|]. split; [vm_compute; reflexivity|].
  split; [left; reflexivity|]. split; [vm_compute; reflexivity|]. split; [reflexivity|]. split; [discriminate|]. split; [vm_compute; reflexivity|]. split; [vm_compute; reflexivity|]. split; [|split].
  - exists 15. split; [|vm_compute; reflexivity]. exists 13. split; [|cbn; tauto].
    eapply (ld_step _ _ 4); [|cbn; tauto]. eapply (ld_step _ _ 7); [|cbn; tauto]. eapply (ld_step _ _ 6); [|cbn; tauto]. eapply (ld_step _ _ 5); [|cbn; tauto]. apply ld_self.
  - assert (T : forall n, kind oper_base n = NTerm -> derives oper_base n [n]) by (intros; apply d_term; assumption).
    assert (D5 : derives oper_base 5 []) by (eapply d_star0; reflexivity).
    assert (D8 : derives oper_base 8 [1]).
    { eapply d_non; [reflexivity|]. eapply (d_sym oper_base 4 7); [reflexivity|cbn; tauto|reflexivity|]. change [1] with ([1] ++ []). eapply d_cons; [reflexivity|apply T; reflexivity|exact D5]. }
    assert (O9 : occurs oper_base 9 []).
    { eapply (o_evolve oper_base 10); [|reflexivity]. eapply (o_rule oper_base 3 10); [|reflexivity|cbn; tauto|reflexivity]. eapply (o_start oper_base 10); [cbn; tauto|reflexivity|cbn; tauto]. }
    exists 2, [], [2; 1]. split; [|split; [|reflexivity]].
    + change [2] with ([2] ++ []). eapply d_star; [reflexivity|apply T; reflexivity|exact D5].
    + eapply (o_consr oper_base 6); [|reflexivity]. eapply (o_evolve oper_base 7); [|reflexivity]. eapply (o_rule oper_base 4 7); [|reflexivity|cbn; tauto|reflexivity].
      eapply (o_non oper_base 8); [|reflexivity]. eapply (o_base oper_base 9); [reflexivity|]. change [2; 1] with (2 :: [1] ++ []). apply oo_bin; [eapply oo_top; [exact O9|reflexivity]|left; reflexivity|].
      eapply d_base; [reflexivity|exact D8].
  - eexists. vm_compute. reflexivity.
Qed.
Print Assumptions C119_explained_refuted.
