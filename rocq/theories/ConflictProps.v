(** Reported conflicts: properties C117 and C118. *)
From Coq Require Import List Bool PeanoNat Lia.
From Verif Require Import Base GrammarModel GrammarSpec GrammarProofs FirstProofs FirstSoundProofs ParserModel CheckerModel ConflictSpec ConflictProofs GrammarProps.
Import ListNotations.

(** ** C117: conflicts are found, and what is found is one
    Full statement: without [code_has_company] and [operands_not_empty], and
    for all items; false then (C46, and below). *)
Theorem C117_same_begin_found_partial : forall g rounds fuel t, well_formed g = true -> code_has_company g -> operands_not_empty g ->
  compute_first g rounds fuel = Some t -> forall e l, In e (grules g) -> first_first g t (depth g) e = Warn l ->
  (forall n a b, part g e n -> kind g n = NAlt a b -> same_begin g a b -> In n l) /\
  (forall e' i i' s, In e' (grules g) -> e' <> e -> kind g e = NEvolve i s -> kind g e' = NEvolve i' s -> same_begin g e' e -> In e l).
Proof. intros g rounds fuel t WF CO OP E e l. exact (ff_reported g t WF CO OP rounds fuel E e l). Qed.
Print Assumptions C117_same_begin_found_partial.
Theorem C117_begin_after_found_partial : forall g rounds fuel t o, well_formed g = true -> code_has_company g -> operands_not_empty g ->
  compute_first g rounds fuel = Some t -> compute_follow g rounds fuel t = Some o ->
  forall e l, In e (grules g) -> first_follow g t o (depth g) e = Warn l ->
  forall n, part g e n -> looked_at g n -> begin_after g n -> In n l.
Proof. intros g rounds fuel t o WF CO OP E EO e l. exact (fo_reported g t o WF CO OP rounds fuel E EO e l). Qed.
Print Assumptions C117_begin_after_found_partial.
Theorem C117_begin_after_exact_partial : forall g rounds fuel t o, well_formed g = true -> code_has_company g -> operands_not_empty g -> productive g -> heads_apart g ->
  (forall e, In e (grules g) -> exists w, occurs g e w) ->
  compute_first g rounds fuel = Some t -> compute_follow g rounds fuel t = Some o ->
  forall e l, In e (grules g) -> first_follow g t o (depth g) e = Warn l ->
  forall n, In n l <-> part g e n /\ looked_at g n /\ begin_after g n.
Proof.
  intros g rounds fuel t o WF CO OP PR AP LIVE E EO e l He EL n. split.
  - exact (fo_real g t o WF CO OP rounds fuel E EO PR AP LIVE e l He EL n).
  - intros (P & L & B). exact (fo_reported g t o WF CO OP rounds fuel E EO e l He EL n P L B).
Qed.
Print Assumptions C117_begin_after_exact_partial.

(** [(A B* | B)* -> s] meets all conditions, and has a conflict: after [A], each
    [B] can belong to the inner or to the outer loop. *)
Definition inner_loop : grammar := {|
  gnodes := [NZero; NTerm; NTerm; NSym; NStar 2 9 10; NCons 1 4; NAlt 5 2; NStar 6 11 12; NEvolve 7 3; NCons 2 10; NAlt 0 9; NCons 6 12; NAlt 0 11; NTerm];
  gregular := 9; grules := [8]; gzero := 0; gterms := [1; 2]; gstart := [3]; geof := 13 |}.
Lemma inner_loop_operands : operands_not_empty inner_loop.
Proof. intros n b ops x K D. nodes n. Qed.
Lemma inner_loop_company : code_has_company inner_loop.
Proof.
  split.
  - intros e i s _ K B. nodes e; injection K as <- <-; inversion B; subst; cbn in *; congruence.
  - intros n l r K I. split; intros B; destruct K as [K|K]; nodes n; injection K as <- <-; inversion B; subst; cbn in *; try congruence;
      match goal with H : NCons _ _ = NCons _ _ |- _ => injection H as <- <- end;
      match goal with H : bare _ 1 |- _ => inversion H; subst; cbn in *; congruence end.
Qed.
Lemma inner_loop_apart : heads_apart inner_loop.
Proof.
  split; [|split].
  - intros n l r x I K H1 H2. exfalso. destruct K as [K|K]; nodes n; injection K as <- <-; walk_heads.
    all: match goal with H : derives _ 1 [] |- _ => inversion H; cbn in *; congruence end.
  - intros n l r x I K D H1 H2. exfalso. nodes n; injection K as <- <-. inversion D; cbn in *; congruence.
  - intros n b ops x K. nodes n.
Qed.
Lemma inner_loop_productive : productive inner_loop.
Proof.
  assert (T : forall n, kind inner_loop n = NTerm -> derives inner_loop n [n]) by (intros; apply d_term; assumption).
  assert (D0 : derives inner_loop 0 []) by (apply d_zero; reflexivity).
  assert (D4 : derives inner_loop 4 []) by (eapply d_star0; reflexivity).
  assert (D7 : derives inner_loop 7 []) by (eapply d_star0; reflexivity).
  assert (D3 : derives inner_loop 3 []) by (eapply (d_sym inner_loop 3 8); [reflexivity|cbn; auto|reflexivity|exact D7]).
  assert (D5 : derives inner_loop 5 ([1] ++ [])) by (eapply d_cons; [reflexivity|apply T; reflexivity|exact D4]).
  assert (D6 : derives inner_loop 6 [2]) by (eapply d_altr; [reflexivity|apply T; reflexivity]).
  assert (D10 : derives inner_loop 10 []) by (eapply d_altl; [reflexivity|exact D0]).
  assert (D12 : derives inner_loop 12 []) by (eapply d_altl; [reflexivity|exact D0]).
  intros n L K. unfold size in L. cbn in L.
  do 14 (destruct n as [|n]; [eexists; first [eassumption|apply T; reflexivity|eapply d_cons; [reflexivity|first [eassumption|apply T; reflexivity]|eassumption]|eapply d_evolve; [reflexivity|eassumption]]|]). lia.
Qed.
Lemma inner_loop_start : occurs inner_loop 8 [].
Proof. eapply (o_rule inner_loop 3 8); [eapply (o_start inner_loop 8); [cbn; auto|reflexivity|cbn; auto]|reflexivity|cbn; auto|reflexivity]. Qed.
Lemma inner_loop_clash : begin_after inner_loop 4.
Proof.
  assert (D2 : derives inner_loop 2 [2]) by (apply d_term; reflexivity).
  exists 2, ([] ++ []), ([2] ++ []). split; [|split; [|reflexivity]].
  - change (2 :: [] ++ []) with ([2] ++ []). eapply d_star; [reflexivity|exact D2|eapply d_star0; reflexivity].
  - eapply (o_consr inner_loop 5); [|reflexivity]. eapply (o_altl inner_loop 6); [|reflexivity]. eapply (o_star inner_loop 7); [|reflexivity|].
    + eapply (o_evolve inner_loop 8); [exact inner_loop_start|reflexivity].
    + change [2] with ([2] ++ []). eapply d_star; [reflexivity| |eapply d_star0; reflexivity]. eapply d_altr; [reflexivity|exact D2].
Qed.
Example C117_case : well_formed inner_loop = true /\ code_has_company inner_loop /\ operands_not_empty inner_loop /\ productive inner_loop /\ heads_apart inner_loop /\
  (forall e, In e (grules inner_loop) -> exists w, occurs inner_loop e w) /\ begin_after inner_loop 4 /\
  exists t o, compute_first inner_loop 300 300 = Some t /\ compute_follow inner_loop 300 300 t = Some o /\
    first_follow inner_loop t o (depth inner_loop) 8 = Warn [4] /\ first_first inner_loop t (depth inner_loop) 8 = Warn [] /\ ~ begin_after inner_loop 7.
Proof.
  assert (WF : well_formed inner_loop = true) by (vm_compute; reflexivity).
  assert (LIVE : forall e, In e (grules inner_loop) -> exists w, occurs inner_loop e w) by (cbn; intros e [<- | []]; exists []; exact inner_loop_start).
  split; [exact WF|]. split; [exact inner_loop_company|]. split; [exact inner_loop_operands|]. split; [exact inner_loop_productive|]. split; [exact inner_loop_apart|].
  split; [exact LIVE|]. split; [exact inner_loop_clash|].
  destruct (compute_first inner_loop 300 300) as [t|] eqn:E; [|vm_compute in E; discriminate].
  destruct (compute_follow inner_loop 300 300 t) as [o|] eqn:EO; [|vm_compute in E; injection E as <-; vm_compute in EO; discriminate].
  assert (EL : first_follow inner_loop t o (depth inner_loop) 8 = Warn [4]) by (vm_compute in E; injection E as <-; vm_compute in EO; injection EO as <-; vm_compute; reflexivity).
  exists t, o. split; [reflexivity|]. split; [exact EO|]. split; [exact EL|]. split; [vm_compute in E; injection E as <-; vm_compute; reflexivity|].
  intros B. assert (I : In 7 [4]); [|cbn in I; intuition congruence].
  apply (C117_begin_after_exact_partial inner_loop 300 300 t o WF inner_loop_company inner_loop_operands inner_loop_productive inner_loop_apart LIVE E EO 8 [4] (or_introl eq_refl) EL 7).
  split; [eapply p_child; [apply p_self|reflexivity|intros; discriminate]|]. split; [exact Logic.I|exact B].
Qed.
(** Two branches that begin with the same token: [A B | A -> s]. *)
Definition same_branch : grammar := {|
  gnodes := [NZero; NTerm; NTerm; NSym; NCons 1 2; NAlt 4 1; NEvolve 5 3; NTerm];
  gregular := 7; grules := [6]; gzero := 0; gterms := [1; 2]; gstart := [3]; geof := 7 |}.
Example C117_branch_case : well_formed same_branch = true /\ same_begin same_branch 4 1 /\ part same_branch 6 5 /\
  exists t, compute_first same_branch 100 100 = Some t /\ first_first same_branch t (depth same_branch) 6 = Warn [5].
Proof.
  split; [vm_compute; reflexivity|]. split.
  - exists 1, [2], []. split; [|apply d_term; reflexivity]. change [1; 2] with ([1] ++ [2]). eapply d_cons; [reflexivity|apply d_term; reflexivity..].
  - split; [eapply p_child; [apply p_self|reflexivity|intros; discriminate]|]. eexists. split; vm_compute; reflexivity.
Qed.

(** [A+ A -> s ;; ?B B -> t]: what comes after a repetition, or after something
    optional, is not looked at. *)
Definition unseen : grammar := {|
  gnodes := [NZero; NTerm; NTerm; NSym; NSym; NPlus 1 11 12; NCons 5 1; NEvolve 6 3; NAlt 2 0; NCons 8 2; NEvolve 9 4; NCons 1 12; NAlt 0 11; NTerm];
  gregular := 11; grules := [7; 10]; gzero := 0; gterms := [1; 2]; gstart := [3; 4]; geof := 13 |}.
Theorem C117_missed_refuted : exists g t o e1 e2 n1 n2, well_formed g = true /\ code_has_company g /\ operands_not_empty g /\
  compute_first g 300 300 = Some t /\ compute_follow g 300 300 t = Some o /\ grules g = [e1; e2] /\ part g e1 n1 /\ part g e2 n2 /\
  begin_after g n1 /\ begin_after g n2 /\ derives g n2 [] /\ no_conflict g t o = true.
Proof.
  exists unseen. eexists. eexists. exists 7, 10, 5, 8. split; [vm_compute; reflexivity|]. split; [|split; [intros n b ops x K; nodes n|]].
  - split.
    + intros e i s _ K B. nodes e; injection K as <- <-; inversion B; subst; cbn in *; try congruence;
        match goal with H : NCons _ _ = NCons _ _ |- _ => injection H as <- <- end;
        match goal with H : bare _ 1, H2 : bare _ 5 |- _ => clear H2; inversion H | H : bare _ 2 |- _ => inversion H end; subst; cbn in *; congruence.
    + intros n l r K I. split; intros B; destruct K as [K|K]; nodes n; injection K as <- <-; inversion B; subst; cbn in *; congruence.
  - split; [vm_compute; reflexivity|]. split; [vm_compute; reflexivity|]. split; [reflexivity|].
    split; [eapply p_child; [eapply p_child; [apply p_self|reflexivity|intros; discriminate]|left; reflexivity|intros; discriminate]|].
    split; [eapply p_child; [eapply p_child; [apply p_self|reflexivity|intros; discriminate]|left; reflexivity|intros; discriminate]|].
    split; [|split; [|split; [eapply d_altr; [reflexivity|apply d_zero; reflexivity]|vm_compute; reflexivity]]].
    + exists 1, [], ([1] ++ []). split; [eapply d_plus1; [reflexivity|apply d_term; reflexivity]|]. split; [|reflexivity].
      eapply (o_consl unseen 6); [|reflexivity|apply d_term; reflexivity]. eapply (o_evolve unseen 7); [|reflexivity].
      eapply (o_rule unseen 3 7); [eapply (o_start unseen 7); [cbn; auto|reflexivity|cbn; auto]|reflexivity|cbn; auto|reflexivity].
    + exists 2, [], ([2] ++ []). split; [eapply d_altl; [reflexivity|apply d_term; reflexivity]|]. split; [|reflexivity].
      eapply (o_consl unseen 9); [|reflexivity|apply d_term; reflexivity]. eapply (o_evolve unseen 10); [|reflexivity].
      eapply (o_rule unseen 4 10); [eapply (o_start unseen 10); [cbn; auto|reflexivity|cbn; auto]|reflexivity|cbn; auto|reflexivity].
Qed.
Print Assumptions C117_missed_refuted.

(** [B* (A | A) B -> s]: [A] always comes after the loop. *)
Definition false_alarm : grammar := {|
  gnodes := [NZero; NTerm; NTerm; NSym; NStar 2 9 10; NAlt 1 1; NCons 5 2; NCons 4 6; NEvolve 7 3; NCons 2 10; NAlt 0 9; NTerm];
  gregular := 9; grules := [8]; gzero := 0; gterms := [1; 2]; gstart := [3]; geof := 11 |}.
Lemma alarm_begin x u : derives false_alarm 4 (x :: u) -> x = 2.
Proof.
  intros D. inversion D; subst; cbn in *; try congruence. match goal with H : NStar _ _ _ = NStar _ _ _ |- _ => injection H as <- <- <- end.
  match goal with H : derives _ 2 _ |- _ => apply term_word in H; [subst|reflexivity] end. cbn in *. congruence.
Qed.
Lemma alarm_rest u : derives false_alarm 6 u -> exists v, u = 1 :: v.
Proof.
  intros D. inversion D; subst; cbn in *; try congruence. match goal with H : NCons _ _ = NCons _ _ |- _ => injection H as <- <- end.
  match goal with H : derives _ 5 _ |- _ => inversion H; subst; cbn in *; try congruence end;
    match goal with H : NAlt _ _ = NAlt _ _ |- _ => injection H as <- <- end;
    match goal with H : derives _ 1 _ |- _ => apply term_word in H; [subst|reflexivity] end; cbn; eauto.
Qed.
Lemma alarm_after w : occurs false_alarm 4 w -> exists v, w = 1 :: v.
Proof.
  intros O. inversion O; subst; clear O;
    try match goal with H : kind false_alarm 4 = _ |- _ => discriminate H end;
    match goal with H : kind false_alarm ?p = _ |- _ =>
      assert (L : p < 12) by (apply (kind_lt false_alarm p); rewrite H; discriminate); do 12 (try (destruct p as [|p]; [cbn in H; try discriminate H|])); try lia end;
    try congruence.
  match goal with H : NCons _ _ = NCons _ _, D : derives _ _ _ |- _ => injection H as <-; destruct (alarm_rest _ D) as (v & ->); cbn; eauto end.
Qed.
Theorem C117_false_alarm_refuted : exists g t o e n, well_formed g = true /\ code_has_company g /\ operands_not_empty g /\
  compute_first g 300 300 = Some t /\ compute_follow g 300 300 t = Some o /\ In e (grules g) /\ first_follow g t o (depth g) e = Warn [n] /\ ~ begin_after g n.
Proof.
  exists false_alarm. eexists. eexists. exists 8, 4. split; [vm_compute; reflexivity|]. split; [|split; [intros n b ops x K; nodes n|]].
  - split.
    + intros e i s _ K B. nodes e; injection K as <- <-; inversion B; subst; cbn in *; try congruence;
        match goal with H : NCons _ _ = NCons _ _ |- _ => injection H as <- <- end;
        match goal with H : bare _ 4 |- _ => inversion H; subst; cbn in *; congruence end.
    + intros n l r K I. split; intros B; destruct K as [K|K]; nodes n; injection K as <- <-; inversion B; subst; cbn in *; congruence.
  - split; [vm_compute; reflexivity|]. split; [vm_compute; reflexivity|]. split; [cbn; auto|]. split; [vm_compute; reflexivity|].
    intros (x & u & w & D & O & NX). apply alarm_begin in D. destruct (alarm_after w O) as (v & ->). cbn in NX. congruence.
Qed.
Print Assumptions C117_false_alarm_refuted.
(** [(A | A) B | B -> s]: the branches begin with different tokens. *)
Definition false_branch : grammar := {|
  gnodes := [NZero; NTerm; NTerm; NSym; NAlt 1 1; NCons 4 2; NAlt 5 2; NEvolve 6 3; NTerm];
  gregular := 8; grules := [7]; gzero := 0; gterms := [1; 2]; gstart := [3]; geof := 8 |}.
Theorem C117_false_branch_refuted : exists g t e n a b l, well_formed g = true /\ compute_first g 100 200 = Some t /\ In e (grules g) /\
  first_first g t (depth g) e = Warn l /\ In n l /\ kind g n = NAlt a b /\ ~ same_begin g a b /\ ~ derives g a [].
Proof.
  exists false_branch. eexists. exists 7, 6, 5, 2, [4; 6]. split; [vm_compute; reflexivity|]. split; [vm_compute; reflexivity|]. split; [cbn; auto|].
  split; [vm_compute; reflexivity|]. split; [cbn; auto|]. split; [reflexivity|].
  assert (H : forall u, derives false_branch 5 u -> u = [1; 2]).
  { intros u D. inversion D; subst; cbn in *; try congruence. match goal with H : NCons _ _ = NCons _ _ |- _ => injection H as <- <- end.
    match goal with H : derives _ 2 _ |- _ => apply term_word in H; [subst|reflexivity] end.
    match goal with H : derives _ 4 _ |- _ => inversion H; subst; cbn in *; try congruence end;
      match goal with H : NAlt _ _ = NAlt _ _ |- _ => injection H as <- <- end;
      match goal with H : derives _ 1 _ |- _ => apply term_word in H; [subst|reflexivity] end; reflexivity. }
  split.
  - intros (x & u & v & D1 & D2). apply H in D1. apply term_word in D2; [|reflexivity]. congruence.
  - intros D. apply H in D. discriminate.
Qed.
Print Assumptions C117_false_branch_refuted.

(** ** C118: the checks come to an end *)
Theorem C118_checks_end : forall g first, well_formed g = true -> forall e, In e (grules g) ->
  (exists l, first_first g first (depth g) e = Warn l) /\ (exists l, undefined g (depth g) e = Warn l) /\ (exists l, empty_first g first e = Warn l) /\ (exists l, empty_operator g first e = Warn l).
Proof.
  intros g first WF e He. destruct (rule_kind g WF e He) as (I & i & s & K). pose proof (inside_lt g WF e I) as L.
  split; [exact (first_first_ends g first WF _ e L I)|]. split; [exact (undefined_ends g WF _ e L I)|]. unfold empty_first, empty_operator, warn_if. rewrite K.
  split; [eauto|]. destruct (kind g i); eauto.
Qed.
Print Assumptions C118_checks_end.
(** Full statement: the FIRST/FOLLOW check ends too; false (below).  Where it
    does not, it follows a null pointer. *)
Theorem C118_follow_check_exact : forall g first follow, well_formed g = true -> forall e, In e (grules g) ->
  let c := first_follow g first follow (depth g) e in
  ((exists l, c = Warn l) \/ c = Null) /\ (c = Null <-> exists n a b, part g e n /\ kind g n = NAlt a b /\ only_code g b).
Proof.
  intros g first follow WF e He c. destruct (rule_kind g WF e He) as (I & i & s & K). pose proof (inside_lt g WF e I) as L.
  pose proof (first_follow_ends g first follow WF _ e L I) as H. fold c in H. unfold stops in H. destruct H as [((l & ->) & N)|(-> & Y)]; (split; [eauto|]); split; try discriminate; tauto.
Qed.
Print Assumptions C118_follow_check_exact.
Example C118_case : well_formed inner_loop = true /\ forall first follow, exists l, first_follow inner_loop first follow (depth inner_loop) 8 = Warn l.
Proof.
  split; [vm_compute; reflexivity|]. intros first follow.
  destruct (C118_follow_check_exact inner_loop first follow ltac:(vm_compute; reflexivity) 8 (or_introl eq_refl)) as ([H|H] & N); [exact H|].
  apply N in H. destruct H as (n & a & b & _ & K & O). exfalso. nodes n; injection K as <- <-; inversion O; subst; cbn in *; congruence.
Qed.
(** [A | [: code :] -> s]. *)
Definition code_branch : grammar := {|
  gnodes := [NZero; NTerm; NSym; NAct None; NAlt 1 3; NEvolve 4 2; NTerm];
  gregular := 6; grules := [5]; gzero := 0; gterms := [1]; gstart := [2]; geof := 6 |}.
Theorem C118_null_refuted : exists g e, well_formed g = true /\ In e (grules g) /\ forall first follow, first_follow g first follow (depth g) e = Null.
Proof. exists code_branch, 5. split; [vm_compute; reflexivity|]. split; [cbn; auto|]. intros first follow. reflexivity. Qed.
Print Assumptions C118_null_refuted.
