(** FIRST, FOLLOW and nullability: properties C42 to C46 and C116. *)
From Coq Require Import List Bool PeanoNat Lia.
From Verif Require Import Base GrammarModel GrammarSpec GrammarProofs FirstProofs FollowProofs GrammarTermProofs FirstSoundProofs FollowSoundProofs GrammarLoopProofs.
Import ListNotations.

(** ** A grammar that meets all conditions
    [(B | C s)* e -> s], and [e] an operator expression over [A] with prefix
    operator [D] and binary operator [P]. *)
Definition sample : grammar := {|
  gnodes := [NZero; NTerm; NTerm; NTerm; NTerm; NTerm; NSym; NSym; NNon 6; NCons 3 8; NAlt 2 9; NStar 10 17 18; NNon 7; NCons 11 12; NEvolve 13 6;
             NOper 1 [OPre 4; OBin 5] 19; NEvolve 15 7; NCons 10 18; NAlt 0 17; NAlt 20 21; NCons 4 19; NAlt 22 1; NCons 19 23; NCons 5 19; NTerm];
  gregular := 17; grules := [14; 16]; gzero := 0; gterms := [1; 2; 3; 4; 5]; gstart := [6]; geof := 24 |}.
Tactic Notation "nodes" ident(n) := do 25 (try (destruct n as [|n]; [cbn in *; try congruence|])); try (cbn in *; destruct n; cbn in *; congruence).
Ltac walk_heads :=
  repeat match goal with
  | H : _ \/ _ |- _ => destruct H; cbn in *; try congruence
  | H : NAlt _ _ = NAlt _ _ |- _ => injection H as <- <-
  | H : NCons _ _ = NCons _ _ |- _ => injection H as <- <-
  | H : NNon _ = NNon _ |- _ => injection H as <-
  | H : heads _ _ _ |- _ => inversion H; clear H; subst; cbn in *; try congruence
  end.
Example sample_operands : operands_not_empty sample.
Proof. intros n b ops x K D. nodes n. injection K as <- <- <-. inversion D; subst; cbn in *; congruence. Qed.
Example sample_company : code_has_company sample.
Proof.
  split.
  - intros e i s _ K B. nodes e; injection K as <- <-; inversion B; subst; cbn in *; try congruence;
      match goal with H : NCons _ _ = NCons _ _ |- _ => injection H as <- <- end;
      match goal with H : bare _ 11 |- _ => inversion H; cbn in *; congruence end.
  - intros n l r K _. split; intros B; destruct K as [K|K]; nodes n; injection K as <- <-; inversion B; subst; cbn in *; try congruence;
      match goal with H : NCons _ _ = NCons _ _ |- _ => injection H as <- <- end;
      match goal with H : bare _ _ |- _ => inversion H; subst; cbn in *; congruence end.
Qed.
Example sample_apart : heads_apart sample.
Proof.
  split; [|split].
  - intros n l r x I K H1 H2. exfalso. destruct K as [K|K]; nodes n; injection K as <- <-; walk_heads.
  - intros n l r x I K D H1 H2. exfalso. nodes n; injection K as <- <-; walk_heads.
  - intros n b ops x K. nodes n; injection K as <- <- <-. split.
    + cbn. repeat constructor; cbn; intuition congruence.
    + cbn. intros t [<- | [<- | []]] H; walk_heads.
Qed.
Example sample_productive : productive sample.
Proof.
  assert (T : forall n, kind sample n = NTerm -> derives sample n [n]) by (intros; apply d_term; assumption).
  assert (D0 : derives sample 0 []) by (apply d_zero; reflexivity).
  assert (D15 : derives sample 15 [1]) by (eapply d_base; [reflexivity|apply T; reflexivity]).
  assert (D7 : derives sample 7 [1]) by (eapply (d_sym sample 7 16); [reflexivity|cbn; auto|reflexivity|exact D15]).
  assert (D12 : derives sample 12 [1]) by (eapply d_non; [reflexivity|exact D7]).
  assert (D11 : derives sample 11 []) by (eapply d_star0; reflexivity).
  assert (D13 : derives sample 13 [1]) by (change [1] with ([] ++ [1]); eapply d_cons; [reflexivity|exact D11|exact D12]).
  assert (D6 : derives sample 6 [1]) by (eapply (d_sym sample 6 14); [reflexivity|cbn; auto|reflexivity|exact D13]).
  assert (D8 : derives sample 8 [1]) by (eapply d_non; [reflexivity|exact D6]).
  assert (D10 : derives sample 10 [2]) by (eapply d_altl; [reflexivity|apply T; reflexivity]).
  assert (D18 : derives sample 18 []) by (eapply d_altl; [reflexivity|exact D0]).
  assert (D21 : derives sample 21 [1]) by (eapply d_altr; [reflexivity|apply T; reflexivity]).
  assert (D19 : derives sample 19 [1]) by (eapply d_altr; [reflexivity|exact D21]).
  assert (D23 : derives sample 23 ([5] ++ [1])) by (eapply d_cons; [reflexivity|apply T; reflexivity|exact D19]).
  intros n L K. unfold size in L. cbn in L.
  do 25 (destruct n as [|n]; [eexists; first [eassumption|apply T; reflexivity|eapply d_cons; [reflexivity|first [eassumption|apply T; reflexivity]|eassumption]|eapply d_evolve; [reflexivity|eassumption]]|]).
  lia.
Qed.

(** ** C45: the computations come to an end, whatever bound is given to them *)
Theorem C45_terminates : forall g, well_formed g = true ->
  forall rounds fuel, size g * size g + 1 < rounds -> S (size g) * S (S (size g)) < fuel ->
  exists t, compute_first g rounds fuel = Some t /\
    (forall rounds' fuel' t', compute_first g rounds' fuel' = Some t' -> t' = t) /\
    forall first, exists o, compute_follow g rounds fuel first = Some o /\
      (forall rounds' fuel' o', compute_follow g rounds' fuel' first = Some o' -> o' = o).
Proof.
  intros g WF rounds fuel R F.
  destruct (first_loop_total g WF rounds fuel (first_init g) F) as (t & E & _); [pose proof (missing_bound g (first_init g)); lia|].
  exists t. split; [exact E|]. split; [intros r f t' E'; eapply compute_first_same; eassumption|].
  intros first. destruct (follow_loop_total g WF first rounds fuel (follow_init g) true F) as (o & E' & _); [pose proof (missing_bound g (follow_init g)); lia|].
  exists o. split; [exact E'|]. intros r f o' E2. eapply compute_follow_same; eassumption.
Qed.
Print Assumptions C45_terminates.
(** A left-recursive and a cyclic rule: [s A -> s ;; s -> s]. *)
Definition cyclic : grammar := {|
  gnodes := [NZero; NTerm; NSym; NNon 2; NCons 3 1; NEvolve 4 2; NNon 2; NEvolve 6 2; NTerm];
  gregular := 8; grules := [5; 7]; gzero := 0; gterms := [1]; gstart := []; geof := 8 |}.
Example C45_case : well_formed cyclic = true /\ well_formed sample = true /\ exists t, compute_first cyclic 83 91 = Some t.
Proof. split; [vm_compute; reflexivity|]. split; [vm_compute; reflexivity|]. eexists. vm_compute. reflexivity. Qed.

(** ** C42: FIRST is complete
    Full statement: without [code_has_company] and [operands_not_empty]; false
    then (below). *)
Theorem C42_first_complete_partial : forall g rounds fuel t, well_formed g = true -> code_has_company g -> operands_not_empty g ->
  compute_first g rounds fuel = Some t -> forall n, item g n ->
  (forall x w, derives g n (x :: w) -> t n x = true) /\ (derives g n [] -> eps g t n = true).
Proof.
  intros g rounds fuel t WF CO OP E n [I K]. destruct (first_loop_some g _ _ _ _ E) as [G Q]. split.
  - intros x w D. apply (first_complete g WF t Q G CO (noticed g t OP) n (x :: w) D x w eq_refl). destruct I as [I|I]; [auto|right; apply (written_met g WF n I)].
  - intros D. apply (eps_of_null g WF t Q G CO (noticed g t OP) n D K).
Qed.
Print Assumptions C42_first_complete_partial.
Example C42_case : well_formed sample = true /\ code_has_company sample /\ operands_not_empty sample /\ item sample 13 /\
  derives sample 13 [2; 4; 1] /\ exists t, compute_first sample 100 700 = Some t /\ map (t 13) (seq 0 7) = [false; true; true; true; true; false; false].
Proof.
  split; [vm_compute; reflexivity|]. split; [exact sample_company|]. split; [exact sample_operands|]. split.
  - split; [right; eapply w_child; [apply (w_rule sample 14); cbn; auto|reflexivity]|intros i s; discriminate].
  - split.
    + change [2; 4; 1] with ([2] ++ [4; 1]). eapply d_cons; [reflexivity| |].
      * change [2] with ([2] ++ []). eapply d_star; [reflexivity| |eapply d_star0; reflexivity]. eapply d_altl; [reflexivity|]. apply d_term. reflexivity.
      * eapply d_non; [reflexivity|]. eapply (d_sym sample 7 16); [reflexivity|cbn; auto|reflexivity|].
        eapply d_pre; [reflexivity|cbn; auto|]. eapply d_base; [reflexivity|]. apply d_term. reflexivity.
    + eexists. split; [vm_compute; reflexivity|vm_compute; reflexivity].
Qed.
(** [[: code :] -> s ;; s A -> start]: A is a sentence, but not in FIRST(start),
    and [s] is not found to be empty. *)
Definition bare_code : grammar := {|
  gnodes := [NZero; NTerm; NSym; NSym; NAct None; NEvolve 4 2; NNon 2; NCons 6 1; NEvolve 7 3; NTerm];
  gregular := 9; grules := [5; 8]; gzero := 0; gterms := [1]; gstart := [3]; geof := 9 |}.
Lemma bare_code_word : derives bare_code 2 [] /\ derives bare_code 3 [1].
Proof.
  assert (D : derives bare_code 2 []) by (eapply (d_sym bare_code 2 5); [reflexivity|cbn; auto|reflexivity|apply d_act0; reflexivity]).
  split; [exact D|]. eapply (d_sym bare_code 3 8); [reflexivity|cbn; auto|reflexivity|].
  change [1] with ([] ++ [1]). eapply d_cons; [reflexivity| |apply d_term; reflexivity]. eapply d_non; [reflexivity|exact D].
Qed.
Theorem C42_first_complete_refuted : exists g t n x, well_formed g = true /\ operands_not_empty g /\ compute_first g 100 200 = Some t /\
  item g n /\ derives g n [x] /\ t n x = false.
Proof.
  exists bare_code. eexists. exists 3, 1. split; [vm_compute; reflexivity|]. split.
  - intros n b ops x K. unfold kind in K. do 10 (destruct n as [|n]; [cbn in K; discriminate|]). destruct n; discriminate.
  - split; [vm_compute; reflexivity|]. split; [split; [left; reflexivity|intros i s; discriminate]|]. split; [apply bare_code_word|]. vm_compute. reflexivity.
Qed.
Print Assumptions C42_first_complete_refuted.

(** ** C43: FIRST is not too large
    Full statement: without [operands_not_empty] and [heads_apart] (no token
    twice at the beginning of an item); false then (below). *)
Theorem C43_first_sound_partial : forall g rounds fuel t, well_formed g = true -> productive g -> operands_not_empty g -> heads_apart g ->
  compute_first g rounds fuel = Some t -> forall n x, t n x = true ->
  (x = gzero g /\ derives g n []) \/ (kind g x = NTerm /\ exists w, derives g n (x :: w)).
Proof. intros g rounds fuel t WF PR OP AP E. exact (compute_first_sound g WF OP AP PR rounds fuel t E). Qed.
Print Assumptions C43_first_sound_partial.
Example C43_case : productive sample /\ heads_apart sample /\ exists t, compute_first sample 100 700 = Some t /\ t 6 4 = true /\ t 6 0 = false /\ t 6 5 = false.
Proof. split; [exact sample_productive|]. split; [exact sample_apart|]. eexists. split; [vm_compute; reflexivity|]. split; [vm_compute; reflexivity|]. split; vm_compute; reflexivity. Qed.
(** [(A | A) B -> s]: B in FIRST(s). *)
Definition twice : grammar := {|
  gnodes := [NZero; NTerm; NTerm; NSym; NAlt 1 1; NCons 4 2; NEvolve 5 3; NTerm];
  gregular := 7; grules := [6]; gzero := 0; gterms := [1; 2]; gstart := [3]; geof := 7 |}.
Lemma twice_words w : derives twice 3 w -> w = [1; 2].
Proof.
  intros D. inversion D; subst; cbn in *; try congruence. destruct H0 as [<- | []]. cbn in *. injection H1 as <-.
  inversion H2; subst; cbn in *; try congruence. injection H0 as <- <-.
  apply term_word in H3; [|reflexivity]. inversion H1; subst; cbn in *; try congruence; injection H0 as <- <-;
    apply term_word in H4; try reflexivity; subst; reflexivity.
Qed.
Theorem C43_first_sound_refuted : exists g t n x, well_formed g = true /\ code_has_company g /\ operands_not_empty g /\ productive g /\
  compute_first g 100 200 = Some t /\ item g n /\ kind g x = NTerm /\ t n x = true /\ forall w, ~ derives g n (x :: w).
Proof.
  exists twice. eexists. exists 3, 2. split; [vm_compute; reflexivity|].
  assert (KS : forall n, kind twice n <> NOther -> n < 8).
  { intros n H. apply (kind_lt twice n H). }
  split; [split|split; [|split]].
  - intros e i s _ K B. assert (L : e < 8) by (apply KS; congruence). unfold kind in K. do 8 (try (destruct e as [|e]; [try discriminate|])); try lia.
    injection K as <- <-. inversion B; subst; cbn in *; try congruence. injection H as <- <-. inversion H0; subst; cbn in *; congruence.
  - intros n l r K _. assert (L : n < 8) by (apply KS; destruct K; congruence). destruct K as [K|K]; do 8 (try (destruct n as [|n]; [try discriminate|])); try lia.
    injection K as <- <-. split; intros B; inversion B; subst; cbn in *; congruence.
  - intros n b ops x K. assert (L : n < 8) by (apply KS; congruence). do 8 (destruct n as [|n]; [discriminate|]). lia.
  - assert (D1 : derives twice 1 [1]) by (apply d_term; reflexivity). assert (D2 : derives twice 2 [2]) by (apply d_term; reflexivity).
    assert (D4 : derives twice 4 [1]) by (eapply d_altl; [reflexivity|exact D1]).
    assert (D5 : derives twice 5 ([1] ++ [2])) by (eapply d_cons; [reflexivity|exact D4|exact D2]).
    intros n L _. unfold size in L. cbn in L.
    do 8 (destruct n as [|n]; [eexists; first [eassumption|apply d_zero; reflexivity|apply d_term; reflexivity|eapply d_evolve; [reflexivity|eassumption]
      |eapply (d_sym twice 3 6); [reflexivity|cbn; auto|reflexivity|eassumption]]|]). lia.
  - split; [vm_compute; reflexivity|]. split; [split; [left; reflexivity|intros i s; discriminate]|]. split; [reflexivity|]. split; [vm_compute; reflexivity|].
    intros w D. apply twice_words in D. discriminate.
Qed.
Print Assumptions C43_first_sound_refuted.

(** ** C44: the test for the empty string *)
Theorem C44_nullable_exact_partial : forall g rounds fuel t, well_formed g = true -> code_has_company g -> operands_not_empty g -> productive g -> heads_apart g ->
  compute_first g rounds fuel = Some t -> forall n, item g n -> (eps g t n = true <-> derives g n []).
Proof.
  intros g rounds fuel t WF CO OP PR AP E n I. split.
  - apply (eps_right g WF AP t n); [exact (compute_first_sound g WF OP AP PR rounds fuel t E)|apply (item_inside g WF n I)].
  - apply (C42_first_complete_partial g rounds fuel t WF CO OP E n I).
Qed.
Print Assumptions C44_nullable_exact_partial.
Example C44_case : exists t, compute_first sample 100 700 = Some t /\ eps sample t 11 = true /\ eps sample t 13 = false /\
  code_has_company sample /\ operands_not_empty sample /\ productive sample /\ heads_apart sample.
Proof.
  eexists. split; [vm_compute; reflexivity|]. split; [vm_compute; reflexivity|]. split; [vm_compute; reflexivity|].
  split; [exact sample_company|]. split; [exact sample_operands|]. split; [exact sample_productive|exact sample_apart].
Qed.
(** Both directions fail: [A | A] is taken for empty, a code block is not. *)
Theorem C44_nullable_exact_refuted :
  (exists g t n, well_formed g = true /\ compute_first g 100 200 = Some t /\ item g n /\ eps g t n = true /\ ~ derives g n []) /\
  (exists g t n, well_formed g = true /\ compute_first g 100 200 = Some t /\ item g n /\ eps g t n = false /\ derives g n []).
Proof.
  split.
  - exists twice. eexists. exists 4. split; [vm_compute; reflexivity|]. split; [vm_compute; reflexivity|]. split.
    + split; [right|intros i s; discriminate]. eapply w_child; [eapply w_child; [apply (w_rule twice 6); cbn; auto|reflexivity]|left; reflexivity].
    + split; [vm_compute; reflexivity|]. intros D. inversion D; subst; cbn in *; try congruence; injection H as <- <-; apply term_word in H0; try discriminate; reflexivity.
  - exists bare_code. eexists. exists 2. split; [vm_compute; reflexivity|]. split; [vm_compute; reflexivity|]. split.
    + split; [left; reflexivity|intros i s; discriminate].
    + split; [vm_compute; reflexivity|]. apply bare_code_word.
Qed.
Print Assumptions C44_nullable_exact_refuted.
(** An operator with the same token as prefix and as binary operator, as in
    arithmetic, is taken for empty, too: [e B -> s], [e] over [A] with prefix
    [M] and binary [M]. *)
Definition minus : grammar := {|
  gnodes := [NZero; NTerm; NTerm; NTerm; NSym; NSym; NOper 1 [OPre 3; OBin 3] 11; NEvolve 6 4; NNon 4; NCons 8 2; NEvolve 9 5;
             NAlt 12 13; NCons 3 11; NAlt 14 1; NCons 11 15; NCons 3 11; NTerm];
  gregular := 11; grules := [7; 10]; gzero := 0; gterms := [1; 2; 3]; gstart := [5]; geof := 16 |}.
Theorem C44_operator_refuted : exists t, well_formed minus = true /\ operands_not_empty minus /\ compute_first minus 400 400 = Some t /\ item minus 5 /\
  eps minus t 11 = true /\ ~ derives minus 6 [] /\ ~ derives minus 11 [].
Proof.
  assert (OP : operands_not_empty minus).
  { intros n b ops x K. assert (L : n < 17) by (apply (kind_lt minus n); rewrite K; discriminate). do 17 (try (destruct n as [|n]; [try discriminate|])); try lia.
    injection K as <- <- <-. intros D. inversion D; subst; cbn in *; congruence. }
  assert (WF : well_formed minus = true) by (vm_compute; reflexivity).
  assert (N6 : ~ derives minus 6 []) by (intros D; exact (oper_not_empty minus OP 6 [] D eq_refl _ _ _ eq_refl)).
  eexists. split; [exact WF|]. split; [exact OP|]. split; [vm_compute; reflexivity|]. split.
  - split; [left; reflexivity|intros i s; discriminate].
  - split; [vm_compute; reflexivity|]. split; [exact N6|]. intros D. apply N6. exact (oper_top minus WF 6 1 [OPre 3; OBin 3] 11 [] eq_refl D).
Qed.
Print Assumptions C44_operator_refuted.

(** ** C46: FOLLOW is complete
    Terminals and the empty item have no FOLLOW set.  Full statement: without
    [code_has_company] and [operands_not_empty]; false then (below). *)
Theorem C46_follow_complete_partial : forall g rounds fuel t o, well_formed g = true -> code_has_company g -> operands_not_empty g ->
  compute_first g rounds fuel = Some t -> compute_follow g rounds fuel t = Some o ->
  forall n w, occurs g n w -> kind g n <> NTerm -> kind g n <> NZero -> o n (next g w) = true.
Proof.
  intros g rounds fuel t o WF CO OP E EO n w OC K1 K2. destruct (first_loop_some g _ _ _ _ E) as [G Q].
  destruct (follow_loop_some g t _ _ _ _ EO) as [G' Q'].
  destruct (follow_complete g WF t o Q' Q G G' CO OP n w OC) as [_ [_ KN]]. apply KN.
  unfold plain, is_zero, is_term. destruct (kind g n); try reflexivity; congruence.
Qed.
Print Assumptions C46_follow_complete_partial.
Example C46_case : occurs sample 11 [1] /\ exists t o, compute_first sample 700 700 = Some t /\ compute_follow sample 700 700 t = Some o /\
  map (o 11) (seq 0 6) = [false; true; false; false; true; false] /\ map (o 15) (seq 0 6) = [false; true; true; true; true; false] /\ o 15 24 = true.
Proof.
  split.
  - change [1] with ([1] ++ []). eapply (o_consl sample 13); [|reflexivity|].
    + eapply (o_evolve sample 14); [|reflexivity]. eapply (o_rule sample 6 14); [eapply (o_start sample 14); [cbn; auto|reflexivity|cbn; auto]|reflexivity|cbn; auto|reflexivity].
    + eapply d_non; [reflexivity|]. eapply (d_sym sample 7 16); [reflexivity|cbn; auto|reflexivity|]. eapply d_base; [reflexivity|]. apply d_term. reflexivity.
  - eexists. eexists. split; [vm_compute; reflexivity|]. split; [vm_compute; reflexivity|]. split; [vm_compute; reflexivity|]. split; vm_compute; reflexivity.
Qed.
(** [[: code :] -> s ;; x s A -> start ;; B -> x]: A can come after [x]. *)
Definition bare_after : grammar := {|
  gnodes := [NZero; NTerm; NTerm; NSym; NSym; NSym; NAct None; NEvolve 6 3; NNon 5; NNon 3; NCons 9 1; NCons 8 10; NEvolve 11 4; NEvolve 2 5; NTerm];
  gregular := 14; grules := [7; 12; 13]; gzero := 0; gterms := [1; 2]; gstart := [4]; geof := 14 |}.
Theorem C46_follow_complete_refuted : exists g t o n w, well_formed g = true /\ operands_not_empty g /\ compute_first g 300 300 = Some t /\ compute_follow g 300 300 t = Some o /\
  occurs g n w /\ kind g n = NSym /\ o n (next g w) = false.
Proof.
  exists bare_after. eexists. eexists. exists 5, [1]. split; [vm_compute; reflexivity|]. split.
  - intros n b ops x K. assert (L : n < 15) by (apply (kind_lt bare_after n); rewrite K; discriminate). do 15 (destruct n as [|n]; [discriminate|]). lia.
  - split; [vm_compute; reflexivity|]. split; [vm_compute; reflexivity|]. split; [|split; [reflexivity|vm_compute; reflexivity]].
    eapply (o_non bare_after 8); [|reflexivity]. change [1] with (([] ++ [1]) ++ []). eapply (o_consl bare_after 11); [|reflexivity|].
    + eapply (o_evolve bare_after 12); [|reflexivity]. eapply (o_rule bare_after 4 12); [eapply (o_start bare_after 12); [cbn; auto|reflexivity|cbn; auto]|reflexivity|cbn; auto|reflexivity].
    + eapply d_cons; [reflexivity| |apply d_term; reflexivity]. eapply d_non; [reflexivity|].
      eapply (d_sym bare_after 3 7); [reflexivity|cbn; auto|reflexivity|apply d_act0; reflexivity].
Qed.
Print Assumptions C46_follow_complete_refuted.

(** ** C116: FOLLOW is not too large, and then exact
    Full statement: without [operands_not_empty], [heads_apart] and the
    condition that every rule is used; false then (below). *)
Theorem C116_follow_sound_partial : forall g rounds fuel t o, well_formed g = true -> productive g -> operands_not_empty g -> heads_apart g ->
  (forall e, In e (grules g) -> exists w, occurs g e w) ->
  compute_first g rounds fuel = Some t -> compute_follow g rounds fuel t = Some o ->
  forall n x, kind g n = NSym \/ written g n -> o n x = true -> exists w, occurs g n w /\ next g w = x.
Proof.
  intros g rounds fuel t o WF PR OP AP LIVE E EO n x W H.
  apply (compute_follow_sound g WF t AP (compute_first_sound g WF OP AP PR rounds fuel t E) PR LIVE rounds fuel o EO n x H). apply (either_inside g WF n W).
Qed.
Print Assumptions C116_follow_sound_partial.
Theorem C116_follow_exact_partial : forall g rounds fuel t o, well_formed g = true -> code_has_company g -> productive g -> operands_not_empty g -> heads_apart g ->
  (forall e, In e (grules g) -> exists w, occurs g e w) ->
  compute_first g rounds fuel = Some t -> compute_follow g rounds fuel t = Some o ->
  forall n x, kind g n = NSym \/ written g n -> kind g n <> NTerm -> kind g n <> NZero -> (o n x = true <-> exists w, occurs g n w /\ next g w = x).
Proof.
  intros g rounds fuel t o WF CO PR OP AP LIVE E EO n x W K1 K2. split.
  - exact (C116_follow_sound_partial g rounds fuel t o WF PR OP AP LIVE E EO n x W).
  - intros (w & O & <-). exact (C46_follow_complete_partial g rounds fuel t o WF CO OP E EO n w O K1 K2).
Qed.
Print Assumptions C116_follow_exact_partial.
Lemma sample_start : occurs sample 14 [].
Proof. eapply (o_rule sample 6 14); [eapply (o_start sample 14); [cbn; auto|reflexivity|cbn; auto]|reflexivity|cbn; auto|reflexivity]. Qed.
Example sample_live : forall e, In e (grules sample) -> exists w, occurs sample e w.
Proof.
  cbn. intros e [<- | [<- | []]]; exists []; [exact sample_start|].
  eapply (o_rule sample 7 16); [|reflexivity|cbn; auto|reflexivity]. eapply (o_non sample 12); [|reflexivity]. eapply (o_consr sample 13); [|reflexivity].
  eapply (o_evolve sample 14); [exact sample_start|reflexivity].
Qed.
(** The operator is followed by what comes after a whole [s], and only that. *)
Example C116_case : productive sample /\ heads_apart sample /\ code_has_company sample /\ written sample 15 /\
  exists t o, compute_first sample 700 700 = Some t /\ compute_follow sample 700 700 t = Some o /\ o 15 4 = true /\ o 15 5 = false /\ ~ exists w, occurs sample 15 w /\ next sample w = 5.
Proof.
  split; [exact sample_productive|]. split; [exact sample_apart|]. split; [exact sample_company|].
  assert (W : written sample 15) by (eapply w_child; [apply (w_rule sample 16); cbn; auto|reflexivity]).
  split; [exact W|]. eexists. eexists. split; [vm_compute; reflexivity|]. split; [vm_compute; reflexivity|]. split; [vm_compute; reflexivity|]. split; [vm_compute; reflexivity|].
  intros Q. apply (C116_follow_exact_partial sample 700 700 _ _ eq_refl sample_company sample_productive sample_operands sample_apart sample_live ltac:(vm_compute; reflexivity) ltac:(vm_compute; reflexivity) 15 5 (or_intror W)) in Q; [vm_compute in Q; discriminate|discriminate|discriminate].
Qed.
(** [x (A | A) -> s ;; B -> x]: the end of the input in FOLLOW(x). *)
Definition loose : grammar := {|
  gnodes := [NZero; NTerm; NTerm; NSym; NSym; NNon 4; NAlt 1 1; NCons 5 6; NEvolve 7 3; NEvolve 2 4; NTerm];
  gregular := 10; grules := [8; 9]; gzero := 0; gterms := [1; 2]; gstart := [3]; geof := 10 |}.
Lemma loose_start : occurs loose 8 [].
Proof. eapply (o_rule loose 3 8); [eapply (o_start loose 8); [cbn; auto|reflexivity|cbn; auto]|reflexivity|cbn; auto|reflexivity]. Qed.
Lemma loose_six u : derives loose 6 u -> u = [1].
Proof. intros D. inversion D; subst; cbn in *; try congruence; match goal with H : NAlt _ _ = NAlt _ _ |- _ => injection H as <- <- end; apply (term_word loose 1); try reflexivity; assumption. Qed.
Lemma loose_x n w : occurs loose n w -> n = 4 \/ n = 5 -> exists v, w = 1 :: v.
Proof.
  induction 1; intros C; try (destruct C; subst n; cbn in *; congruence); try (destruct C; subst; cbn in *; discriminate).
  all: try match goal with H : kind loose ?p = _, O : occurs loose ?p _ |- _ =>
    assert (L : p < 11) by (apply (kind_lt loose p); rewrite H; discriminate); do 11 (try (destruct p as [|p]; [cbn in H; try discriminate H|])); try lia end.
  all: try (injection H as <-); try (injection H0 as <- <-); subst.
  all: try (destruct C; discriminate).
  all: try (apply IHoccurs; auto; fail).
  all: try (match goal with H : In _ _ |- _ => cbn in H end; intuition congruence).
  all: try (apply loose_six in H1; subst; cbn; eauto).
  exfalso. nodes n.
Qed.
Theorem C116_follow_sound_refuted : exists g t o n x, well_formed g = true /\ code_has_company g /\ operands_not_empty g /\ productive g /\
  (forall e, In e (grules g) -> exists w, occurs g e w) /\ compute_first g 300 300 = Some t /\ compute_follow g 300 300 t = Some o /\
  kind g n = NSym /\ o n x = true /\ ~ exists w, occurs g n w /\ next g w = x.
Proof.
  exists loose. eexists. eexists. exists 4, 10. split; [vm_compute; reflexivity|]. split; [|split; [|split; [|split]]].
  - split.
    + intros e i s _ K B. nodes e; injection K as <- <-; inversion B; subst; cbn in *; try congruence;
        match goal with H : NCons _ _ = NCons _ _ |- _ => injection H as <- <- end;
        match goal with H : bare _ 5 |- _ => inversion H; cbn in *; congruence end.
    + intros n l r K _. split; intros B; destruct K as [K|K]; nodes n; injection K as <- <-; inversion B; subst; cbn in *; congruence.
  - intros n b ops x K. nodes n.
  - assert (T : forall n, kind loose n = NTerm -> derives loose n [n]) by (intros; apply d_term; assumption).
    assert (D4 : derives loose 4 [2]) by (eapply (d_sym loose 4 9); [reflexivity|cbn; auto|reflexivity|apply T; reflexivity]).
    assert (D5 : derives loose 5 [2]) by (eapply d_non; [reflexivity|exact D4]).
    assert (D6 : derives loose 6 [1]) by (eapply d_altl; [reflexivity|apply T; reflexivity]).
    assert (D7 : derives loose 7 ([2] ++ [1])) by (eapply d_cons; [reflexivity|exact D5|exact D6]).
    assert (D3 : derives loose 3 ([2] ++ [1])) by (eapply (d_sym loose 3 8); [reflexivity|cbn; auto|reflexivity|exact D7]).
    assert (D0 : derives loose 0 []) by (apply d_zero; reflexivity).
    intros n L K. unfold size in L. cbn in L.
    do 11 (destruct n as [|n]; [eexists; first [eassumption|apply T; reflexivity|eapply d_evolve; [reflexivity|first [eassumption|apply T; reflexivity]]]|]). lia.
  - cbn. intros e [<- | [<- | []]]; [exists []; exact loose_start|]. exists ([1] ++ []).
    eapply (o_rule loose 4 9); [|reflexivity|cbn; auto|reflexivity]. eapply (o_non loose 5); [|reflexivity]. eapply (o_consl loose 7 5 6); [|reflexivity|eapply d_altl; [reflexivity|apply d_term; reflexivity]].
    eapply (o_evolve loose 8); [exact loose_start|reflexivity].
  - split; [vm_compute; reflexivity|]. split; [vm_compute; reflexivity|]. split; [reflexivity|]. split; [vm_compute; reflexivity|].
    intros (w & O & E). destruct (loose_x 4 w O (or_introl eq_refl)) as (v & ->). discriminate.
Qed.
Print Assumptions C116_follow_sound_refuted.
(** [s -> u ;; A -> s ;; C s B | D t -> t], where [t] cannot be reached but is
    mentioned more than once, hence not a start symbol: B in FOLLOW(s). *)
Definition unused : grammar := {|
  gnodes := [NZero; NTerm; NTerm; NTerm; NTerm; NSym; NSym; NSym; NNon 6; NEvolve 8 5; NEvolve 1 6; NNon 6; NCons 11 2; NCons 3 12; NNon 7; NCons 4 14; NAlt 13 15; NEvolve 16 7; NTerm];
  gregular := 18; grules := [9; 10; 17]; gzero := 0; gterms := [1; 2; 3; 4]; gstart := [5]; geof := 18 |}.
Lemma unused_occurs n w : occurs unused n w -> In n [5; 9; 8; 6; 10; 1] /\ w = [].
Proof.
  induction 1; try (exfalso; match goal with H : kind unused ?p = NOper _ _ _ |- _ => clear - H; nodes p end; fail); try (destruct IHoccurs as (IN & ->)); try (split; [|reflexivity]).
  all: try match goal with IN : In _ [5; 9; 8; 6; 10; 1] |- _ => cbn in IN; repeat (destruct IN as [<- | IN]; [cbn in *; try congruence|]); try contradiction end.
  all: try match goal with H : kind unused _ = _ |- _ => cbn in H; try discriminate H end.
  all: try (match goal with H : In _ (grules unused) |- _ => cbn in H; repeat (destruct H as [<- | H]; [cbn in *; try congruence|]); try contradiction end).
  all: try match goal with H : NEvolve _ _ = NEvolve _ _ |- _ => injection H as <- <- end.
  all: try match goal with H : NNon _ = NNon _ |- _ => injection H as <- end.
  all: try (cbn in *; tauto).
  1,2: destruct H1 as [<- | [<- | [<- | []]]]; try discriminate H2; tauto.
Qed.
Theorem C116_unused_refuted : exists g t o n x, well_formed g = true /\ code_has_company g /\ operands_not_empty g /\ productive g /\ heads_apart g /\
  compute_first g 600 600 = Some t /\ compute_follow g 600 600 t = Some o /\
  kind g n = NSym /\ o n x = true /\ ~ exists w, occurs g n w /\ next g w = x.
Proof.
  exists unused. eexists. eexists. exists 6, 2. split; [vm_compute; reflexivity|]. split; [|split; [|split; [|split]]].
  - split.
    + intros e i s _ K B. nodes e; injection K as <- <-; inversion B; subst; cbn in *; try congruence.
    + intros n l r K _. split; intros B; destruct K as [K|K]; nodes n; injection K as <- <-; inversion B; subst; cbn in *; try congruence;
        match goal with H : NCons _ _ = NCons _ _ |- _ => injection H as <- <- end;
        match goal with H : bare _ _ |- _ => inversion H; subst; cbn in *; congruence end.
  - intros n b ops x K. nodes n.
  - assert (T : forall n, kind unused n = NTerm -> derives unused n [n]) by (intros; apply d_term; assumption).
    assert (D6 : derives unused 6 [1]) by (eapply (d_sym unused 6 10); [reflexivity|cbn; auto|reflexivity|apply T; reflexivity]).
    assert (D8 : derives unused 8 [1]) by (eapply d_non; [reflexivity|exact D6]).
    assert (D5 : derives unused 5 [1]) by (eapply (d_sym unused 5 9); [reflexivity|cbn; auto|reflexivity|exact D8]).
    assert (D11 : derives unused 11 [1]) by (eapply d_non; [reflexivity|exact D6]).
    assert (D12 : derives unused 12 ([1] ++ [2])) by (eapply d_cons; [reflexivity|exact D11|apply T; reflexivity]).
    assert (D13 : derives unused 13 ([3] ++ [1] ++ [2])) by (eapply d_cons; [reflexivity|apply T; reflexivity|exact D12]).
    assert (D16 : derives unused 16 ([3] ++ [1] ++ [2])) by (eapply d_altl; [reflexivity|exact D13]).
    assert (D7 : derives unused 7 ([3] ++ [1] ++ [2])) by (eapply (d_sym unused 7 17); [reflexivity|cbn; auto|reflexivity|exact D16]).
    assert (D14 : derives unused 14 ([3] ++ [1] ++ [2])) by (eapply d_non; [reflexivity|exact D7]).
    assert (D0 : derives unused 0 []) by (apply d_zero; reflexivity).
    intros n L K. unfold size in L. cbn in L.
    do 19 (destruct n as [|n]; [eexists; first [eassumption|apply T; reflexivity|eapply d_cons; [reflexivity|apply T; reflexivity|eassumption]|eapply d_evolve; [reflexivity|first [eassumption|apply T; reflexivity]]]|]). lia.
  - split; [|split].
    + intros n l r x I K H1 H2. exfalso. destruct K as [K|K]; nodes n; injection K as <- <-; walk_heads.
    + intros n l r x I K D H1 H2. exfalso. nodes n; injection K as <- <-; walk_heads.
    + intros n b ops x K. nodes n.
  - split; [vm_compute; reflexivity|]. split; [vm_compute; reflexivity|]. split; [reflexivity|]. split; [vm_compute; reflexivity|].
    intros (w & O & E). destruct (unused_occurs 6 w O) as (_ & ->). discriminate.
Qed.
Print Assumptions C116_unused_refuted.
