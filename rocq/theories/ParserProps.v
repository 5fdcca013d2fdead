(** The generated parsers: properties C47 to C49, C56 and C68 to C71. *)
From Coq Require Import List Bool PeanoNat Lia.
From Verif Require Import Base GrammarModel GrammarSpec GrammarProofs FirstProofs ParserModel ParserSpec ParserProofs ParserKeepProofs CheckerModel CompleteSpec CompleteProofs CheckerProofs.
Import ListNotations.

(** ** Conditions made computable, for the cases below *)
Definition is_oper (g : grammar) (n : id) : bool := match kind g n with NOper _ _ _ => true | _ => false end.
Definition operands_of (k : node) : list id :=
  match k with
  | NPlus i _ _ | NStar i _ _ | NAct (Some i) | NAnn i | NCond i | NTry i None | NOper i _ _ => [i]
  | NAlt l r | NCons l r | NTry l (Some r) => [l; r]
  | _ => []
  end.
Definition top_b (g : grammar) : bool :=
  forallb (fun n => forallb (fun m => negb (is_oper g m)) (operands_of (kind g n)) &&
    match kind g n with
    | NInl s => forallb (fun e => match kind g e with NEvolve i s' => negb (Nat.eqb s' s) || negb (is_oper g i) | _ => true end) (grules g)
    | NOper _ _ _ => existsb (fun e => match kind g e with NEvolve i _ => Nat.eqb i n | _ => false end) (grules g)
    | _ => true
    end) (seq 0 (size g)).
Lemma top_ok g : top_b g = true -> operators_on_top g.
Proof.
  unfold top_b. rewrite forallb_forall. intros H.
  assert (AT : forall n, kind g n <> NOther -> In n (seq 0 (size g))) by (intros n K; apply in_seq; pose proof (kind_lt g n K); lia).
  split; [|split].
  - intros n m b ops x C K.
    assert (D : (exists s, kind g n = NEvolve m s) \/ In m (operands_of (kind g n))).
    { unfold child in C. destruct (kind g n) as [| | |s|s|i c a|i c a|[i|]|l r|l r|i s|tt [c|]|i|i|bb oo xx|]; cbn; try (destruct C; fail); try (subst m; eauto); destruct C; auto. }
    destruct D as [D|D]; [exact D|]. exfalso. destruct (kind g n) eqn:KN; try (destruct D; fail);
      (specialize (H n (AT n ltac:(congruence))); rewrite KN in H; apply andb_true_iff in H; destruct H as [H _]; rewrite forallb_forall in H; specialize (H m D);
       unfold is_oper in H; rewrite K in H; discriminate).
  - intros n s e i b ops x KN He Ke K. specialize (H n (AT n ltac:(congruence))). rewrite KN in H. apply andb_true_iff in H. destruct H as [_ H].
    rewrite forallb_forall in H. specialize (H e He). rewrite Ke, Nat.eqb_refl in H. unfold is_oper in H. rewrite K in H. discriminate.
  - intros n b ops x K. specialize (H n (AT n ltac:(congruence))). rewrite K in H. apply andb_true_iff in H. destruct H as [_ H].
    apply existsb_exists in H. destruct H as (e & He & E). destruct (kind g e) as [| | |?|?|? ? ?|? ? ?|?|? ?|? ?|i s|? ?|?|?|? ? ?|] eqn:Ke; try discriminate.
    apply Nat.eqb_eq in E. subst i. eauto.
Qed.
Definition no_code (g : grammar) : bool := forallb (fun k => match k with NAct None => false | _ => true end) (gnodes g).
Lemma no_code_company g : no_code g = true -> code_has_company g.
Proof.
  intros H. assert (N : forall n, ~ bare g n).
  { intros n B. induction B as [n K|n i K B IH|n l r K B1 IH1 B2 IH2|n i c a K B IH|n i K B IH|n i K B IH|n t K B IH]; auto.
    unfold no_code in H. rewrite forallb_forall in H. unfold kind in K.
    destruct (Nat.lt_ge_cases n (length (gnodes g))) as [L|L]; [|rewrite nth_overflow in K by exact L; discriminate].
    specialize (H _ (nth_In (gnodes g) NOther L)). rewrite K in H. discriminate. }
  split; intros; [apply N|split; apply N].
Qed.
(** Taking derivations apart. *)
Lemma term_inv g n w : kind g n = NTerm -> derives g n w -> w = [n].
Proof. intros K D. inversion D; subst; try congruence. Qed.
Lemma sym_inv g s w : kind g s = NSym -> derives g s w -> exists e i, In e (grules g) /\ kind g e = NEvolve i s /\ derives g i w.
Proof. intros K D. inversion D; subst; try congruence. eauto. Qed.
Lemma cons_inv g n l r w : kind g n = NCons l r -> derives g n w -> exists u v, w = u ++ v /\ derives g l u /\ derives g r v.
Proof. intros K D. inversion D; subst; try congruence. match goal with H : kind g n = NCons _ _ |- _ => rewrite K in H; injection H as <- <- end. eauto. Qed.
Lemma inl_inv g n s w : kind g n = NInl s -> derives g n w -> derives g s w.
Proof. intros K D. inversion D; subst; congruence. Qed.
(** What one run with enough fuel says about all of them. *)
Lemma never g first follow tok cond s N st : parse g first follow tok cond N s = Fail st -> forall f st', parse g first follow tok cond f s <> Done st'.
Proof.
  unfold parse. intros E f st' D. assert (X : forall m, run g first follow tok cond (Nat.max N f) s false (Rules (env g s)) (start_state tok) = m -> m = Fail st /\ m = Done st').
  { intros m <-. split; [apply (run_more g first follow tok cond N _ (Nat.le_max_l N f) _ _ _ _ _ E)|apply (run_more g first follow tok cond f _ (Nat.le_max_r N f) _ _ _ _ _ D)]; discriminate. }
  destruct (X _ eq_refl) as [A B]. rewrite A in B. discriminate.
Qed.

(** ** A grammar that meets all conditions
    [(e SEMI)* -> start], [ID | NUM+ -> primary], and [e] an operator expression
    over [primary] with prefix BANG, binary PLUS and parentheses. *)
Definition psample : grammar := {|
  gnodes := [NZero; NTerm; NTerm; NTerm; NTerm; NTerm; NTerm; NTerm; NSym; NSym; NSym;
             NNon 9; NCons 11 3; NStar 12 21 22; NEvolve 13 8;
             NNon 10; NOper 15 [OPre 7; OBin 4; OParen 5 6] 25; NEvolve 16 9;
             NPlus 2 23 24; NAlt 1 18; NEvolve 19 10;
             NCons 12 22; NAlt 0 21; NCons 2 24; NAlt 0 23;
             NAlt 26 27; NCons 7 25; NAlt 28 30; NCons 25 29; NCons 4 25; NAlt 31 15; NCons 5 32; NCons 25 6; NTerm];
  gregular := 21; grules := [14; 17; 20]; gzero := 0; gterms := [1; 2; 3; 4; 5; 6; 7]; gstart := [8]; geof := 33 |}.
Definition sets_with (a b : nat) (g : grammar) : option (table * table) :=
  match compute_first g a b with
  | Some t => match compute_follow g a b t with Some o => Some (t, o) | None => None end
  | None => None
  end.
Definition sets (g : grammar) : option (table * table) := sets_with 300 1500 g.
Definition always (k : nat) : bool := true.
(** What the tool and its parser make of a grammar. *)
Definition silent (g : grammar) : bool :=
  match sets g with Some (t, o) => no_error g t && no_conflict g t o | None => false end.
Definition carefully (g : grammar) : bool := match sets g with Some (t, o) => careful g t o | None => false end.
Definition parse_with (n : nat) (g : grammar) (s : id) (w : list id) : option outcome :=
  match sets g with Some (t, o) => Some (parse g t o (stream g w) always n s) | None => None end.
Definition try_parse (g : grammar) (s : id) (w : list id) : option outcome := parse_with 300 g s w.
Example psample_sets : well_formed psample = true /\ silent psample = true /\ carefully psample = true.
Proof. split; [vm_compute; reflexivity|]. split; vm_compute; reflexivity. Qed.
Example psample_conditions : operators_on_top psample /\ operators_alone psample /\ no_recovery psample /\ inlined_can_be_empty psample /\ end_not_written psample /\ code_has_company psample.
Proof.
  assert (KL : forall n, 34 <= n -> kind psample n = NOther) by (intros n L; unfold kind; apply nth_overflow; exact L).
  split; [apply top_ok; vm_compute; reflexivity|]. split; [|split; [|split; [|split]]].
  - intros e i s b ops x w He Ke Ki D. cbn in He. destruct He as [<- | [<- | [<- | []]]]; cbn in Ke; injection Ke as <- <-; try discriminate.
    inversion D; subst; try discriminate. destruct H0 as [<- | [<- | [<- | []]]]; cbn in H1; try discriminate. injection H1 as <-. assumption.
  - intros n t K. destruct (Nat.lt_ge_cases n 34) as [L|L]; [do 34 (destruct n as [|n]; [discriminate|]); lia|rewrite (KL n L) in K; discriminate].
  - intros n s0 K. exfalso. destruct (Nat.lt_ge_cases n 34) as [L|L]; [do 34 (destruct n as [|n]; [discriminate|]); lia|rewrite (KL n L) in K; discriminate].
  - unfold end_not_written. cbn. intuition discriminate.
  - apply no_code_company. vm_compute. reflexivity.
Qed.
(** [! ( ID + NUM NUM ) ;] *)
Definition psentence : list id := [7; 5; 1; 4; 2; 2; 6; 3].
Example psample_derives : derives psample 8 psentence.
Proof.
  assert (T : forall n, kind psample n = NTerm -> derives psample n [n]) by (intros; apply d_term; assumption).
  assert (P : forall w, derives psample 19 w -> derives psample 16 w).
  { intros w D. eapply d_base; [reflexivity|]. eapply d_non; [reflexivity|]. eapply (d_sym psample 10 20); [reflexivity|cbn; auto|reflexivity|exact D]. }
  assert (D1 : derives psample 16 [1]) by (apply P; eapply d_altl; [reflexivity|apply T; reflexivity]).
  assert (D2 : derives psample 16 [2; 2]).
  { apply P. eapply d_altr; [reflexivity|]. change [2; 2] with ([2] ++ [2]). eapply d_plus; [reflexivity|apply T; reflexivity|]. eapply d_plus1; [reflexivity|apply T; reflexivity]. }
  assert (D3 : derives psample 16 [1; 4; 2; 2]) by (exact (d_bin psample 16 15 _ 25 4 [1] [2; 2] eq_refl ltac:(cbn; auto) D1 D2)).
  assert (D4 : derives psample 16 [7; 5; 1; 4; 2; 2; 6]).
  { apply (d_pre psample 16 15 [OPre 7; OBin 4; OParen 5 6] 25 7 [5; 1; 4; 2; 2; 6] eq_refl ltac:(cbn; auto)).
    exact (d_paren psample 16 15 _ 25 5 6 [1; 4; 2; 2] eq_refl ltac:(cbn; auto) D3). }
  eapply (d_sym psample 8 14); [reflexivity|cbn; auto|reflexivity|]. change psentence with (([7; 5; 1; 4; 2; 2; 6] ++ [3]) ++ []).
  eapply d_star; [reflexivity| |eapply d_star0; reflexivity]. eapply d_cons; [reflexivity| |apply T; reflexivity].
  eapply d_non; [reflexivity|]. eapply (d_sym psample 9 17); [reflexivity|cbn; auto|reflexivity|exact D4].
Qed.

(** ** C47: only sentences are accepted
    Full statement: without [inlined_can_be_empty]; false then (below).
    [operators_on_top] holds of everything the syntax allows and
    [operators_alone] says that a parenthesised operand is read as the whole
    symbol.  try/recover passes over errors on purpose. *)
Theorem C47_parser_sound_partial : forall g first follow tok cond fuel s st,
  well_formed g = true -> operators_on_top g -> operators_alone g -> no_recovery g -> inlined_can_be_empty g -> kind g s = NSym ->
  parse g first follow tok cond fuel s = Done st ->
  derives g s (slice tok 0 (pidx st - 1)) /\ ptok st = tok (pidx st - 1) /\ (In s (gstart g) -> ptok st = geof g).
Proof.
  intros g first follow tok cond fuel s st WF TOP AL NR IN K E. unfold parse in E.
  assert (G0 : good tok (start_state tok)) by (split; [cbn; lia|reflexivity]).
  destruct (run_sound g first follow tok cond WF TOP AL NR IN fuel s false _ _ _ E G0) as ([G1 G2] & L & C). split; [|split; [exact G2|]].
  - specialize (C K (env_rules g s)). unfold span in C. exact C.
  - intros I. apply (ends_at_end g first follow tok cond fuel s false (env g s) (start_state tok) st E); [intros e He; apply (env_rules g s e He)|apply mem_in; exact I].
Qed.
Print Assumptions C47_parser_sound_partial.
(** On a finite input, the whole of it is a sentence. *)
Theorem C47_whole_input_partial : forall g first follow w cond fuel s st,
  well_formed g = true -> operators_on_top g -> operators_alone g -> no_recovery g -> inlined_can_be_empty g -> end_not_written g ->
  kind g s = NSym -> In s (gstart g) -> ~ In (geof g) w ->
  parse g first follow (stream g w) cond fuel s = Done st -> derives g s w /\ pidx st = S (length w).
Proof.
  intros g first follow w cond fuel s st WF TOP AL NR IN EN K I NW E.
  destruct (C47_parser_sound_partial g first follow (stream g w) cond fuel s st WF TOP AL NR IN K E) as (D & T & F). specialize (F I). rewrite F in T.
  assert (G0 : good (stream g w) (start_state (stream g w))) by (split; [cbn; lia|reflexivity]).
  pose proof (run_moves g first follow (stream g w) cond fuel s false (Rules (env g s)) _ G0) as M. unfold parse in E. rewrite E in M. destruct M as [[M1 _] _].
  assert (L1 : length w <= pidx st - 1).
  { destruct (Nat.lt_ge_cases (pidx st - 1) (length w)) as [L|L]; [|exact L]. exfalso. apply NW. rewrite T. unfold stream. apply nth_In. exact L. }
  assert (L2 : pidx st - 1 <= length w).
  { destruct (Nat.lt_ge_cases (length w) (pidx st - 1)) as [L|L]; [|exact L]. exfalso. apply EN.
    apply (words_declared g WF s _ D); [exact (sym_inside g WF s K)|]. unfold slice. apply in_map_iff. exists (length w). split; [unfold stream; apply nth_overflow; lia|apply in_seq; lia]. }
  assert (EQ : pidx st - 1 = length w) by lia. split; [|lia]. rewrite EQ in D.
  replace w with (slice (stream g w) 0 (length w)); [exact D|]. unfold slice, stream. clear. apply (nth_ext _ _ (geof g) (geof g)); [rewrite map_length, seq_length; reflexivity|].
  rewrite map_length, seq_length. intros n L. rewrite (nth_indep _ (geof g) (nth 0 w (geof g))) by (rewrite map_length, seq_length; exact L).
  rewrite (map_nth (fun i => nth i w (geof g)) (seq 0 (length w)) 0 n). rewrite seq_nth by exact L. reflexivity.
Qed.
Print Assumptions C47_whole_input_partial.
Example C47_case : try_parse psample 8 psentence = Some (Done (PS 9 33 false 4 0)) /\ In 8 (gstart psample) /\ ~ In (geof psample) psentence.
Proof. split; [vm_compute; reflexivity|]. split; [cbn; auto|cbn; intuition discriminate]. Qed.
(** Runs on the words of grammars without warnings, by computation. *)
Definition verdict_with (n : nat) (g : grammar) (s : id) (w : list id) : option bool :=
  if silent g then match parse_with n g s w with Some (Done _) => Some true | Some (Fail _) => Some false | _ => None end else None.
Definition verdict := verdict_with 300.
Lemma verdict_with_ok n g s w b : verdict_with n g s w = Some b -> exists t o, sets g = Some (t, o) /\ no_error g t = true /\ no_conflict g t o = true /\
  if b then exists f st, parse g t o (stream g w) always f s = Done st else forall f st, parse g t o (stream g w) always f s <> Done st.
Proof.
  unfold verdict_with, silent, parse_with. destruct (sets g) as [[t o]|]; [|discriminate]. intros V. exists t, o. split; [reflexivity|].
  destruct (no_error g t); [|discriminate]. destruct (no_conflict g t o); [|discriminate]. cbn [andb] in V. split; [reflexivity|]. split; [reflexivity|].
  destruct (parse g t o (stream g w) always n s) as [st|st| |] eqn:P; try discriminate; injection V as <-; [exists n, st; exact P|].
  exact (never g t o (stream g w) always s n st P).
Qed.
Lemma verdict_ok g s w b : verdict g s w = Some b -> exists t o, sets g = Some (t, o) /\ no_error g t = true /\ no_conflict g t o = true /\
  if b then exists f st, parse g t o (stream g w) always f s = Done st else forall f st, parse g t o (stream g w) always f s <> Done st.
Proof. exact (verdict_with_ok 300 g s w b). Qed.
Lemma sets_with_first a b g t o : sets_with a b g = Some (t, o) -> compute_first g a b = Some t /\ compute_follow g a b t = Some o.
Proof.
  unfold sets_with. destruct (compute_first g a b) as [t'|]; [|discriminate]. destruct (compute_follow g a b t') as [o'|] eqn:E; [|discriminate].
  intros H. injection H as <- <-. auto.
Qed.
Lemma sets_first g t o : sets g = Some (t, o) -> compute_first g 300 1500 = Some t /\ compute_follow g 300 1500 t = Some o.
Proof. exact (sets_with_first 300 1500 g t o). Qed.
(** [C #s C -> start ;; A -> s] with [s] inlined: [C C] is accepted. *)
Definition inlined : grammar := {|
  gnodes := [NZero; NTerm; NTerm; NSym; NSym; NEvolve 1 3; NInl 3; NCons 6 2; NCons 2 7; NEvolve 8 4; NTerm];
  gregular := 10; grules := [5; 9]; gzero := 0; gterms := [1; 2]; gstart := [4]; geof := 10 |}.
Lemma inlined_not : ~ derives inlined 4 [2; 2].
Proof.
  intros D. destruct (sym_inv inlined 4 _ eq_refl D) as (e & i & He & Ke & D1). destruct He as [<- | [<- | []]]; cbn in Ke; try discriminate. injection Ke as <-.
  destruct (cons_inv inlined 8 2 7 _ eq_refl D1) as (u & v & E & D2 & D3). rewrite (term_inv inlined 2 _ eq_refl D2) in E. injection E as E. subst v.
  destruct (cons_inv inlined 7 6 2 _ eq_refl D3) as (u' & v & E & D4 & D5). rewrite (term_inv inlined 2 _ eq_refl D5) in E. destruct u' as [|y [|z u']]; try discriminate.
  apply (inl_inv inlined 6 3 _ eq_refl) in D4. destruct (sym_inv inlined 3 _ eq_refl D4) as (e & i & He & Ke & D6). destruct He as [<- | [<- | []]]; cbn in Ke; try discriminate. injection Ke as <-.
  pose proof (term_inv inlined 1 [] eq_refl D6). discriminate.
Qed.
Theorem C47_inline_refuted : exists g w s t o f st, well_formed g = true /\ operators_on_top g /\ operators_alone g /\ no_recovery g /\ end_not_written g /\
  compute_first g 300 1500 = Some t /\ compute_follow g 300 1500 t = Some o /\ no_error g t = true /\ no_conflict g t o = true /\
  kind g s = NSym /\ In s (gstart g) /\ parse g t o (stream g w) always f s = Done st /\ ~ derives g s w.
Proof.
  assert (KL : forall n, 11 <= n -> kind inlined n = NOther) by (intros n L; unfold kind; apply nth_overflow; exact L).
  destruct (verdict_ok inlined 4 [2; 2] true) as (t & o & S0 & E1 & E2 & f & st & P); [vm_compute; reflexivity|]. apply sets_first in S0. destruct S0 as [S1 S2].
  exists inlined, [2; 2], 4, t, o, f, st.
  split; [vm_compute; reflexivity|]. split; [apply top_ok; vm_compute; reflexivity|]. split.
  { intros e i s b ops x w He Ke Ki D. cbn in He. destruct He as [<- | [<- | []]]; cbn in Ke; injection Ke as <- <-; discriminate. }
  split. { intros n k K. destruct (Nat.lt_ge_cases n 11) as [L|L]; [do 11 (destruct n as [|n]; [discriminate|]); lia|rewrite (KL n L) in K; discriminate]. }
  split; [unfold end_not_written; cbn; intuition discriminate|]. split; [exact S1|]. split; [exact S2|].
  split; [exact E1|]. split; [exact E2|]. split; [reflexivity|]. split; [cbn; auto|]. split; [exact P|].
  exact inlined_not.
Qed.
Print Assumptions C47_inline_refuted.

(** ** C48: every sentence is accepted
    Full statement: without [careful], [code_has_company] and conditions that
    hold; false without [careful] in many ways (below). *)
Theorem C48_parser_complete_partial : forall g rounds fuel first follow w s e i,
  well_formed g = true -> code_has_company g -> operators_on_top g ->
  compute_first g rounds fuel = Some first -> compute_follow g rounds fuel first = Some follow ->
  no_error g first = true -> no_conflict g first follow = true -> careful g first follow = true ->
  In e (grules g) -> kind g e = NEvolve i s -> In s (gstart g) -> derives g s w ->
  forall cond, (forall k, cond k = true) ->
  exists f st, parse g first follow (stream g w) cond f s = Done st /\ pidx st = S (length w) /\ ptok st = geof g.
Proof.
  intros g rounds fuel first follow w s e i WF CO TOP E1 E2 NE NC OK He Ke Is D cond C.
  exact (accepts g first follow WF rounds fuel w s e i CO TOP E1 E2 NE NC OK He Ke Is D cond C).
Qed.
Print Assumptions C48_parser_complete_partial.
(** Both directions: the parser decides exactly the language. *)
Theorem C70_exact_language_partial : forall g rounds fuel first follow w s e i,
  well_formed g = true -> code_has_company g -> operators_on_top g -> operators_alone g -> no_recovery g -> inlined_can_be_empty g -> end_not_written g ->
  compute_first g rounds fuel = Some first -> compute_follow g rounds fuel first = Some follow ->
  no_error g first = true -> no_conflict g first follow = true -> careful g first follow = true ->
  In e (grules g) -> kind g e = NEvolve i s -> In s (gstart g) -> ~ In (geof g) w ->
  forall cond, (forall k, cond k = true) ->
  ((exists f st, parse g first follow (stream g w) cond f s = Done st) <-> derives g s w).
Proof.
  intros g rounds fuel first follow w s e i WF CO TOP AL NR IN EN E1 E2 NE NC OK He Ke Is NW cond C. pose proof (rule_sym g WF e i s Ke) as K. split.
  - intros (f & st & P). apply (C47_whole_input_partial g first follow w cond f s st WF TOP AL NR IN EN K Is NW P).
  - intros D. destruct (accepts g first follow WF rounds fuel w s e i CO TOP E1 E2 NE NC OK He Ke Is D cond C) as (f & st & P & _). eauto.
Qed.
Print Assumptions C70_exact_language_partial.
Lemma sets_known g : silent g = true -> carefully g = true ->
  exists t o, compute_first g 300 1500 = Some t /\ compute_follow g 300 1500 t = Some o /\ no_error g t = true /\ no_conflict g t o = true /\ careful g t o = true.
Proof.
  unfold silent, carefully. intros S1 S2. destruct (sets g) as [[t o]|] eqn:S0; [|discriminate]. destruct (sets_first g t o S0) as [T O]. apply andb_true_iff in S1.
  exists t, o. destruct S1. auto.
Qed.
Example C48_70_case : well_formed psample = true /\ code_has_company psample /\ operators_on_top psample /\ operators_alone psample /\ no_recovery psample /\
  inlined_can_be_empty psample /\ end_not_written psample /\
  (exists t o, compute_first psample 300 1500 = Some t /\ compute_follow psample 300 1500 t = Some o /\ no_error psample t = true /\ no_conflict psample t o = true /\ careful psample t o = true) /\
  In 14 (grules psample) /\ kind psample 14 = NEvolve 13 8 /\ In 8 (gstart psample) /\ derives psample 8 psentence /\ ~ In (geof psample) psentence.
Proof.
  destruct psample_conditions as (A & B & C & D & E & F). destruct psample_sets as (W & S1 & S2).
  split; [exact W|]. split; [exact F|]. split; [exact A|]. split; [exact B|]. split; [exact C|]. split; [exact D|]. split; [exact E|].
  split; [|split; [cbn; auto|]; split; [reflexivity|]; split; [cbn; auto|]; split; [exact psample_derives|cbn; intuition discriminate]].
  exact (sets_known psample S1 S2).
Qed.

(** A sentence of a grammar about which the tool says nothing, and no run
    accepts it. *)
Definition rejected (g : grammar) (s : id) (w : list id) : Prop :=
  well_formed g = true /\ code_has_company g /\ operators_on_top g /\ (exists e i, In e (grules g) /\ kind g e = NEvolve i s) /\ In s (gstart g) /\ derives g s w /\
  exists t o, compute_first g 300 1500 = Some t /\ compute_follow g 300 1500 t = Some o /\ no_error g t = true /\ no_conflict g t o = true /\
  forall f st, parse g t o (stream g w) always f s <> Done st.
Lemma rejected_by g s w e i : (well_formed g && no_code g && top_b g && mem e (grules g) && mem s (gstart g))%bool = true -> kind g e = NEvolve i s -> derives g i w ->
  kind g s = NSym -> verdict g s w = Some false -> rejected g s w.
Proof.
  repeat rewrite andb_true_iff. intros [[[[A B] C] D] E] K DI KS V. apply mem_in in D. apply mem_in in E.
  split; [exact A|]. split; [exact (no_code_company g B)|]. split; [exact (top_ok g C)|]. split; [eauto|]. split; [exact E|].
  split; [exact (d_sym g s e i w KS D K DI)|]. destruct (verdict_ok g s w false V) as (t & o & S0 & N1 & N2 & P). apply sets_first in S0. destruct S0.
  exists t, o. repeat (split; [assumption|]). exact P.
Qed.
(** [A+ A -> start]: the loop takes all. *)
Definition plus_same : grammar := {|
  gnodes := [NZero; NTerm; NSym; NPlus 1 6 7; NCons 3 1; NEvolve 4 2; NCons 1 7; NAlt 0 6; NTerm];
  gregular := 6; grules := [5]; gzero := 0; gterms := [1]; gstart := [2]; geof := 8 |}.
Theorem C48_plus_refuted : rejected plus_same 2 [1; 1].
Proof.
  apply (rejected_by _ _ _ 5 4); try (vm_compute; reflexivity). change [1; 1] with ([1] ++ [1]). eapply d_cons; [reflexivity| |apply d_term; reflexivity].
  eapply d_plus1; [reflexivity|apply d_term; reflexivity].
Qed.
Print Assumptions C48_plus_refuted.
(** [?A A -> start], that is [(A | 0) A]: the conflict is not looked for. *)
Definition optional_same : grammar := {|
  gnodes := [NZero; NTerm; NSym; NAlt 1 0; NCons 3 1; NEvolve 4 2; NTerm];
  gregular := 6; grules := [5]; gzero := 0; gterms := [1]; gstart := [2]; geof := 6 |}.
Theorem C48_optional_refuted : rejected optional_same 2 [1].
Proof.
  apply (rejected_by _ _ _ 5 4); try (vm_compute; reflexivity). change [1] with ([] ++ [1]). eapply d_cons; [reflexivity| |apply d_term; reflexivity].
  eapply d_altr; [reflexivity|apply d_zero; reflexivity].
Qed.
Print Assumptions C48_optional_refuted.
(** [(A* | B) C -> start]: a branch that can be empty is entered on its first
    tokens only. *)
Definition star_branch : grammar := {|
  gnodes := [NZero; NTerm; NTerm; NTerm; NSym; NStar 1 9 10; NAlt 5 2; NCons 6 3; NEvolve 7 4; NCons 1 10; NAlt 0 9; NTerm];
  gregular := 9; grules := [8]; gzero := 0; gterms := [1; 2; 3]; gstart := [4]; geof := 11 |}.
Theorem C48_empty_branch_refuted : rejected star_branch 4 [3].
Proof.
  apply (rejected_by _ _ _ 8 7); try (vm_compute; reflexivity). change [3] with ([] ++ [3]). eapply d_cons; [reflexivity| |apply d_term; reflexivity].
  eapply d_altl; [reflexivity|eapply d_star0; reflexivity].
Qed.
Print Assumptions C48_empty_branch_refuted.
(** [A -> s ;; 0 -> s ;; s B -> start]: the last rule of [s] is tried first, and
    always taken. *)
Definition empty_rule : grammar := {|
  gnodes := [NZero; NTerm; NTerm; NSym; NSym; NEvolve 1 3; NEvolve 0 3; NNon 3; NCons 7 2; NEvolve 8 4; NTerm];
  gregular := 10; grules := [5; 6; 9]; gzero := 0; gterms := [1; 2]; gstart := [4]; geof := 10 |}.
Theorem C48_empty_rule_refuted : rejected empty_rule 4 [1; 2].
Proof.
  apply (rejected_by _ _ _ 9 8); try (vm_compute; reflexivity). change [1; 2] with ([1] ++ [2]). eapply d_cons; [reflexivity| |apply d_term; reflexivity].
  eapply d_non; [reflexivity|]. eapply (d_sym empty_rule 3 5); [reflexivity|cbn; auto|reflexivity|apply d_term; reflexivity].
Qed.
Print Assumptions C48_empty_rule_refuted.
(** An operator expression [e] over [A] with parentheses, as start symbol:
    [( A )] - the operand is read by the function of [e], which wants the end of
    the input after it. *)
Definition start_parens : grammar := {|
  gnodes := [NZero; NTerm; NTerm; NTerm; NSym; NSym; NEvolve 1 5; NNon 5; NOper 7 [OParen 2 3] 10; NEvolve 8 4; NAlt 11 7; NCons 2 12; NCons 10 3; NTerm];
  gregular := 10; grules := [6; 9]; gzero := 0; gterms := [1; 2; 3]; gstart := [4]; geof := 13 |}.
Theorem C48_parenthesis_refuted : rejected start_parens 4 [2; 1; 3].
Proof.
  apply (rejected_by _ _ _ 9 8); try (vm_compute; reflexivity). change [2; 1; 3] with (2 :: [1] ++ [3]). eapply d_paren; [reflexivity|cbn; auto|].
  eapply d_base; [reflexivity|]. eapply d_non; [reflexivity|]. eapply (d_sym start_parens 5 6); [reflexivity|cbn; auto|reflexivity|apply d_term; reflexivity].
Qed.
Print Assumptions C48_parenthesis_refuted.
(** [try/rollback (A) catch (A B) -> start]: once the first part is read, the
    other is not tried any more. *)
Definition rollback : grammar := {|
  gnodes := [NZero; NTerm; NTerm; NSym; NCons 1 2; NTry 1 (Some 4); NEvolve 5 3; NTerm];
  gregular := 7; grules := [6]; gzero := 0; gterms := [1; 2]; gstart := [3]; geof := 7 |}.
Theorem C48_rollback_refuted : rejected rollback 3 [1; 2].
Proof.
  apply (rejected_by _ _ _ 6 5); try (vm_compute; reflexivity). eapply d_catch; [reflexivity|]. change [1; 2] with ([1] ++ [2]).
  eapply d_cons; [reflexivity| |]; apply d_term; reflexivity.
Qed.
Print Assumptions C48_rollback_refuted.
(** [0* -> start] loops for ever on every input. *)
Definition empty_loop : grammar := {|
  gnodes := [NZero; NTerm; NSym; NStar 0 5 6; NEvolve 3 2; NCons 0 6; NAlt 0 5; NTerm];
  gregular := 5; grules := [4]; gzero := 0; gterms := [1]; gstart := [2]; geof := 7 |}.
Definition opens (g : grammar) (a b : id) : bool :=
  match sets g with Some (t, o) => no_error g t && no_conflict g t o && trivial g (t a) && trivial g (t b) | None => false end.
Lemma sets_open g a b : opens g a b = true -> exists t o, compute_first g 300 1500 = Some t /\ compute_follow g 300 1500 t = Some o /\
  no_error g t = true /\ no_conflict g t o = true /\ trivial g (t a) = true /\ trivial g (t b) = true.
Proof.
  unfold opens. intros X. destruct (sets g) as [[t o]|] eqn:S0; [|discriminate]. destruct (sets_first g t o S0) as [S1 S2]. repeat rewrite andb_true_iff in X.
  destruct X as [[[X1 X2] X3] X4]. exists t, o. auto 10.
Qed.
Theorem C48_endless_refuted : well_formed empty_loop = true /\ derives empty_loop 2 [] /\
  exists t o, compute_first empty_loop 300 1500 = Some t /\ compute_follow empty_loop 300 1500 t = Some o /\ no_error empty_loop t = true /\ no_conflict empty_loop t o = true /\
  forall tok cond f, parse empty_loop t o tok cond f 2 = Out.
Proof.
  split; [vm_compute; reflexivity|]. split; [eapply (d_sym empty_loop 2 4); [reflexivity|cbn; auto|reflexivity|eapply d_star0; reflexivity]|].
  destruct (sets_open empty_loop 3 4) as (t & o & S1 & S2 & X1 & X2 & X3 & X4); [vm_compute; reflexivity|].
  exists t, o. repeat (split; [assumption|]). clear S1 S2 X1 X2. intros tok cond f.
  assert (T3 : forall y, test empty_loop t 3 y = true) by (intros y; unfold test, test_set; rewrite X3; reflexivity).
  assert (T4 : forall y, test empty_loop t 4 y = true) by (intros y; unfold test, test_set; rewrite X4; reflexivity).
  assert (L : forall f cc st, run empty_loop t o tok cond f 2 cc (Item 3) st = Out).
  { clear f. induction f as [|f IH]; intros cc st; [reflexivity|]. cbn [run]. change (kind empty_loop 3) with (NStar 0 5 6). cbv iota. rewrite T3.
    destruct f as [|f]; [reflexivity|]. change (run empty_loop t o tok cond (S f) 2 cc (Item 0) st) with (Done st). cbn [next_do]. apply IH. }
  unfold parse. destruct f as [|f]; [reflexivity|]. change (env empty_loop 2) with [4]. cbn [run]. change (kind empty_loop 4) with (NEvolve 3 2). cbv iota.
  unfold rule_test. rewrite T4. cbn [orb]. unfold guarded. change (is_cond empty_loop 3) with false. cbv iota. rewrite L. reflexivity.
Qed.
Print Assumptions C48_endless_refuted.

(** ** C49: what try/rollback restores
    [good]: the token in hand is the one before the position of the stream, as
    at the beginning and after everything the parser does (second part). *)
Theorem C49_rollback : forall g first follow tok cond f cur caught n t c st st1, kind g n = NTry t (Some c) -> good tok st ->
  run g first follow tok cond f cur true (Item t) (block true st) = Fail st1 ->
  exists st2, run g first follow tok cond (S f) cur caught (Item n) st = run g first follow tok cond f cur caught (Item c) st2 /\
    pidx st2 = pidx st /\ ptok st2 = ptok st /\ pblock st2 = pblock st.
Proof.
  intros g first follow tok cond f cur caught n t c st st1 K [G1 G2] E. exists (rewind tok (pidx st - 1) (block (pblock st) st1)).
  cbn [run]. rewrite K, E. split; [reflexivity|]. unfold rewind, yylex. cbn [pidx ptok pblock block]. split; [lia|]. split; [symmetry; exact G2|reflexivity].
Qed.
Print Assumptions C49_rollback.
Theorem C49_states : forall g first follow tok cond f cur caught j st, good tok (start_state tok) /\
  (good tok st -> match run g first follow tok cond f cur caught j st with Done st' | Fail st' => good tok st' /\ pidx st <= pidx st' | _ => True end) /\
  ((forall n b ops, j = Operand n b ops \/ j = Operator n b ops -> exists b ops x, kind g n = NOper b ops x) ->
   match run g first follow tok cond f cur caught j st with Done st' | Fail st' => pblock st' = pblock st | _ => True end).
Proof.
  intros g first follow tok cond f cur caught j st. split; [split; [cbn; lia|reflexivity]|]. split.
  - intros G. exact (run_moves g first follow tok cond f cur caught j st G).
  - intros L. pose proof (run_keeps g first follow tok cond f cur caught j st L) as H. destruct (run g first follow tok cond f cur caught j st); auto; apply H.
Qed.
Print Assumptions C49_states.
(** [try/rollback (A A) catch (A B) -> start] on [A B]. *)
Definition rollback2 : grammar := {|
  gnodes := [NZero; NTerm; NTerm; NSym; NCons 1 1; NCons 1 2; NTry 4 (Some 5); NEvolve 6 3; NTerm];
  gregular := 8; grules := [7]; gzero := 0; gterms := [1; 2]; gstart := [3]; geof := 8 |}.
Example C49_case : well_formed rollback2 = true /\ kind rollback2 6 = NTry 4 (Some 5) /\
  (forall t o, run rollback2 t o (stream rollback2 [1; 2]) always 9 3 true (Item 4) (block true (start_state (stream rollback2 [1; 2]))) = Fail (PS 2 2 true 0 0)) /\
  try_parse rollback2 3 [1; 2] = Some (Done (PS 3 8 false 0 0)).
Proof. split; [vm_compute; reflexivity|]. split; [reflexivity|]. split; [reflexivity|vm_compute; reflexivity]. Qed.

(** ** C56: alternatives are tried in the written order *)
Lemma operands_flatten g n l : operands g n l -> forall f work ns, flatten g f work = Some ns -> exists f', flatten g f' (n :: work) = Some (l ++ ns).
Proof.
  induction 1 as [n K|n l r a b K _ IHa _ IHb]; intros f work ns E.
  - exists (S f). cbn [flatten]. rewrite E. destruct (kind g n) as [| | |s|s|i c a|i c a|ii|l r|l r|i s|tt c|i|i|bb oo xx|] eqn:KN; try reflexivity. destruct (K l r eq_refl).
  - destruct (IHb f work ns E) as (f1 & E1). destruct (IHa f1 _ _ E1) as (f2 & E2). exists (S f2). cbn [flatten]. rewrite K, E2, app_assoc. reflexivity.
Qed.
Lemma operands_exist g : well_formed g = true -> forall k n, n < k -> inside g n = true -> exists l, operands g n l.
Proof.
  intros WF. induction k as [|k IH]; intros n L I; [lia|].
  destruct (kind g n) as [| | |s|s|i c a|i c a|ii|l r|l r|i s|tt c|i|i|bb oo xx|] eqn:K; try (exists [n]; apply op_one; congruence).
  assert (SH : shape g n = true) by (apply (shaped g WF); rewrite K; discriminate). unfold shape in SH. rewrite I, K in SH. apply andb_true_iff in SH. destruct SH as [A B].
  destruct (IH l) as (a & Ha); [apply below_lt in A; lia|eapply below_inside; eassumption|].
  destruct (IH r) as (b & Hb); [apply below_lt in B; lia|eapply below_inside; eassumption|]. exists (a ++ b). eapply op_alt; eassumption.
Qed.
Theorem C56_alternatives_in_order : forall g n l r, well_formed g = true -> inside g n = true -> kind g n = NAlt l r ->
  exists ns, operands g n ns /\ (exists f, flatten g f [l; r] = Some ns) /\ forall f ns', flatten g f [l; r] = Some ns' -> ns' = ns.
Proof.
  intros g n l r WF I K. assert (SH : shape g n = true) by (apply (shaped g WF); rewrite K; discriminate). unfold shape in SH. rewrite I, K in SH.
  apply andb_true_iff in SH. destruct SH as [A B].
  destruct (operands_exist g WF (S l) l) as (a & Ha); [lia|eapply below_inside; eassumption|].
  destruct (operands_exist g WF (S r) r) as (b & Hb); [lia|eapply below_inside; eassumption|].
  exists (a ++ b). split; [eapply op_alt; eassumption|].
  destruct (operands_flatten g r b Hb 1 [] [] eq_refl) as (f1 & E1). rewrite app_nil_r in E1. destruct (operands_flatten g l a Ha f1 [r] b E1) as (f2 & E2).
  split; [eauto|]. intros f ns' E. pose proof (flatten_more g f2 [l; r] _ E2 (Nat.max f f2) (Nat.le_max_r _ _)) as X.
  rewrite (flatten_more g f [l; r] _ E (Nat.max f f2) (Nat.le_max_l _ _)) in X. congruence.
Qed.
Print Assumptions C56_alternatives_in_order.
(** The first operand whose test and condition hold is taken, and no other. *)
Theorem C56_first_match : forall g first follow tok cond ns f cur caught st o, run g first follow tok cond f cur caught (Branches ns) st = o -> o <> Out ->
  (exists before n after st1 f', ns = before ++ n :: after /\ o = run g first follow tok cond f' cur caught (Item n) st1 /\ test g first n (ptok st) = true /\
     pidx st1 = pidx st /\ ptok st1 = ptok st /\ pblock st1 = pblock st /\ forall m, In m before -> test g first m (ptok st) = true -> is_cond g m = true) \/
  (exists st1, o = Fail st1 /\ pidx st1 = pidx st /\ ptok st1 = ptok st /\ forall m, In m ns -> test g first m (ptok st) = true -> is_cond g m = true).
Proof.
  intros g first follow tok cond ns. induction ns as [|n ns IH]; intros f cur caught st o E N; (destruct f as [|f]; [cbn in E; congruence|]); cbn [run] in E.
  - right. exists st. split; [congruence|]. split; [reflexivity|]. split; [reflexivity|intros m []].
  - destruct (guarded g cond (test g first n (ptok st)) n st) as [go st1] eqn:GE. destruct (guarded_same g cond _ _ _ _ _ GE) as [S1 T1]. pose proof S1 as (A & B & C). destruct go.
    + left. exists [], n, ns, st1, f. split; [reflexivity|]. split; [congruence|]. split; [auto|]. split; [congruence|]. split; [congruence|]. split; [congruence|]. intros m [].
    + assert (NC : test g first n (ptok st) = true -> is_cond g n = true).
      { intros T. unfold guarded in GE. rewrite T in GE. destruct (is_cond g n); [reflexivity|discriminate]. }
      rewrite B in NC.
      destruct (IH f cur caught st1 o E N) as [(before & m & after & st2 & f' & EN & EO & TM & D1 & D2 & D3 & BE)|(st2 & EO & D1 & D2 & BE)].
      * left. exists (n :: before), m, after, st2, f'. rewrite EN. split; [reflexivity|]. split; [exact EO|]. rewrite B. split; [exact TM|]. split; [congruence|]. split; [congruence|]. split; [congruence|].
        intros k [<- | Ik]; [exact NC|exact (BE k Ik)].
      * right. exists st2. split; [exact EO|]. split; [congruence|]. split; [congruence|]. rewrite B. intros k [<- | Ik]; [exact NC|exact (BE k Ik)].
Qed.
Print Assumptions C56_first_match.
(** [(A | B) | ((C | D) | 0)] *)
Definition nested : grammar := {|
  gnodes := [NZero; NTerm; NTerm; NTerm; NTerm; NSym; NAlt 1 2; NAlt 3 4; NAlt 7 0; NAlt 6 8; NEvolve 9 5; NTerm];
  gregular := 11; grules := [10]; gzero := 0; gterms := [1; 2; 3; 4]; gstart := [5]; geof := 11 |}.
Example C56_case : well_formed nested = true /\ inside nested 9 = true /\ kind nested 9 = NAlt 6 8 /\ flatten nested 20 [6; 8] = Some [1; 2; 3; 4; 0].
Proof. split; [vm_compute; reflexivity|]. split; [reflexivity|]. split; reflexivity. Qed.

(** ** C68: where try/recover goes on *)
Theorem C68_recovery : forall g first follow tok cond f cur caught n t st st1, kind g n = NTry t None -> good tok st ->
  run g first follow tok cond f cur true (Item t) st = Fail st1 ->
  let from := if Nat.eqb (pidx st1) (pidx st) && negb (Nat.eqb (ptok st1) (geof g)) then S (pidx st1) else pidx st1 in
  (forall st', run g first follow tok cond (S f) cur caught (Item n) st = Done st' ->
     pidx st <= pidx st' /\ from <= pidx st' /\ ptok st' = tok (pidx st' - 1) /\
     (ptok st' = geof g \/ (kind g (ptok st') = NTerm /\ follow n (ptok st') = true)) /\
     (forall k, from - 1 <= k -> k < pidx st' - 1 -> tok k <> geof g /\ ~ (kind g (tok k) = NTerm /\ follow n (tok k) = true))) /\
  (forall st', run g first follow tok cond (S f) cur caught (Item n) st <> Fail st').
Proof.
  intros g first follow tok cond f cur caught n t st st1 K G E from.
  pose proof (run_moves g first follow tok cond f cur true (Item t) st G) as M. rewrite E in M. destruct M as [G1 L1].
  pose proof (proj1 G) as G0. pose proof (proj1 G1) as G10.
  set (st2 := if Nat.eqb (pidx st - 1) (pidx st1 - 1) && negb (Nat.eqb (ptok st1) (geof g)) then yylex tok st1 else st1).
  assert (R : run g first follow tok cond (S f) cur caught (Item n) st = skip g follow tok f n st2) by (cbn [run]; rewrite K, E; reflexivity).
  assert (I2 : pidx st2 = from /\ good tok st2).
  { unfold st2, from. replace (Nat.eqb (pidx st - 1) (pidx st1 - 1)) with (Nat.eqb (pidx st1) (pidx st)).
    - destruct (Nat.eqb (pidx st1) (pidx st) && negb (Nat.eqb (ptok st1) (geof g)))%bool; [split; [reflexivity|apply yylex_good]|split; [reflexivity|exact G1]].
    - destruct (Nat.eqb_spec (pidx st1) (pidx st)), (Nat.eqb_spec (pidx st - 1) (pidx st1 - 1)); try reflexivity; lia. }
  destruct I2 as [I2 G2]. rewrite R. split.
  - intros st' D. destruct (skip_spec g follow tok f n st2 st' D G2) as ([A1 A2] & B & C & F). rewrite <- I2.
    split; [assert (pidx st <= pidx st2); [|lia]; rewrite I2; unfold from; destruct (Nat.eqb (pidx st1) (pidx st) && negb (Nat.eqb (ptok st1) (geof g)))%bool; lia|].
    split; [exact B|]. split; [exact A2|]. split.
    + destruct C as [C|[C1 C2]]; [left; exact C|right]. unfold is_term in C1. destruct (kind g (ptok st')); try discriminate. auto.
    + intros k K1 K2. destruct (F k K1 K2) as [F1 F2]. split; [exact F1|]. intros [H1 H2]. apply F2. unfold is_term. rewrite H1. auto.
  - intros st' D. exact (skip_not_fail g follow tok f n st2 st' D).
Qed.
Print Assumptions C68_recovery.
Theorem C68_recovery_ends : forall g first follow (w : list id) cond f cur caught n t st st1, kind g n = NTry t None ->
  run g first follow (stream g w) cond f cur true (Item t) st = Fail st1 ->
  exists f' st', run g first follow (stream g w) cond f' cur caught (Item n) st = Done st'.
Proof.
  intros g first follow w cond f cur caught n t st st1 K E.
  set (st2 := if Nat.eqb (pidx st - 1) (pidx st1 - 1) && negb (Nat.eqb (ptok st1) (geof g)) then yylex (stream g w) st1 else st1).
  destruct (skip_ends g follow (stream g w) n w st2) as (f2 & st' & D); [intros k L; unfold stream; apply nth_overflow; exact L|].
  exists (S (Nat.max f f2)), st'. cbn [run]. rewrite K.
  rewrite (run_more g first follow (stream g w) cond f (Nat.max f f2) (Nat.le_max_l _ _) _ _ _ _ _ E) by discriminate. fold st2.
  apply (skip_more g follow (stream g w) f2 n st2 _ D); [discriminate|apply Nat.le_max_r].
Qed.
Print Assumptions C68_recovery_ends.
(** [(try/recover (A A) B)* -> start] on [A C A B]: C is skipped, and reading
    goes on at B. *)
Definition recover : grammar := {|
  gnodes := [NZero; NTerm; NTerm; NTerm; NSym; NCons 1 1; NTry 5 None; NCons 6 2; NStar 7 10 11; NEvolve 8 4; NCons 7 11; NAlt 0 10; NTerm];
  gregular := 10; grules := [9]; gzero := 0; gterms := [1; 2; 3]; gstart := [4]; geof := 12 |}.
Example C68_case : well_formed recover = true /\ kind recover 6 = NTry 5 None /\
  (forall t o, run recover t o (stream recover [1; 3; 1; 2]) always 9 4 true (Item 5) (start_state (stream recover [1; 3; 1; 2])) = Fail (PS 2 3 false 0 0)) /\
  try_parse recover 4 [1; 3; 1; 2] = Some (Done (PS 5 12 false 0 0)).
Proof. split; [vm_compute; reflexivity|]. split; [reflexivity|]. split; [reflexivity|vm_compute; reflexivity]. Qed.

(** ** C69: blocked errors are not reported
    Full statement: with operator expressions; false then (below). *)
Theorem C69_blocked_partial : forall g first follow tok cond f cur caught j st, (forall n b ops x, kind g n <> NOper b ops x) ->
  (forall n b ops, j <> Operand n b ops /\ j <> Operator n b ops) -> pblock st = true ->
  match run g first follow tok cond f cur caught j st with Done st' | Fail st' => perr st' = perr st | _ => True end.
Proof.
  intros g first follow tok cond f cur caught j st C J B.
  assert (L : forall n b ops, j = Operand n b ops \/ j = Operator n b ops -> loud g n) by (intros n b ops [H|H]; destruct (J n b ops) as [J1 J2]; congruence).
  pose proof (run_keeps g first follow tok cond f cur caught j st L) as H.
  destruct (run g first follow tok cond f cur caught j st); auto; apply H; auto; intros n (b & ops & x & K); exact (C n b ops x K).
Qed.
Print Assumptions C69_blocked_partial.
Example C69_case : (forall n b ops x, kind rollback2 n <> NOper b ops x) /\
  (forall t o, run rollback2 t o (stream rollback2 [1; 2]) always 9 3 false (Item 4) (block true (start_state (stream rollback2 [1; 2]))) = Fail (PS 2 2 true 0 0)) /\
  (forall t o, run rollback2 t o (stream rollback2 [1; 2]) always 9 3 false (Item 4) (start_state (stream rollback2 [1; 2])) = Fail (PS 2 2 false 0 1)).
Proof.
  split; [|split; reflexivity]. intros n b ops x K. do 9 (destruct n as [|n]; [discriminate|]). unfold kind in K. rewrite nth_overflow in K by (cbn; lia). discriminate.
Qed.
(** [try/rollback (e) catch (A PLUS B) -> start], [e] an operator expression
    over [A] with binary PLUS: [A PLUS B] is accepted, but an error is reported. *)
Definition blocked : grammar := {|
  gnodes := [NZero; NTerm; NTerm; NTerm; NSym; NSym; NSym; NEvolve 1 6; NNon 6; NOper 8 [OBin 2] 16; NEvolve 9 5;
             NNon 5; NCons 2 3; NCons 1 12; NTry 11 (Some 13); NEvolve 14 4;
             NAlt 17 8; NCons 16 18; NCons 2 16; NTerm];
  gregular := 16; grules := [7; 10; 15]; gzero := 0; gterms := [1; 2; 3]; gstart := [4]; geof := 19 |}.
Theorem C69_blocked_refuted : well_formed blocked = true /\ silent blocked = true /\ kind blocked 14 = NTry 11 (Some 13) /\
  try_parse blocked 4 [1; 2; 3] = Some (Done (PS 4 19 false 1 1)).
Proof. split; [vm_compute; reflexivity|]. split; [vm_compute; reflexivity|]. split; [reflexivity|vm_compute; reflexivity]. Qed.
Print Assumptions C69_blocked_refuted.

(** ** C71: no operand is empty without being noticed
    Full statement: without [code_has_company]; false then (below). *)
Theorem C71_operands_checked_partial : forall g rounds fuel t, well_formed g = true -> code_has_company g -> operators_on_top g ->
  compute_first g rounds fuel = Some t -> no_error g t = true -> forall n b ops x, kind g n = NOper b ops x -> ~ derives g b [].
Proof.
  intros g rounds fuel t WF CO TOP E NER n b ops x K. unfold no_error in NER. repeat rewrite andb_true_iff in NER.
  assert (SA : says g (empty_operator g t) = true) by tauto. exact (operands_checked g t WF rounds fuel CO TOP E SA n b ops x K).
Qed.
Print Assumptions C71_operands_checked_partial.
(** [0 | A -> primary], and [e] an operator expression over it: noticed. *)
Definition empty_operand : grammar := {|
  gnodes := [NZero; NTerm; NSym; NSym; NSym; NAlt 0 1; NEvolve 5 4; NNon 4; NOper 7 [OBin 1] 12; NEvolve 8 3; NNon 3; NEvolve 10 2;
             NAlt 13 7; NCons 12 14; NCons 1 12; NTerm];
  gregular := 12; grules := [6; 9; 11]; gzero := 0; gterms := [1]; gstart := [2]; geof := 15 |}.
Example C71_case : (well_formed psample = true /\ silent psample = true) /\ kind psample 16 = NOper 15 [OPre 7; OBin 4; OParen 5 6] 25 /\
  well_formed empty_operand = true /\ derives empty_operand 7 [] /\ silent empty_operand = false.
Proof.
  split; [exact (conj (proj1 psample_sets) (proj1 (proj2 psample_sets)))|]. split; [reflexivity|]. split; [vm_compute; reflexivity|]. split; [|vm_compute; reflexivity].
  eapply d_non; [reflexivity|]. eapply (d_sym empty_operand 4 6); [reflexivity|cbn; auto|reflexivity|]. eapply d_altl; [reflexivity|]. apply d_zero. reflexivity.
Qed.
(** [[: code :] -> primary] and [A -> primary]: not noticed. *)
Definition code_operand : grammar := {|
  gnodes := [NZero; NTerm; NSym; NSym; NSym; NAct None; NEvolve 5 4; NEvolve 1 4; NNon 4; NOper 8 [OBin 1] 13; NEvolve 9 3; NNon 3; NEvolve 11 2;
             NAlt 14 8; NCons 13 15; NCons 1 13; NTerm];
  gregular := 13; grules := [6; 7; 10; 12]; gzero := 0; gterms := [1]; gstart := [2]; geof := 16 |}.
Theorem C71_operands_checked_refuted : well_formed code_operand = true /\ operators_on_top code_operand /\ silent code_operand = true /\
  kind code_operand 9 = NOper 8 [OBin 1] 13 /\ derives code_operand 8 [].
Proof.
  split; [vm_compute; reflexivity|]. split; [apply top_ok; vm_compute; reflexivity|]. split; [vm_compute; reflexivity|]. split; [reflexivity|].
  eapply d_non; [reflexivity|]. eapply (d_sym code_operand 4 6); [reflexivity|cbn; auto|reflexivity|]. apply d_act0; reflexivity.
Qed.
Print Assumptions C71_operands_checked_refuted.
