(** The text of the parse functions: that there is one, that it is C++ of the kind described in
    CppSpec, and that running it gives what the parser (ParserModel) gives. *)
From Coq Require Import List NArith Ascii String Bool PeanoNat Permutation Lia.
From Verif Require Import Base GramProps GraphProps UndefProps DriverProps RunProps.
From Verif Require Import YaccModel ScanModel FlexModel GramModel GramSpec GramFileProofs DriverModel.
From Verif Require Import GraphModel GrammarModel GrammarSpec GrammarProofs FirstProofs CheckerModel ParserModel ParserSpec CompleteSpec EndSpec ParserProps.
From Verif Require Import GraphProofs LangProofs FileProofs UndefModel RunModel LangSpec EmitSpec.
From Verif Require Import CppSpec EmitModel EmitReadProofs EmitRunProofs EmitSetProofs EmitTotalProofs EmitFileProofs EmitInlineProofs.
Import ListNotations.
Open Scope list_scope.

(** The functions that are written for a file, one for each symbol; the numbers in their text
    may begin anywhere. *)
Definition symbol_ids (w : world) : list id := List.seq (1 + List.length (token_names w)) (List.length (symbol_names w)).
Definition written (w : world) (order : list id) (first follow : GrammarModel.table) (fs : list (id * list token)) : Prop :=
  exists fuel c syms, Permutation syms (symbol_ids w) /\ out_functions (graph w order) first follow (needs_state (graph w order)) fuel c syms = Some fs.
(** What the compiler makes of them. *)
Definition compiled (fs : list (id * list token)) (body : id -> list stmt) : Prop := forall s t, In (s, t) fs -> reads t (body s).

Lemma each_function g first follow managed fuel : forall l c fs, out_functions g first follow managed fuel c l = Some fs ->
  map fst fs = l /\ forall s t, In (s, t) fs -> exists c0 c1, out_function g first follow managed fuel c0 s = Some (t, c1).
Proof.
  induction l as [| s l IH]; intros c fs E; cbn [out_functions] in E.
  - injection E as <-. split; [reflexivity | intros s t []].
  - destruct (out_function g first follow managed fuel c s) as [[t c'] |] eqn:E1; [| discriminate]. cbn [obind fst snd] in E.
    destruct (out_functions g first follow managed fuel c' l) as [q |] eqn:E2; [| discriminate]. cbn [obind] in E. injection E as <-. destruct (IH _ _ E2) as [M H].
    split; [cbn [map fst]; rewrite M; reflexivity |]. intros s0 t0 [J | J]; [injection J as <- <-; eauto | eauto].
Qed.
Lemma no_state g n t h : needs_state g = false -> kind g n <> NTry t h.
Proof.
  intros N K. unfold needs_state in N. apply not_true_iff_false in N. apply N. apply existsb_exists. exists (NTry t h). split; [| reflexivity].
  unfold kind in K. destruct (Nat.lt_ge_cases n (size g)) as [L | L]; [rewrite <- K; apply nth_In; exact L | rewrite nth_overflow in K by exact L; discriminate].
Qed.
Lemma symbol_ids_kind w s : In s (symbol_ids w) <-> 1 + List.length (token_names w) <= s < items_from w.
Proof. unfold symbol_ids. rewrite in_seq. unfold items_from. lia. Qed.

Lemma rstmt_reads t b : rstmt t (SBlock b) [] -> reads t b.
Proof. intros [K H]. exists K. apply H. apply Nat.le_refl. Qed.

Section F.
Variables (f : GramSpec.file) (w : world) (order : list id).
Notation g := (graph w order).
Notation kind := (GrammarModel.kind g).
Hypothesis Rl : rules_pushed (rev (events w)) = map (rule_means (describe f)) (rules_ f).
Hypothesis Sy : symbols_pushed (rev (events w)) = flat_map rule_symbols (rules_ f).
Hypothesis To : forall x, lookup x (terminals w) = first_of (file_tokens f) x.
Hypothesis De : tokens_declared f.
Hypothesis Ord : forall e, In e order <-> In e (rule_ids w).
Hypothesis SD : symbols_defined f.
Hypothesis OI : operators_infix f.
Let WF : well_formed g = true := graph_well_formed w order (rules_known f w Rl Sy To De) (fun e I => proj1 (Ord e) I).
Variables (rounds fuel : nat) (first follow : GrammarModel.table).
Hypothesis E1 : compute_first g rounds fuel = Some first.
Hypothesis E2 : compute_follow g rounds fuel first = Some follow.
Lemma full1 n : trivial g (first n) = false -> terminals_in g (first n) <> [].
Proof. apply plain_full. exact (first_plain g WF _ _ _ E1). Qed.
Lemma full2 n : trivial g (follow n) = false -> terminals_in g (follow n) <> [].
Proof. apply plain_full. exact (follow_plain g WF _ _ _ _ E2). Qed.
Lemma infix_ n b ops x : kind n = NOper b ops x -> has_infix ops.
Proof. intros K. apply (file_oper f w order Rl Sy To De Ord n b ops x OI K). Qed.
Lemma sym_kind s : In s (symbol_ids w) <-> kind s = NSym.
Proof. rewrite (symbol_ids_kind w). split; [intros; apply (kind_sym w order); lia | apply (sym_place f w order Rl Sy To De)]. Qed.
Lemma function_body fs s t : written w order first follow fs -> In (s, t) fs -> kind s = NSym /\ exists ff c l c', c_rules g first follow (needs_state g) ff s c (env g s) = Some (l, c') /\ rstmt t (SBlock (c_body l)) [].
Proof.
  intros (ff & c & syms & Pm & E) I. destruct (each_function _ _ _ _ _ _ _ _ E) as [M H]. destruct (H s t I) as (c0 & c1 & F).
  assert (K : kind s = NSym). { apply sym_kind. eapply Permutation_in; [exact Pm |]. rewrite <- M. change s with (fst (s, t)). apply in_map. exact I. }
  split; [exact K |]. destruct (function_reads g first follow (needs_state g) full1 full2 infix_ _ _ _ _ _ (file_defined f w order Rl Sy To De Ord SD s K) F) as (l & C & R).
  exists ff, c0, l, c1. auto.
Qed.
Lemma function_there fs s : written w order first follow fs -> kind s = NSym -> exists t, In (s, t) fs.
Proof.
  intros (ff & c & syms & Pm & E) K. destruct (each_function _ _ _ _ _ _ _ _ E) as [M _]. apply sym_kind in K. apply (Permutation_in s (Permutation_sym Pm)) in K. rewrite <- M in K.
  apply in_map_iff in K. destruct K as ([s' t] & <- & I). eauto.
Qed.
End F.

(** Every text can be read, so there is a program. *)
Lemma choose_bodies : forall fs : list (id * list token), NoDup (map fst fs) -> (forall s t, In (s, t) fs -> exists b, reads t b) -> exists body, compiled fs body.
Proof.
  induction fs as [| [s t] fs IH]; intros N H; [exists (fun _ => []); intros s t [] |]. inversion N as [| ? ? N1 N2]; subst. destruct (IH N2 ltac:(intros; eapply H; right; eassumption)) as [body B]. destruct (H s t (or_introl eq_refl)) as [b R].
  exists (fun x => if Nat.eqb x s then b else body x). intros s' t' [J | J].
  - injection J as <- <-. rewrite Nat.eqb_refl. exact R.
  - destruct (Nat.eqb s' s) eqn:Q; [| exact (B s' t' J)]. apply Nat.eqb_eq in Q. subst s'. destruct N1. change s with (fst (s, t')). apply in_map. exact J.
Qed.

(** ** C104: the generator ends, and what it writes is C++
    For every symbol a function is written, with fuel enough, and its text can be read as the
    body of a function in exactly one way.  Once with the condition on inlining in terms of the
    file, once with what InlineChecker says. *)
Definition text_fine (w : world) (order : list id) (first follow : GrammarModel.table) : Prop :=
  (exists fs, written w order first follow fs) /\
  forall fs, written w order first follow fs ->
    (forall x s, symbol_id w x = Some s -> exists t, In (s, t) fs) /\
    (forall s t, In (s, t) fs -> exists b, reads t b /\ forall b', reads t b' -> b' = b) /\
    exists body, compiled fs body.
Lemma text_is_fine ast f l n v w order rounds fuel first follow :
  readable ast f -> map (fun x => (ltok x, lval x)) l = file_show f -> tokens_declared f -> symbols_defined f -> operators_infix f ->
  read_tokens n ast (input l) = Accepted GramModel.val world v w -> Permutation order (rule_ids w) ->
  compute_first (graph w order) rounds fuel = Some first -> compute_follow (graph w order) rounds fuel first = Some follow ->
  (well_formed (graph w order) = true -> (forall n, writable (graph w order) n) -> forall s, Acc (inlines (graph w order)) s) -> text_fine w order first follow.
Proof.
  intros Rd E De SD OI P O E1 E2 IE. destruct (any_reading ast f l n v w Rd E P) as (Rl & Sy & To). pose proof (any_order w order O) as Ord.
  pose proof (graph_well_formed w order (rules_known f w Rl Sy To De) (fun e I => proj1 (Ord e) I)) as WF. pose proof (file_writable f w order Rl Sy To De Ord SD OI) as WR. split.
  - destruct (functions_out (graph w order) first follow (needs_state (graph w order)) WF WR (IE WF WR) (symbol_ids w)) as (F & H).
    destruct (H F (Nat.le_refl _) 0) as (fs & X & _). exists fs, F, 0, (symbol_ids w). split; [apply Permutation_refl | exact X].
  - intros fs W. assert (R : forall s t, In (s, t) fs -> exists b, reads t b /\ forall b', reads t b' -> b' = b).
    { intros s t I. destruct (function_body f w order Rl Sy To De Ord SD OI rounds fuel first follow E1 E2 fs s t W I) as (K & ff & c & L & c' & C & R). exists (c_body L).
      split; [exact (rstmt_reads _ _ R) |]. intros b' Rb. exact (reads_once _ _ _ Rb R). }
    split; [| split; [exact R |]].
    + intros x s Ex. apply (function_there f w order Rl Sy To De first follow fs s W). exact (proj1 (symbol_ok w order x s Ex)).
    + apply choose_bodies; [| intros s t I; destruct (R s t I) as (b & Rb & _); eauto]. destruct W as (ff & c & syms & Pm & X). destruct (each_function _ _ _ _ _ _ _ _ X) as [M _]. rewrite M.
      apply (Permutation_NoDup (Permutation_sym Pm)). apply seq_NoDup.
Qed.
Theorem C104_text : forall ast f l n v w order rounds fuel first follow,
  readable ast f -> map (fun x => (ltok x, lval x)) l = file_show f -> tokens_declared f -> symbols_defined f -> operators_infix f -> inlining_ends f ->
  read_tokens n ast (input l) = Accepted GramModel.val world v w -> Permutation order (rule_ids w) ->
  compute_first (graph w order) rounds fuel = Some first -> compute_follow (graph w order) rounds fuel first = Some follow ->
  (exists fs, written w order first follow fs) /\
  forall fs, written w order first follow fs ->
    (forall x s, symbol_id w x = Some s -> exists t, In (s, t) fs) /\
    (forall s t, In (s, t) fs -> exists b, reads t b /\ forall b', reads t b' -> b' = b) /\
    exists body, compiled fs body.
Proof.
  intros ast f l n v w order rounds fuel first follow Rd E De SD OI IE P O E1 E2. apply (text_is_fine ast f l n v w order rounds fuel first follow Rd E De SD OI P O E1 E2). intros _ _.
  destruct (any_reading ast f l n v w Rd E P) as (Rl & Sy & To). exact (file_inlining f w order Rl Sy To De (any_order w order O) IE).
Qed.
Print Assumptions C104_text.
Theorem C104_checked : forall ast f l n v w order rounds fuel first follow,
  readable ast f -> map (fun x => (ltok x, lval x)) l = file_show f -> tokens_declared f -> symbols_defined f -> operators_infix f -> inline_errors (graph w order) = Some 0 ->
  read_tokens n ast (input l) = Accepted GramModel.val world v w -> Permutation order (rule_ids w) ->
  compute_first (graph w order) rounds fuel = Some first -> compute_follow (graph w order) rounds fuel first = Some follow ->
  (exists fs, written w order first follow fs) /\
  forall fs, written w order first follow fs ->
    (forall x s, symbol_id w x = Some s -> exists t, In (s, t) fs) /\
    (forall s t, In (s, t) fs -> exists b, reads t b /\ forall b', reads t b' -> b' = b) /\
    exists body, compiled fs body.
Proof.
  intros ast f l n v w order rounds fuel first follow Rd E De SD OI IE P O E1 E2. apply (text_is_fine ast f l n v w order rounds fuel first follow Rd E De SD OI P O E1 E2). intros WF WR. exact (no_errors_end (graph w order) WF WR IE).
Qed.
Print Assumptions C104_checked.

(** ** C105: running the text is running the parser
    Whatever the tokens, the conditions and the state: if the parser of ParserModel ends, so
    does the function that was written for the symbol, with the same answer in the same state. *)
Theorem C105_execution : forall ast f l n v w order rounds fuel first follow fs body,
  readable ast f -> map (fun x => (ltok x, lval x)) l = file_show f -> tokens_declared f -> symbols_defined f -> operators_infix f -> operators_not_inlined f ->
  read_tokens n ast (input l) = Accepted GramModel.val world v w -> Permutation order (rule_ids w) ->
  compute_first (graph w order) rounds fuel = Some first -> compute_follow (graph w order) rounds fuel first = Some follow ->
  written w order first follow fs -> compiled fs body ->
  forall tok cond x s p k, symbol_id w x = Some s -> (needs_state (graph w order) = false -> pblock p = false) ->
  match run (graph w order) first follow tok cond k s false (Rules (env (graph w order) s)) p with
  | Done p' => exists K, forall j, K <= j -> call tok cond body j s p = Return true p'
  | Fail p' => exists K, forall j, K <= j -> call tok cond body j s p = Return false p'
  | _ => True
  end.
Proof.
  intros ast f l n v w order rounds fuel first follow fs body Rd E De SD OI NI P O E1 E2 W Co tok cond x s p k Ex Op. destruct (any_reading ast f l n v w Rd E P) as (Rl & Sy & To). pose proof (any_order w order O) as Ord.
  pose proof (graph_well_formed w order (rules_known f w Rl Sy To De) (fun e I => proj1 (Ord e) I)) as WF. destruct (file_on_top f w order Rl Sy To De Ord NI) as (T1 & T2 & _).
  apply (call_runs (graph w order) first follow (needs_state (graph w order)) tok cond body (full1 f w order Rl Sy To De Ord rounds fuel first E1)).
  - intros m s0 K. pose proof (shaped _ WF m ltac:(congruence)) as SH. unfold shape in SH. rewrite K in SH. destruct (inside _ m); [| discriminate]. unfold is_sym in SH. apply andb_true_iff in SH. destruct SH as [_ SH]. destruct (kind _ s0); try discriminate. reflexivity.
  - intros m s0 e i s' K SR Ke. apply find_some in SR. destruct SR as [Ie SR]. unfold rule_of in SR. rewrite Ke in SR. apply Nat.eqb_eq in SR. subst s'.
    split; [exact (file_inlined_start f w order Rl Sy To De Ord m s0 SD K) |]. intros b ops y. exact (T2 m s0 e i b ops y K Ie Ke).
  - exact T1.
  - destruct (needs_state (graph w order)) eqn:N; [left; reflexivity | right]. intros m t h. apply no_state. exact N.
  - intros s0 K. destruct (function_there f w order Rl Sy To De first follow fs s0 W K) as (t & I).
    destruct (function_body f w order Rl Sy To De Ord SD OI rounds fuel first follow E1 E2 fs s0 t W I) as (_ & ff & c & L & c' & C & R). exists ff, c, L, c'. split; [exact C |].
    exact (reads_once _ _ _ (Co s0 t I) R).
  - exact (proj1 (symbol_ok w order x s Ex)).
  - exact Op.
Qed.
Print Assumptions C105_execution.

(** ** C106: the verdict of the text
    When the tool has succeeded with --strict-conflicts, the text of the parser ends on every
    input and decides the language of the file.  Full statement: if the tool has nothing
    against the file.  What is missing: the conditions of C103, and those of C104 that the tool
    does not look at. *)
Definition operands_defined (f : GramSpec.file) : Prop := forall b args l x ft, In (ROperators b args l x ft) (rules_ f) -> defined f b.
Theorem C106_verdict_partial : forall o gr r f w order first follow cond x s u ws,
  a_run o gr r -> read_as (ast o) f w order first follow gr -> exit r = Success -> parser_wanted o gr -> conflicts o = Strict ->
  operator_tokens_declared f -> end_not_used f -> respects f -> code_accompanied f -> not_left_recursive f -> careful (graph w order) first follow = true ->
  operands_defined f -> operators_infix f ->
  begins f x -> symbol_id w x = Some s -> spells_out w u ws -> (forall k, cond k = true) ->
  (exists fs body, written w order first follow fs /\ compiled fs body) /\ forall fs body, written w order first follow fs -> compiled fs body ->
  exists K st, (forall k, K <= k -> call (stream (graph w order) u) cond body k s (start_state (stream (graph w order) u)) = Return true st) /\ sentence f x ws \/
               (forall k, K <= k -> call (stream (graph w order) u) cond body k s (start_state (stream (graph w order) u)) = Return false st) /\ ~ sentence f x ws.
Proof.
  intros o gr r f w order first follow cond x s u ws R RA Su PW St OT EN Re CA NL Ca OD OI Bg Ex Sp C.
  destruct (C103_verdict_partial o gr r f w order first follow cond x s u ws R RA Su PW St OT EN Re CA NL Ca Bg Ex Sp C) as (k & st & V).
  assert (NP : ~ problem o gr) by (intros H; apply (C101_status o gr r R) in H; unfold failed in H; congruence).
  assert (HR : has_rules gr = true) by (destruct (has_rules gr) eqn:H; [reflexivity | exfalso; apply NP; apply no_rules; assumption]).
  assert (Z : checks gr = (0, 0)).
  { destruct (checks gr) as [[| e] [| c]] eqn:Ch; [reflexivity | | |]; exfalso; apply NP; [apply conflicting | apply bad_grammar | apply bad_grammar]; auto; rewrite Ch; cbn; lia. }
  destruct (nothing_found _ _ _ _ _ _ _ RA OT EN Z) as (De & _ & _).
  assert (Chk : symbols_defined f /\ inline_errors (graph w order) = Some 0).
  { destruct RA as (Rd & (l & n & v & E & P) & _ & _ & Ct & _). rewrite Z in Ct. unfold counts in Ct. destruct (sum [_; _; _; _; _]) as [e |] eqn:S1; [| discriminate]. destruct (sum [_; _]) as [c |]; [| discriminate].
    injection Ct as C1 C2. assert (e = 0) by lia. subst e. apply sum_none in S1. pose proof (Forall_inv S1) as F0. apply Forall_inv_tail, four in S1. destruct S1 as (_ & _ & _ & F3). injection F3 as F3. apply length_zero_iff_nil in F3.
    assert (RF : read_from (ast o) f w (rules_pushed (rev (events w)))) by (split; [exact Rd |]; split; [exists l, n, v; auto | apply Permutation_refl]).
    split; [| exact F0]. destruct (C98_silent _ _ _ _ RF F3) as [A _]. intros y I. apply in_flat_map in I. destruct I as (q & Iq & I). destruct q as [i z ft | b args l0 z ft]; cbn [rule_symbols] in I.
    - apply in_app_or in I. destruct I as [I | [<- | []]]; [eapply A; [exists ft; exact Iq | exact I] | exists (RRule i z ft); auto].
    - destruct I as [<- | [<- | []]]; [exact (OD _ _ _ _ _ Iq) | exists (ROperators b args l0 z ft); auto]. }
  destruct Chk as [SD IE]. destruct RA as (Rd & (l & n & v & E & P) & O & (rounds & fuel & E1 & E2) & _).
  destruct (C104_checked (ast o) f l n v w order rounds fuel first follow Rd E De SD OI IE P O E1 E2) as ((fs0 & W0) & H0). split; [destruct (H0 fs0 W0) as (_ & _ & body0 & B0); eauto |]. clear fs0 W0 H0. intros fs body W Co. destruct Re as (R1 & R2 & R3 & R4 & R5).
  assert (NI : operators_not_inlined f) by assumption.
  pose proof (C105_execution (ast o) f l n v w order rounds fuel first follow fs body Rd E De SD OI NI P O E1 E2 W Co (stream (graph w order) u) cond x s (start_state (stream (graph w order) u)) k Ex (fun _ => eq_refl)) as X.
  unfold parse in V. destruct V as [(V & S0) | (V & S0)]; rewrite V in X; destruct X as (K & X); exists K, st; [left | right]; auto.
Qed.
Print Assumptions C106_verdict_partial.

(** The calculator of GraphProps: all conditions are met, there is a text, and it is read. *)
Lemma calculator_symbols : symbols_defined calculator.
Proof. intros x I. repeat (destruct I as [<- | I]; [first [eexists; split; [left; reflexivity | reflexivity] | eexists; split; [right; left; reflexivity | reflexivity] | eexists; split; [right; right; left; reflexivity | reflexivity] | eexists; split; [right; right; right; left; reflexivity | reflexivity]] |]). destruct I. Qed.
Lemma calculator_infix : operators_infix calculator.
Proof.
  intros b args l x ft Ir. rule_of Ir. injection Ir as <- <- <- <- <-. split; [eexists; split; [left; reflexivity | exact Logic.I] |].
  intros o Io. repeat (destruct Io as [<- | Io]; [exact (fun H => H) |]). destruct Io.
Qed.
Lemma calculator_inlining : inlining_ends calculator.
Proof.
  assert (R : forall y x, inlined_in calculator y x -> y = chars "rest" /\ x = chars "start").
  { intros y x (i & ft & Ir & Ip). cbn [rules_ calculator In] in Ir. destruct Ir as [Ir | [Ir | [Ir | [Ir | []]]]]; try discriminate; injection Ir as <- <- <-; vm_compute in Ip;
      repeat (destruct Ip as [Ip | Ip]; [first [discriminate | injection Ip as <-; split; reflexivity] |]); destruct Ip. }
  assert (N : Acc (inlined_in calculator) (chars "rest")) by (constructor; intros z H; destruct (R _ _ H); discriminate).
  intros x. constructor. intros y H. destruct (R _ _ H) as [-> _]. exact N.
Qed.
Example C104_case : exists first follow, compute_first calculator_graph 300 1500 = Some first /\ compute_follow calculator_graph 300 1500 first = Some follow /\
  readable true calculator /\ tokens_declared calculator /\ symbols_defined calculator /\ operators_infix calculator /\ inlining_ends calculator /\ operators_not_inlined calculator /\ operands_defined calculator /\
  exists fs body, written calculator_world (rule_ids calculator_world) first follow fs /\ compiled fs body.
Proof.
  destruct calculator_read as (Rd & v & P). destruct (sets_well _ calculator_well) as (t & o & E1 & E2 & _). exists t, o. split; [exact E1 |]. split; [exact E2 |]. split; [exact Rd |]. split; [exact calculator_declared |].
  split; [exact calculator_symbols |]. split; [exact calculator_infix |]. split; [exact calculator_inlining |]. destruct calculator_respects as [(_ & _ & R3 & _) _]. split; [exact R3 |].
  split. { intros b args l x ft Ir. apply calculator_symbols. apply in_flat_map. eexists. split; [exact Ir |]. left. reflexivity. }
  destruct (C104_text true calculator (GramProps.shown calculator) 3000 v calculator_world (rule_ids calculator_world) 300 1500 t o Rd calculator_shown calculator_declared calculator_symbols calculator_infix calculator_inlining P (Permutation_refl _) E1 E2) as ((fs & W) & H).
  destruct (H fs W) as (_ & _ & body & B). exists fs, body. auto.
Qed.
Example C104_checked_case : inline_errors calculator_graph = Some 0.
Proof. vm_compute. reflexivity. Qed.
Example C106_case : exists o r first follow fs body, a_run o calculator_read_as r /\ written calculator_world (rule_ids calculator_world) first follow fs /\ compiled fs body /\
  forall u ws, spells_out calculator_world u ws -> exists K st,
    (forall k, K <= k -> call (stream calculator_graph u) always body k (start_of calculator_world) (start_state (stream calculator_graph u)) = Return true st) /\ sentence calculator (chars "start") ws \/
    (forall k, K <= k -> call (stream calculator_graph u) always body k (start_of calculator_world) (start_state (stream calculator_graph u)) = Return false st) /\ ~ sentence calculator (chars "start") ws.
Proof.
  destruct C103_case as (o & r & first & follow & R & RA & Su & PW & St & OT & EN & Re & CA & NL & Ca & _). pose proof RA as (Rd & (l & n & v & E & P) & O & (rounds & fuel & E1 & E2) & _).
  destruct C104_case as (_ & _ & _ & _ & _ & De & SD & OI & IE & _ & OD & _).
  pose proof (fun u ws Sp => C106_verdict_partial o _ r calculator calculator_world _ first follow always (chars "start") (start_of calculator_world) u ws R RA Su PW St OT EN Re CA NL Ca OD OI calculator_begins calculator_start Sp (fun _ => eq_refl)) as V.
  destruct (V [] [] (Forall2_nil _)) as ((fs & body & W & B) & _). exists o, r, first, follow, fs, body. split; [exact R |]. split; [exact W |]. split; [exact B |]. intros u ws Sp. exact (proj2 (V u ws Sp) fs body W B).
Qed.

(** ** What C104 asks for is needed
    Full statement of C104: the text can be read whenever the tool reports nothing.  False:
    the checks count nothing for the first two files. *)
(** Operators, but none that comes after an operand: the text has else without if. *)
Definition negated : GramSpec.file := File None (DTokens (tok "NUMBER") [tok "MINUS"]) []
  [ROperators (chars "number") None [GramSpec.OPre (plain_op "MINUS") (PNumber (chars "1"))] (chars "expression") no_foot; RRule (GraphProps.T "NUMBER") (chars "number") no_foot] None.
(** A rule for no symbol: the operand has none. *)
Definition baseless : GramSpec.file := File None (DTokens (tok "PLUS") [tok "MINUS"]) []
  [ROperators (chars "number") None [GramSpec.OBin (plain_op "PLUS") (PNumber (chars "1")) GramSpec.Left; GramSpec.OPre (plain_op "MINUS") (PNumber (chars "1"))] (chars "expression") no_foot] None.
Definition world_of (f : GramSpec.file) : world :=
  match YaccModel.parse productions GramTableProofs.grammar_states 0%N GramModel.val world sem 3000 [] (empty_world true) (input (GramProps.shown f)) with Accepted _ _ _ w => w | _ => empty_world true end.
Definition negated_world : world := Eval vm_compute in world_of negated.
Definition baseless_world : world := Eval vm_compute in world_of baseless.
Definition unread (l : list token) : Prop := forall b, ~ reads l b.
Lemma more_fuel k : forall f l p, read_stmt f l = Some p -> read_stmt (k + f) l = Some p.
Proof. induction k as [| k IH]; intros f l p E; [exact E | apply read_stmt_more, IH, E]. Qed.
Definition bad_text (w : world) : Prop := exists first follow fs s t,
  compute_first (graph w (rule_ids w)) 300 1500 = Some first /\ compute_follow (graph w (rule_ids w)) 300 1500 first = Some follow /\ counts w (rule_ids w) first follow = Some (0, 0) /\
  written w (rule_ids w) first follow fs /\ In (s, t) fs /\ unread t.

Lemma bad_by j w : match sets (graph w (rule_ids w)) with Some (t, o) => counts w (rule_ids w) t o = Some (0, 0) /\
    match out_functions (graph w (rule_ids w)) t o (needs_state (graph w (rule_ids w))) 100 0 (symbol_ids w) with Some fs => match nth_error fs j with Some p => forall f, read_stmt (100 + f) (snd p) = None | None => False end | None => False end | None => False end -> bad_text w.
Proof.
  destruct (sets (graph w (rule_ids w))) as [[t o] |] eqn:S0; [| intros []]. destruct (sets_first _ t o S0) as [E1 E2]. intros [C H]. destruct (out_functions _ t o _ 100 0 (symbol_ids w)) as [fs |] eqn:E; [| destruct H].
  destruct (nth_error fs j) as [[s x] |] eqn:I; [| destruct H]. apply nth_error_In in I. exists t, o, fs, s, x. split; [exact E1 |]. split; [exact E2 |]. split; [exact C |]. split; [exists 100, 0, (symbol_ids w); split; [apply Permutation_refl | exact E] |]. split; [exact I |].
  intros b (f & R). apply (more_fuel 100) in R. rewrite H in R. discriminate.
Qed.
Ltac file_read f := split; [repeat split; eexists; vm_compute; reflexivity | eexists; reading; reflexivity].
Ltac in_rules I := cbn [In rules_ negated baseless] in I; repeat destruct I as [I | I]; try (destruct I; fail); try discriminate I.
Theorem C104_operators_refuted : exists f w v, readable true f /\ read_tokens 3000 true (input (GramProps.shown f)) = Accepted GramModel.val world v w /\
  tokens_declared f /\ symbols_defined f /\ inlining_ends f /\ bad_text w.
Proof.
  exists negated, negated_world. assert (R : readable true negated /\ exists v, read_tokens 3000 true (input (GramProps.shown negated)) = Accepted GramModel.val world v negated_world) by file_read negated.
  destruct R as (R & v & P). exists v. split; [exact R |]. split; [exact P |]. split.
  { intros r x Ir Ix. in_rules Ir; subst r; vm_compute in Ix; vm_compute; tauto. }
  split. { intros x I. vm_compute in I. destruct I as [<- | [<- | [<- | []]]]; [eexists; split; [right; left; reflexivity | reflexivity] | eexists; split; [left; reflexivity | reflexivity] | eexists; split; [right; left; reflexivity | reflexivity]]. }
  split. { intros x. constructor. intros y (i & ft & Ir & Ip). in_rules Ir. injection Ir as <- _ _. destruct Ip as [Ip | []]. discriminate. }
  apply (bad_by 1). vm_compute. split; reflexivity.
Qed.
Print Assumptions C104_operators_refuted.
Theorem C104_symbols_refuted : exists f w v, readable true f /\ read_tokens 3000 true (input (GramProps.shown f)) = Accepted GramModel.val world v w /\
  tokens_declared f /\ operators_infix f /\ inlining_ends f /\ bad_text w.
Proof.
  exists baseless, baseless_world. assert (R : readable true baseless /\ exists v, read_tokens 3000 true (input (GramProps.shown baseless)) = Accepted GramModel.val world v baseless_world) by file_read baseless.
  destruct R as (R & v & P). exists v. split; [exact R |]. split; [exact P |]. split.
  { intros r x Ir Ix. in_rules Ir; subst r; vm_compute in Ix; vm_compute; tauto. }
  split. { intros b args l x ft Ir. in_rules Ir. injection Ir as _ _ <- _ _. split; [eexists; split; [left; reflexivity | exact Logic.I] |]. intros o Io. repeat (destruct Io as [<- | Io]; [exact (fun H => H) |]). destruct Io. }
  split. { intros x. constructor. intros y (i & ft & Ir & Ip). in_rules Ir. }
  apply (bad_by 0). vm_compute. split; reflexivity.
Qed.
Print Assumptions C104_symbols_refuted.

(** A symbol that is inlined in itself: the generator would not end.  InlineChecker reports it
    (C74), so it is not asked. *)
Definition endless : GramSpec.file := File None (DTokens (tok "A") [tok "B"]) [] [RRule (IThen (GraphProps.T "A") (IPar (IOr (IInlined (chars "start")) (GraphProps.T "B")))) (chars "start") no_foot] None.
Definition endless_world : world := Eval vm_compute in world_of endless.
Notation endless_graph := (graph endless_world (rule_ids endless_world)).

Example endless_reported : inline_errors endless_graph = Some 1.
Proof. vm_compute. reflexivity. Qed.
Lemma endless_item first follow m : forall f cur catch c, out_item endless_graph first follow m f cur catch c 6 = None.
Proof.
  assert (K : (kind endless_graph 6 = NCons 1 5 /\ kind endless_graph 5 = NAlt 4 2 /\ kind endless_graph 4 = NInl 3 /\ kind endless_graph 2 = NTerm /\ kind endless_graph 7 = NEvolve 6 3) /\ search_rule endless_graph 3 = Some 7) by (repeat split).
  destruct K as ((K6 & K5 & K4 & K2 & K7) & SR).
  assert (IN : forall f cur catch c, (forall cur catch c, out_item endless_graph first follow m f cur catch c 6 = None) -> out_item endless_graph first follow m (S f) cur catch c 4 = None).
  { intros f cur catch c H. cbn [out_item]. rewrite K4, SR, K7, H. reflexivity. }
  induction f as [f IH] using (well_founded_induction Wf_nat.lt_wf). intros cur catch c. destruct f as [| f]; [reflexivity |]. cbn [out_item]. rewrite K6. destruct (out_item _ _ _ _ f cur catch c 1) as [p |]; [| reflexivity]. cbn [obind].
  assert (X : out_item endless_graph first follow m f cur catch (snd p) 5 = None); [| rewrite X; reflexivity].
  destruct f as [| f]; [reflexivity |]. cbn [out_item]. rewrite K5. destruct f as [| f]; [reflexivity |]. cbn [flatten]. rewrite K4. destruct f as [| f]; [reflexivity |]. cbn [flatten]. rewrite K2. destruct f as [| f]; [reflexivity |]. cbn [flatten obind out_each].
  rewrite IN; [reflexivity |]. intros. apply IH. lia.
Qed.
Theorem C104_inlining_refuted : exists f w v first follow, readable true f /\ read_tokens 3000 true (input (GramProps.shown f)) = Accepted GramModel.val world v w /\
  tokens_declared f /\ symbols_defined f /\ operators_infix f /\
  compute_first (graph w (rule_ids w)) 300 1500 = Some first /\ compute_follow (graph w (rule_ids w)) 300 1500 first = Some follow /\
  forall fs, ~ written w (rule_ids w) first follow fs.
Proof.
  exists endless, endless_world. assert (R : readable true endless /\ exists v, read_tokens 3000 true (input (GramProps.shown endless)) = Accepted GramModel.val world v endless_world) by file_read endless.
  destruct R as (R & v & P). assert (C : sets endless_graph <> None) by (vm_compute; discriminate).
  destruct (sets endless_graph) as [[t o] |] eqn:S0; [| congruence]. destruct (sets_first _ t o S0) as [E1 E2]. exists v, t, o. split; [exact R |]. split; [exact P |]. split.
  { intros r x [<- | []] Ix. vm_compute in Ix. vm_compute. tauto. }
  split. { intros x I. vm_compute in I. exists (RRule (IThen (GraphProps.T "A") (IPar (IOr (IInlined (chars "start")) (GraphProps.T "B")))) (chars "start") no_foot). split; [left; reflexivity |]. destruct I as [<- | [<- | []]]; reflexivity. }
  split. { intros b args l x ft [Ir | []]. discriminate. }
  split; [exact E1 |]. split; [exact E2 |]. intros fs (fuel & c & syms & Pm & E). change (symbol_ids endless_world) with [3] in Pm. apply Permutation_sym, Permutation_length_1_inv in Pm. subst syms. cbn [out_functions] in E.
  unfold out_function in E. change (env endless_graph 3) with [7] in E. cbn [out_rules] in E. replace (kind endless_graph 7) with (NEvolve 6 3) in E by (vm_compute; reflexivity). rewrite endless_item in E. discriminate.
Qed.
Print Assumptions C104_inlining_refuted.
