(** What can be relied on when the tool has run: from the text of the grammar file and the
    command line to the language of the generated parser. *)
From Coq Require Import List NArith Ascii String Bool PeanoNat Permutation Lia.
From Verif Require Import GramProps GraphProps UndefProps DriverProps.
From Verif Require Import YaccModel ScanModel FlexModel GramModel GramSpec GramTableProofs GramProofs GramFileProofs.
From Verif Require Import GraphModel GrammarModel GrammarSpec FirstProofs CheckerModel ParserModel ParserSpec CompleteSpec EndSpec ParserProps.
From Verif Require Import GraphProofs LangProofs FileProofs UndefModel RunModel DriverModel DriverProofs LangSpec.
Import ListNotations.
Open Scope list_scope.

(** ** The two descriptions of UndefinedSymbolChecker agree *)
Lemma number_none g c : number g c = Some 0 -> CheckerModel.says g c = true.
Proof.
  unfold number, CheckerModel.says. induction (grules g) as [| e l IH]; [reflexivity |]. cbn [fold_right forallb]. destruct (c e) as [[| x a] | |]; try discriminate.
  - intros H. rewrite IH; [reflexivity |]. destruct (fold_right _ _ l); cbn in H; [exact H | discriminate].
  - destruct (fold_right _ _ l); cbn; discriminate.
Qed.
Lemma sum_none l : sum l = Some 0 -> Forall (fun x => x = Some 0) l.
Proof.
  induction l as [| [a |] l IH]; cbn [sum fold_right]; intros H; [constructor | | discriminate]. fold (sum l) in H. destruct (sum l) as [b |]; [| discriminate].
  injection H as H. assert (a = 0) by lia. assert (b = 0) by lia. subst. constructor; [reflexivity | apply IH; reflexivity].
Qed.

Lemma two {A} (P : A -> Prop) a b : Forall P [a; b] -> P a /\ P b.
Proof. intros H. pose proof (Forall_inv H). pose proof (Forall_inv (Forall_inv_tail H)). auto. Qed.
Lemma four {A} (P : A -> Prop) a b c d : Forall P [a; b; c; d] -> P a /\ P b /\ P c /\ P d.
Proof. intros H. pose proof (Forall_inv H). apply Forall_inv_tail in H. pose proof (Forall_inv H). apply Forall_inv_tail in H. apply two in H. tauto. Qed.

Section U.
Variables (f : GramSpec.file) (w : world) (order : list id).
Notation g := (graph w order).
Notation kind := (GrammarModel.kind g).
Notation D := (describe f).
Notation rep := (rep g (token_id w) (symbol_id w)).
Notation known := (known (token_id w) (symbol_id w)).
Hypothesis Rl : rules_pushed (rev (events w)) = map (rule_means D) (rules_ f).
Hypothesis Sy : symbols_pushed (rev (events w)) = flat_map rule_symbols (rules_ f).
Hypothesis To : forall x, lookup x (terminals w) = first_of (file_tokens f) x.
Hypothesis Decl : tokens_declared f.
Hypothesis Ord : forall e, In e order <-> In e (rule_ids w).
Let WF : well_formed g = true := graph_well_formed w order (rules_known f w Rl Sy To Decl) (fun e I => proj1 (Ord e) I).

Lemma lower_child n m : inside g n = true -> kind n <> NOther -> child g n m -> m < n /\ inside g m = true.
Proof.
  intros I K C. pose proof (shaped g WF n K) as SH. unfold shape in SH. rewrite I in SH. unfold child in C.
  assert (B : below g m n = true).
  { destruct (kind n) as [| | |s|s|i c a|i c a|[i|]|l r|l r|i s|tt [c|]|i|i|bb ops x|]; try (destruct C; fail); rewrite ?andb_true_iff in SH; try (subst m; tauto); destruct C as [-> | ->]; tauto. }
  split; [| exact (below_inside g m n B I)]. unfold below in B. apply andb_true_iff in B. apply Nat.ltb_lt. apply B.
Qed.
Lemma env_there x : has_rule w x = true -> (Nat.eqb (List.length (env g (sym_id (symbol_id w) x))) 0) = false.
Proof.
  intros H. apply (has_rule_defined f w Rl) in H. destruct H as (r & Ir & N). destruct (node_rule f w order Rl Sy To Decl Ord r Ir) as (e & Ie & R).
  destruct (rule_evolve f w order r e R) as (k & K). rewrite N in K. apply Nat.eqb_neq. unfold env. rewrite rev_length.
  assert (In e (filter (rule_of g (sym_id (symbol_id w) x)) (grules g))).
  { apply filter_In. split; [exact Ie |]. unfold rule_of. rewrite K. apply Nat.eqb_refl. }
  destruct (filter _ _); [destruct H | discriminate].
Qed.
Lemma item_defined rule : forall i n fuel, known i -> rep i n -> inside g n = true -> n < fuel -> undefined_symbols w rule i = [] -> undefined g fuel n = Warn [].
Proof.
  induction i; intros n fuel K R I L U; cbn [GraphProofs.known] in K; try (destruct K; fail); (destruct fuel as [| fuel]; [lia |]); cbn [undefined]; cbn [undefined_symbols] in U; cbn [GraphProofs.rep] in R;
    repeat match type of R with exists _, _ => destruct R as [? R] | _ /\ _ => let E := fresh "E" in destruct R as [E R] end.
  - subst n. rewrite kind_zero. reflexivity.
  - rewrite (proj1 (token_ok w order _ _ R)). reflexivity.
  - rewrite R. unfold visit_symbol in U. destruct (has_rule w _) eqn:H; [| discriminate]. rewrite env_there by exact H. reflexivity.
  - rewrite R. unfold visit_symbol in U. destruct (has_rule w _) eqn:H; [| discriminate]. rewrite env_there by exact H. reflexivity.
  - rewrite E. match type of R with GraphProofs.rep _ _ _ _ ?k => destruct (lower_child n k I ltac:(congruence) ltac:(unfold child; rewrite E; reflexivity)) end. apply IHi; auto; lia.
  - rewrite E. match type of R with GraphProofs.rep _ _ _ _ ?k => destruct (lower_child n k I ltac:(congruence) ltac:(unfold child; rewrite E; reflexivity)) end. apply IHi; auto; lia.
  - rewrite E. match type of R with GraphProofs.rep _ _ _ _ ?k => destruct (lower_child n k I ltac:(congruence) ltac:(unfold child; rewrite E; reflexivity)) end. apply IHi; auto; lia.
  - rewrite R. reflexivity.
  - rewrite E. destruct (lower_child n x I ltac:(congruence) ltac:(unfold child; rewrite E; auto)), (lower_child n x0 I ltac:(congruence) ltac:(unfold child; rewrite E; auto)). apply app_eq_nil in U. destruct U, K.
    rewrite IHi1, IHi2 by (auto; lia). reflexivity.
  - rewrite E. destruct (lower_child n x I ltac:(congruence) ltac:(unfold child; rewrite E; auto)), (lower_child n x0 I ltac:(congruence) ltac:(unfold child; rewrite E; auto)). apply app_eq_nil in U. destruct U, K.
    rewrite IHi1, IHi2 by (auto; lia). reflexivity.
  - rewrite E. match type of R with GraphProofs.rep _ _ _ _ ?k => destruct (lower_child n k I ltac:(congruence) ltac:(unfold child; rewrite E; reflexivity)) end. apply IHi; auto; lia.
  - rewrite E. destruct (lower_child n x I ltac:(congruence) ltac:(unfold child; rewrite E; auto)), (lower_child n x0 I ltac:(congruence) ltac:(unfold child; rewrite E; auto)). apply app_eq_nil in U. destruct U, K.
    rewrite IHi1, IHi2 by (auto; lia). reflexivity.
  - apply app_eq_nil in U. destruct U as [_ U]. rewrite E. match type of E with _ = NAnn ?k => destruct (lower_child n k I ltac:(congruence) ltac:(unfold child; rewrite E; reflexivity)) end. apply IHi; auto; lia.
  - rewrite E. match type of R with GraphProofs.rep _ _ _ _ ?k => destruct (lower_child n k I ltac:(congruence) ltac:(unfold child; rewrite E; reflexivity)) end. apply IHi; auto; lia.
Qed.
Lemma undefined_rule fuel e k s : kind e = NEvolve k s -> undefined g (S fuel) e = also (undefined g fuel k) (warn_if (Nat.eqb (List.length (env g s)) 0) e).
Proof. intros E. cbn [undefined]. rewrite E. reflexivity. Qed.
Lemma names_nodes : undefined_reports w (rules_pushed (rev (events w))) = [] -> CheckerModel.says g (undefined g (depth g)) = true.
Proof.
  intros U. unfold undefined_reports in U. apply app_eq_nil in U. destruct U as [U _]. unfold CheckerModel.says. apply forallb_forall. intros e Ie.
  destruct (rule_node f w order Rl Sy To Decl Ord e Ie) as (r & Ir & R). destruct (rule_kind g WF e Ie) as (In_ & _).
  assert (L : e < size g) by (pose proof (plain_len w); pose proof (size_graph w order); unfold inside in In_; apply Nat.ltb_lt in In_; cbn [gregular graph] in In_; lia).
  assert (U' : undefined_symbols w (rule_name r) (rule_means D r) = []).
  { apply no_reports. intros p Ip. apply (proj1 (no_reports _) U p). apply in_flat_map. exists (rule_means D r). split; [rewrite Rl; apply in_map; exact Ir | rewrite (evolve_name D); exact Ip]. }
  pose proof (rule_known f w Sy To Decl r Ir) as K. unfold depth. destruct (size g) as [| z] eqn:Z; [lia |].
  assert (K0 : kind e <> NOther) by (destruct (rule_evolve f w order r e R) as (? & E); congruence).
  destruct r as [i x ft | b args l x ft]; cbn [rule_means GraphProofs.rep undefined_symbols] in R, U', K; destruct R as (k & E & R); apply app_eq_nil in U'; destruct U' as [_ U']; apply app_eq_nil in U'; destruct U' as [U1 U2];
    destruct (lower_child e k In_ K0 ltac:(unfold child; rewrite E; reflexivity)) as [Lk Ik]; unfold visit_symbol in U2; destruct (has_rule w _) eqn:H; try discriminate; rewrite (undefined_rule _ _ _ _ E); rewrite (env_there _ H).
  - destruct (rule_src_known f w Sy To Decl i x ft Ir) as (Ki & _). rewrite (item_defined _ (imeans D i) k (S z) Ki R Ik ltac:(lia) U1). reflexivity.
  - destruct R as (m & os & y & Ek & _). cbn [undefined]. rewrite Ek. reflexivity.
Qed.
End U.

(** ** C103: when the tool has succeeded with --strict-conflicts
    What a run knows of the grammar is what reading and checking the file gives. *)
Definition read_as (ast : bool) (f : GramSpec.file) (w : world) (order : list id) (first follow : GrammarModel.table) (g : grammar_read) : Prop :=
  readable ast f /\ (exists l n v, map (fun x => (ltok x, lval x)) l = file_show f /\ read_tokens n ast (input l) = Accepted val world v w) /\ Permutation order (rule_ids w) /\
  (exists rounds fuel, compute_first (graph w order) rounds fuel = Some first /\ compute_follow (graph w order) rounds fuel first = Some follow) /\
  counts w order first follow = Some (checks g) /\ (has_rules g = true <-> rules_ f <> []).
Lemma nothing_found ast f w order first follow g : read_as ast f w order first follow g -> operator_tokens_declared f -> end_not_used f -> checks g = (0, 0) ->
  tokens_declared f /\ no_error (graph w order) first = true /\ no_conflict (graph w order) first follow = true.
Proof.
  intros (Rd & (l & n & v & E & P) & O & _ & C & _) OT EN Z. rewrite Z in C. unfold counts in C.
  destruct (sum [_; _; _; _; _]) as [e |] eqn:S1; [| discriminate]. destruct (sum [_; _]) as [c |] eqn:S2; [| discriminate]. injection C as C1 C2. assert (e = 0) by lia. subst e c.
  apply sum_none in S1, S2. apply Forall_inv_tail, four in S1. apply two in S2. destruct S1 as (_ & F1 & F2 & F3), S2 as (F4 & F5). injection F3 as F3. apply length_zero_iff_nil in F3.
  assert (RF : read_from ast f w (rules_pushed (rev (events w)))) by (split; [exact Rd |]; split; [exists l, n, v; auto | apply Permutation_refl]).
  pose proof (C99_declared _ _ _ _ RF F3 OT EN) as De. split; [exact De |].
  destruct (any_reading ast f l n v w Rd E P) as (Rl & Sy & To). pose proof (any_order w order O) as Ord.
  unfold no_error, no_conflict. rewrite (number_none _ _ F1), (number_none _ _ F2), (number_none _ _ F4), (number_none _ _ F5), (names_nodes f w order Rl Sy To De Ord F3). auto.
Qed.
(** Full statement: the parser decides the language of the file if the tool has nothing
    against it.  What is missing: the tokens of operators and EOF, which the tool does not look
    at (C99), and the conditions of C96. *)
Theorem C103_verdict_partial : forall o gr r f w order first follow cond x s u ws,
  a_run o gr r -> read_as (ast o) f w order first follow gr -> exit r = Success -> parser_wanted o gr -> conflicts o = Strict ->
  operator_tokens_declared f -> end_not_used f -> respects f -> code_accompanied f -> not_left_recursive f -> careful (graph w order) first follow = true ->
  begins f x -> symbol_id w x = Some s -> spells_out w u ws -> (forall k, cond k = true) ->
  exists k st, parse (graph w order) first follow (stream (graph w order) u) cond k s = Done st /\ sentence f x ws \/
               parse (graph w order) first follow (stream (graph w order) u) cond k s = Fail st /\ ~ sentence f x ws.
Proof.
  intros o gr r f w order first follow cond x s u ws R RA Su PW St OT EN Re CA NL Ca Bg Ex Sp C.
  assert (NP : ~ problem o gr) by (intros H; apply (C101_status o gr r R) in H; unfold failed in H; congruence).
  assert (HR : has_rules gr = true) by (destruct (has_rules gr) eqn:H; [reflexivity | exfalso; apply NP; apply no_rules; assumption]).
  assert (Z : checks gr = (0, 0)).
  { destruct (checks gr) as [[| e] [| c]] eqn:Ch; [reflexivity | | |]; exfalso; apply NP; [apply conflicting | apply bad_grammar | apply bad_grammar]; auto; rewrite Ch; cbn; lia. }
  destruct (nothing_found _ _ _ _ _ _ _ RA OT EN Z) as (De & NE & NC). destruct RA as (Rd & (l & n & v & E & P) & O & (rounds & fuel & E1 & E2) & _).
  exact (C96_verdict_partial (ast o) f l n v w order rounds fuel first follow cond x s u ws Rd E De Re CA NL P O E1 E2 NE NC Ca Bg Ex Sp C).
Qed.
Print Assumptions C103_verdict_partial.
(** The calculator (GraphProps), with --strict-conflicts. *)
Definition calculator_read_as : grammar_read := Grammar_read true false [] [] (0, 0).
Definition strict_args : list text := map chars ["--output=calc"; "--strict-conflicts"; "a.g"]%string.
Lemma calculator_counts : match sets calculator_graph with Some (t, o) => counts calculator_world (rule_ids calculator_world) t o | None => None end = Some (0, 0).
Proof. vm_compute. reflexivity. Qed.
Lemma strict_run : exists o r, a_run o calculator_read_as r /\ ast o = true /\ exit r = Success /\ parser_wanted o calculator_read_as /\ conflicts o = Strict /\ In (chars "calcparser.cpp") (map fst (generated r)).
Proof.
  eexists _, _. split; [exists finds, (fun _ _ => Reads calculator_read_as), strict_args; split; [vm_compute; reflexivity |]; split; [discriminate |]; split; [reflexivity | vm_compute; reflexivity] |].
  split; [reflexivity |]. split; [reflexivity |]. split; [right; split; reflexivity |]. split; [reflexivity |]. vm_compute. tauto.
Qed.
Example C103_case : exists o r first follow, a_run o calculator_read_as r /\ read_as (ast o) calculator calculator_world (rule_ids calculator_world) first follow calculator_read_as /\
  exit r = Success /\ parser_wanted o calculator_read_as /\ conflicts o = Strict /\ operator_tokens_declared calculator /\ end_not_used calculator /\ respects calculator /\ code_accompanied calculator /\
  not_left_recursive calculator /\ careful calculator_graph first follow = true /\ In (chars "calcparser.cpp") (map fst (generated r)).
Proof.
  destruct calculator_read as (Rd & v & P). pose proof calculator_counts as CC. pose proof calculator_well as W. unfold all_well in W. destruct (sets calculator_graph) as [[t o]|] eqn:S0; [| discriminate].
  destruct (sets_first _ t o S0) as [E1 E2]. rewrite !andb_true_iff in W. destruct W as ((_ & _) & W3). destruct calculator_respects as [R1 R2]. destruct C98_case as (_ & _ & OT & EN).
  assert (RA : read_as true calculator calculator_world (rule_ids calculator_world) t o calculator_read_as).
  { split; [exact Rd |]. split; [exists (GramProps.shown calculator), 3000, v; split; [exact calculator_shown | exact P] |]. split; [apply Permutation_refl |]. split; [exists 300, 1500; exact (conj E1 E2) |].
    split; [exact CC |]. split; [intros _; discriminate | intros _; reflexivity]. }
  destruct strict_run as (op & r & A & B & C & D & E & F). exists op, r, t, o. split; [exact A |]. split; [rewrite B; exact RA |]. split; [exact C |]. split; [exact D |]. split; [exact E |].
  split; [exact OT |]. split; [exact EN |]. split; [exact R1 |]. split; [exact R2 |]. split; [exact calculator_not_left |]. split; [exact W3 | exact F].
Qed.
