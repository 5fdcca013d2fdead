(** Theorems about the declarations of a grammar file (properties C50, C51, C54,
    C55). *)
From Coq Require Import List NArith PeanoNat Bool Lia Permutation.
From Verif Require Import DeclModel DeclSpec DeclProofs GrammarModel.
Import ListNotations.

(** ** C50: start symbols *)
(** Exactly the symbols mentioned once. *)
Theorem C50_mentioned_once : forall ms x, In x (start (read ms)) <-> times x ms = 1.
Proof. intros ms x. apply read_spec. Qed.
Print Assumptions C50_mentioned_once.
(** Full statement: without the condition of one rule per symbol; false then. *)
Theorem C50_start_partial : forall ms, (forall x, 0 < times x ms -> rules_of x ms = 1) -> forall x, In x (symbols (read ms)) ->
  (In x (start (read ms)) <-> ~ In (Use x) ms).
Proof.
  intros ms A x K. apply read_spec in K. rewrite C50_mentioned_once, times_split, (A x K).
  assert (U : ~ In (Use x) ms <-> uses x ms = 0).
  { unfold uses. rewrite <- count_occ_not_In. rewrite in_flat_map. split.
    - intros N (m & I & J). destruct m as [y|y]; [|destruct J]. destruct J as [<- | []]. exact (N I).
    - intros N I. apply N. exists (Use x). split; [exact I|left; reflexivity]. }
  rewrite U. lia.
Qed.
Print Assumptions C50_start_partial.
(** [1 2 -> 0 ;; 2 -> 1 ;; 2 -> 2]: only 0 is one. *)
Example C50_case : exists ms, ms = [Use 1; Use 2; Rule 0; Use 2; Rule 1; Use 2; Rule 2] /\ (forall x, 0 < times x ms -> rules_of x ms = 1) /\ start (read ms) = [0].
Proof.
  eexists. split; [reflexivity|]. split; [|reflexivity]. intros x. unfold times, rules_of. cbn [map mentioned flat_map app count_occ].
  destruct (Nat.eq_dec 1 x) as [<- |]; [cbn; lia|]. destruct (Nat.eq_dec 2 x) as [<- |]; [cbn; lia|]. destruct (Nat.eq_dec 0 x) as [<- |]; lia.
Qed.
(** A symbol with two rules is no start symbol, though it is never used. *)
Theorem C50_start_refuted : exists ms x, In (Rule x) ms /\ ~ In (Use x) ms /\ ~ In x (start (read ms)) /\ start (read ms) = [].
Proof. exists [Rule 0; Rule 0], 0. cbn. repeat split; intuition discriminate. Qed.
Print Assumptions C50_start_refuted.

(** ** C51: token numbers *)
Theorem C51_token_numbers : forall (name : Type) (is_eof : name -> bool) l, NoDup l ->
  (forall x y, In x l -> In y l -> is_eof x = true -> is_eof y = true -> x = y) ->
  map fst (token_type name is_eof l) = l /\ NoDup (map snd (token_type name is_eof l)) /\
  (forall x k, In (x, k) (token_type name is_eof l) -> (k = 1000%N <-> is_eof x = true) /\ (1000 <= k < 1001 + N.of_nat (length l))%N).
Proof.
  intros name is_eof l N U. split; [apply tokens_names|]. split; [apply tokens_inj; [exact N|exact U|lia]|].
  intros x k I. destruct (tokens_low name is_eof l 1001 x k I) as [[A ->]|[A B]]; split; try lia; split; intros; try assumption; try reflexivity; try lia; congruence.
Qed.
Print Assumptions C51_token_numbers.
Example C51_case : token_type nat (Nat.eqb 5) [3; 5; 7; 9] = [(3, 1001%N); (5, 1000%N); (7, 1002%N); (9, 1003%N)] /\ token_type_size nat (Nat.eqb 5) [3; 5; 7; 9] = 1004%N.
Proof. split; reflexivity. Qed.
(** If EOF is the last name, TokenTypeSize is the value of the first token. *)
Theorem C51_size_refuted : token_type nat (Nat.eqb 5) [3; 4; 5] = [(3, 1001%N); (4, 1002%N); (5, 1000%N)] /\ token_type_size nat (Nat.eqb 5) [3; 4; 5] = 1001%N.
Proof. split; reflexivity. Qed.
Print Assumptions C51_size_refuted.

(** ** C54: the kind of lexer *)
(** Full statement: for every sequence of declarations; false (below). *)
Theorem C54_declarations_partial : forall ds ds', Forall2 stands ds ds' -> all_in_order (EUcs2, KSequence) ds' = true ->
  declare_all initial_type ds = stype (fold_left effect ds' (EUcs2, KSequence)).
Proof. intros ds ds' F O. apply declare_all_ok; [exact F|reflexivity|exact O]. Qed.
Print Assumptions C54_declarations_partial.
(** The encoding first, then the kind, is always in order. *)
Theorem C54_encoding_first : forall s e k, names_enc s e -> (e = EUcs4 -> k = KSequence) ->
  declare_all initial_type [InputEncoding s; match k with KTable => TableLexer | KSequence => SequenceLexer end] = type_number e k.
Proof.
  intros s e k N X. rewrite (C54_declarations_partial _ [SayEnc e; SayKind k]); [reflexivity| |].
  - constructor; [constructor; exact N|]. constructor; [destruct k; constructor|constructor].
  - destruct k, e; cbn; try reflexivity. discriminate (X eq_refl).
Qed.
Print Assumptions C54_encoding_first.
(** UTF-8 *)
Example C54_case : names_enc [85; 84; 70; 45; 56]%N EUtf8 /\ declare_all initial_type [InputEncoding [85; 84; 70; 45; 56]%N; TableLexer] = Some 8.
Proof.
  split; [|reflexivity]. exists [117; 116; 102; 56]%N. split; [|cbn; auto]. apply (spd_capital 85); [lia|]. apply (spd_capital 84); [lia|]. apply (spd_capital 70); [lia|].
  constructor. apply spd_same; [lia|lia|]. constructor.
Qed.
(** Every declaration out of order goes wrong, whatever it is. *)
Theorem C54_declarations_refuted : forall s t d d', stype s = Some t -> stands d d' -> in_order s d' = false -> declare t d <> stype (effect s d').
Proof. intros s t d d' A B C. exact (declare_wrong s t d d' A B C). Qed.
Print Assumptions C54_declarations_refuted.
(** %table_lexer and then %input_encoding "utf8": a UTF-16 lexer. *)
Example C54_refuted_case : declare_all initial_type [TableLexer; InputEncoding [117; 116; 102; 56]%N] = Some 10 /\ type_number EUtf8 KTable = Some 8.
Proof. split; reflexivity. Qed.

(** ** C55: the lookup of rules
    std::sort leaves some sorted permutation. *)
Theorem C55_lookup : forall (rule : Type) (rules sorted : list (nat * rule)) sym, Permutation rules sorted -> ordered sorted ->
  exists r, search rule sorted sym = Some r /\ match r with Some x => In (sym, x) rules | None => forall x, ~ In (sym, x) rules end.
Proof.
  intros rule rules sorted sym P O. rewrite (search_find rule sorted sym O). eexists. split; [reflexivity|].
  destruct (find (fun e => Nat.eqb (fst e) sym) sorted) as [[s x]|] eqn:F; cbn [option_map snd].
  - apply find_some in F. destruct F as [I E]. cbn in E. apply Nat.eqb_eq in E. subst s. apply (Permutation_in _ (Permutation_sym P)). exact I.
  - intros x I. apply (Permutation_in _ P) in I. pose proof (find_none _ _ F _ I) as N. cbn in N. rewrite Nat.eqb_refl in N. discriminate.
Qed.
Print Assumptions C55_lookup.
(** The lookup used in the model of FIRST, FOLLOW and the parser. *)
Theorem C55_model_lookup : forall g s, ordered (map (fun e => (match kind g e with NEvolve _ x => x | _ => 0 end, e)) (grules g)) ->
  (forall e, In e (grules g) -> exists i x, kind g e = NEvolve i x) ->
  search nat (map (fun e => (match kind g e with NEvolve _ x => x | _ => 0 end, e)) (grules g)) s = Some (search_rule g s).
Proof.
  intros g s O K. rewrite (search_find nat _ s O). f_equal. unfold search_rule. clear O. induction (grules g) as [|e l IH]; [reflexivity|].
  cbn [map find]. destruct (K e (or_introl eq_refl)) as (i & x & E). unfold rule_of. rewrite E. cbn [fst]. rewrite Nat.eqb_sym.
  destruct (Nat.eqb s x); [reflexivity|]. apply IH. intros e' I. apply K. right. exact I.
Qed.
Print Assumptions C55_model_lookup.
Example C55_case : exists rules sorted, rules = [(7, 1); (3, 2); (9, 3); (7, 4); (5, 5)] /\ sorted = [(3, 2); (5, 5); (7, 4); (7, 1); (9, 3)] /\ Permutation rules sorted /\
  ordered sorted /\ search nat sorted 7 = Some (Some 4) /\ search nat sorted 8 = Some None.
Proof.
  eexists. eexists. split; [reflexivity|]. split; [reflexivity|]. split; [|split; [|split; reflexivity]].
  - apply NoDup_Permutation; [repeat constructor; cbn; intuition discriminate|repeat constructor; cbn; intuition discriminate|]. intros x. cbn. tauto.
  - cbn. repeat split; intros y H; decompose [or] H; try contradiction; subst y; cbn; lia.
Qed.
(** With two rules of a symbol, which one is found depends on the sort. *)
Theorem C55_unique_refuted : exists rules s1 s2 : list (nat * nat), Permutation rules s1 /\ Permutation rules s2 /\ ordered s1 /\ ordered s2 /\ search nat s1 7 <> search nat s2 7.
Proof.
  exists [(7, 1); (7, 2)], [(7, 1); (7, 2)], [(7, 2); (7, 1)]. split; [apply Permutation_refl|]. split; [apply perm_swap|].
  split; [cbn; repeat split; intros y H; decompose [or] H; try contradiction; subst y; cbn; lia|].
  split; [cbn; repeat split; intros y H; decompose [or] H; try contradiction; subst y; cbn; lia|]. vm_compute. discriminate.
Qed.
Print Assumptions C55_unique_refuted.
