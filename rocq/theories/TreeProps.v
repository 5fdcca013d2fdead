(** The ASTs of ordinary rules: property C73. *)
From Coq Require Import List Bool PeanoNat Lia.
From Verif Require Import Base GrammarModel GrammarSpec GrammarProofs FirstProofs ParserModel ParserSpec ParserProofs ParserKeepProofs CheckerModel CompleteSpec CompleteProofs CheckerProofs
  TreeModel TreeSpec TreeProofs TreeUniqueProofs ParserProps.
Import ListNotations.

(** The functions with stores and those of ParserModel do the same. *)
Theorem C73_same_parse : forall g first follow tok cond decl f s, no_operators g ->
  (forall st, (exists vs, tparse g first follow tok cond decl f s = TDone (st, vs)) <-> parse g first follow tok cond f s = Done st) /\
  (forall st, (exists vs, tparse g first follow tok cond decl f s = TFail (st, vs)) <-> parse g first follow tok cond f s = Fail st).
Proof.
  assert (X : forall o, (forall st, (exists vs, o = TDone (st, vs)) <-> strip o = Done st) /\ (forall st, (exists vs, o = TFail (st, vs)) <-> strip o = Fail st)).
  { intros o. destruct o as [[st vs]|[st vs]| |]; cbn [strip fst]; split; intros st'; (split; [intros (ws & E); try discriminate; injection E as -> _; reflexivity|intros E; try discriminate; injection E as ->; eauto]). }
  intros g first follow tok cond decl f s NO. unfold parse. rewrite <- (trun_run g first follow tok cond decl NO f s false (Rules (env g s)) (start_state tok) [] I). apply X.
Qed.
Print Assumptions C73_same_parse.

(** The node of an accepted text is the tree of one of its derivations: it covers
    the tokens, and its variables hold the annotated pieces. *)
Theorem C73_tree_partial : forall g first follow tok cond decl f s ts,
  no_operators g -> no_recovery g -> inlined_can_go g tok decl -> plain_attempts g ->
  tparse g first follow tok cond decl f s = TDone ts -> tree_of g tok decl s 0 (pidx (fst ts) - 1) (root s ts).
Proof.
  intros g first follow tok cond decl f s [st vs] NO NR IG PA E. unfold tparse in E.
  destruct (trun_sound g first follow tok cond decl NR IG PA f s false _ _ _ _ _ E) as (_ & _ & cs & W & C).
  - split; [cbn; lia|reflexivity].
  - destruct (C (env_rules g s)) as (e & b & I & K & M). exists e, b, cs, vs. split; [exact I|]. split; [exact K|]. split; [exact M|]. split; [reflexivity|].
    intros x. rewrite W. apply lookup_content.
Qed.
Print Assumptions C73_tree_partial.

(** Under the conditions of C70 the parser makes a tree of every sentence, and it
    is the only one. *)
Theorem C73_exact_partial : forall g rounds fuel first follow w s e i decl,
  well_formed g = true -> code_has_company g -> no_operators g -> no_recovery g -> inlined_can_go g (stream g w) decl -> plain_attempts g -> loops_not_empty g ->
  compute_first g rounds fuel = Some first -> compute_follow g rounds fuel first = Some follow ->
  no_error g first = true -> no_conflict g first follow = true -> careful g first follow = true ->
  In e (grules g) -> kind g e = NEvolve i s -> In s (gstart g) -> derives g s w -> forall cond, (forall k, cond k = true) ->
  exists f ts, tparse g first follow (stream g w) cond decl f s = TDone ts /\ tree_of g (stream g w) decl s 0 (length w) (root s ts) /\
    forall v, tree_of g (stream g w) decl s 0 (length w) v -> alike v (root s ts).
Proof.
  intros g rounds fuel first follow w s e i decl WF CO NO NR IG PA LO EF EO NER NC OK He Ke Is D cond COND.
  assert (TOP : operators_on_top g) by (split; [intros n m b ops x _ K; destruct (NO m b ops x K)|split; [intros n s0 e0 i0 b ops x _ _ _; apply NO|intros m b ops x K; destruct (NO m b ops x K)]]).
  destruct (accepts g first follow WF rounds fuel w s e i CO TOP EF EO NER NC OK He Ke Is D cond COND) as (f & st & P & P1 & _).
  destruct (proj2 (proj1 (C73_same_parse g first follow (stream g w) cond decl f s NO) st) P) as (vs & T).
  pose proof (C73_tree_partial g first follow (stream g w) cond decl f s (st, vs) NO NR IG PA T) as TR. cbn [fst] in TR. rewrite P1 in TR. replace (S (length w) - 1) with (length w) in TR by lia.
  exists f, (st, vs). split; [exact T|]. split; [exact TR|]. intros v (e1 & b1 & cs1 & vs1 & I1 & K1 & M1 & -> & V1).
  destruct TR as (e2 & b2 & cs2 & vs2 & I2 & K2 & M2 & R & V2). unfold root in R |- *. cbn [fst snd] in R |- *. injection R as R1 <-. rewrite R1. constructor. intros x. rewrite V1, V2.
  destruct (known g first follow WF rounds fuel CO TOP EF EO NER NC OK) as (OP & FC & EC & OC & AL & FA & FR & FS).
  pose proof (rule_sym g WF e i s Ke) as KS. pose proof (o_start g e i s He Ke Is) as O0.
  destruct (matches_derives g w decl WF b1 _ _ _ M1) as [_ D1]. destruct (matches_derives g w decl WF b2 _ _ _ M2) as [_ D2].
  pose proof (rule_unique g first follow WF FC EC FR OK s e1 b1 e2 b2 _ KS I1 I2 K1 K2 D1 D2). subst e2. rewrite K1 in K2. injection K2 as <-.
  destruct (body_ok g WF e1 b1 s I1 K1) as (Wb & B1 & B2).
  apply content_alike. apply (proj1 (one_tree g first follow w decl WF TOP FC EC OC AL FA FR FS OP OK LO s (occurs_live g follow OC s [] KS O0) NO b1 0 (length w) cs1 M1)); auto.
  rewrite skipn_all. eapply o_evolve; [exact (o_rule g s e1 b1 [] O0 KS I1 K1)|exact K1].
Qed.
Print Assumptions C73_exact_partial.

(** Spans: every node lies inside the node that holds it, and what a sequence
    holds is in the order of the text. *)
Theorem C73_nested : forall g tok decl s i j v, tree_of g tok decl s i j v -> well_nested v /\ lo v = i /\ hi v = j.
Proof.
  intros g tok decl s i j v (e & b & cs & vs & _ & _ & M & -> & V). split; [|split; reflexivity]. destruct (matches_nested g tok decl b i j cs M) as (A & B).
  constructor; [exact (order_le _ _ _ A)| |].
  - intros x. rewrite V. apply content_order. exact A.
  - intros x v H. rewrite V in H. apply B. exact (content_in x cs v H).
Qed.
Print Assumptions C73_nested.

(** ** A case
    [(#e=item SEMI)* -> start], [name=ID | #num=NUM+ -> item]. *)
Definition tsample : grammar := {|
  gnodes := [NZero; NTerm; NTerm; NTerm; NSym; NSym; NNon 5; NAnn 6; NCons 7 3; NStar 8 16 17; NEvolve 9 4;
             NAnn 1; NAnn 2; NPlus 12 18 19; NAlt 11 13; NEvolve 14 5; NCons 8 17; NAlt 0 16; NCons 12 19; NAlt 0 18; NTerm];
  gregular := 16; grules := [10; 15]; gzero := 0; gterms := [1; 2; 3]; gstart := [4]; geof := 20 |}.
Definition tdecl (n : id) : var := if Nat.eqb n 7 then (0, true) else if Nat.eqb n 11 then (1, false) else (2, true).
(** [ID ; NUM NUM ;] *)
Definition tsentence : list id := [1; 3; 2; 2; 3].
Definition tree_with (n : nat) (g : grammar) (decl : id -> var) (s : id) (w : list id) : option val :=
  match sets g with
  | Some (t, o) => match tparse g t o (stream g w) always decl n s with TDone ts => Some (root s ts) | _ => None end
  | None => None
  end.
Lemma some_inj (a b : val) : Some a = Some b -> a = b. Proof. intros E. injection E. auto. Qed.
Definition has (p : node -> bool) (g : grammar) : bool := existsb p (gnodes g).
Lemma has_not p g : has p g = false -> p NOther = false -> forall n, p (kind g n) = false.
Proof.
  intros H O n. unfold kind. destruct (Nat.lt_ge_cases n (length (gnodes g))) as [L|L]; [|rewrite nth_overflow by exact L; exact O].
  destruct (p (nth n (gnodes g) NOther)) eqn:E; [|reflexivity]. unfold has in H. assert (existsb p (gnodes g) = true); [|congruence].
  apply existsb_exists. exists (nth n (gnodes g) NOther). split; [apply nth_In; exact L|exact E].
Qed.
Definition simple_b (g : grammar) : bool := negb (has (fun k => match k with NOper _ _ _ | NTry _ _ | NInl _ | NAct None => true | _ => false end) g).
Lemma simple_ok g tok decl : simple_b g = true -> no_operators g /\ no_recovery g /\ inlined_can_go g tok decl /\ plain_attempts g.
Proof.
  unfold simple_b. intros H. apply negb_true_iff in H. pose proof (has_not _ g H eq_refl) as N. cbn beta in N.
  split; [intros n b ops x K; specialize (N n); rewrite K in N; discriminate|]. split; [intros n t K; specialize (N n); rewrite K in N; discriminate|].
  split; [intros n s K; specialize (N n); rewrite K in N; discriminate|]. exists (fun _ => False). repeat split; try contradiction. intros n t c K. specialize (N n); rewrite K in N; discriminate.
Qed.
Example C73_case : well_formed tsample = true /\ code_has_company tsample /\ no_operators tsample /\ no_recovery tsample /\
  inlined_can_go tsample (stream tsample tsentence) tdecl /\ plain_attempts tsample /\ loops_not_empty tsample /\
  (exists t o, compute_first tsample 300 1500 = Some t /\ compute_follow tsample 300 1500 t = Some o /\ no_error tsample t = true /\ no_conflict tsample t o = true /\ careful tsample t o = true) /\
  In 10 (grules tsample) /\ kind tsample 10 = NEvolve 9 4 /\ In 4 (gstart tsample) /\ derives tsample 4 tsentence /\
  tree_with 100 tsample tdecl 4 tsentence = Some (VNode 4 0 5
    [((0, true), [VNode 5 0 1 [((1, false), [VTok 0])]; VNode 5 2 4 [((2, true), [VTok 2; VTok 3]); ((2, true), [VTok 2])]]);
     ((0, true), [VNode 5 0 1 [((1, false), [VTok 0])]])]).
Proof.
  destruct (simple_ok tsample (stream tsample tsentence) tdecl eq_refl) as (A & B & C & D).
  split; [vm_compute; reflexivity|]. split; [apply no_code_company; vm_compute; reflexivity|]. split; [exact A|]. split; [exact B|]. split; [exact C|]. split; [exact D|]. split.
  { assert (KL : forall n, 21 <= n -> kind tsample n = NOther) by (intros n L; unfold kind; apply nth_overflow; exact L).
    intros n b x y K E. assert (Z : b = 8 \/ b = 12).
    { destruct (Nat.lt_ge_cases n 21) as [L|L]; [|rewrite (KL n L) in K; destruct K; discriminate]. do 21 (destruct n as [|n]; [cbn in K; destruct K as [K|K]; try discriminate; injection K as <- <- <-; auto|]). lia. }
    destruct Z as [-> | ->].
    - destruct (cons_inv tsample 8 7 3 [] eq_refl E) as (u & v & X & _ & V). apply term_inv in V; [|reflexivity]. subst v. destruct u; discriminate.
    - inversion E; subst; try discriminate. cbn in H. injection H as <-. apply term_inv in H0; [discriminate|reflexivity]. }
  split; [exact (sets_known tsample ltac:(vm_compute; reflexivity) ltac:(vm_compute; reflexivity))|]. split; [cbn; auto|]. split; [reflexivity|]. split; [cbn; auto|]. split; [|vm_compute; reflexivity].
  assert (T : forall n, kind tsample n = NTerm -> derives tsample n [n]) by (intros; apply d_term; assumption).
  assert (I1 : derives tsample 8 [1; 3]).
  { apply (d_cons tsample 8 7 3 [1] [3]); [reflexivity| |apply T; reflexivity]. apply (d_ann tsample 7 6); [reflexivity|]. apply (d_non tsample 6 5); [reflexivity|].
    apply (d_sym tsample 5 15 14); [reflexivity|cbn; auto|reflexivity|]. apply (d_altl tsample 14 11 13); [reflexivity|]. apply (d_ann tsample 11 1); [reflexivity|apply T; reflexivity]. }
  assert (I2 : derives tsample 8 [2; 2; 3]).
  { apply (d_cons tsample 8 7 3 [2; 2] [3]); [reflexivity| |apply T; reflexivity]. apply (d_ann tsample 7 6); [reflexivity|]. apply (d_non tsample 6 5); [reflexivity|].
    apply (d_sym tsample 5 15 14); [reflexivity|cbn; auto|reflexivity|]. apply (d_altr tsample 14 11 13); [reflexivity|].
    apply (d_plus tsample 13 12 18 19 [2] [2]); [reflexivity| |apply (d_plus1 tsample 13 12 18 19); [reflexivity|]]; (apply (d_ann tsample 12 2); [reflexivity|apply T; reflexivity]). }
  apply (d_sym tsample 4 10 9); [reflexivity|cbn; auto|reflexivity|]. apply (d_star tsample 9 8 16 17 [1; 3] [2; 2; 3]); [reflexivity|exact I1|].
  apply (d_star tsample 9 8 16 17 [2; 2; 3] []); [reflexivity|exact I2|]. eapply d_star0. reflexivity.
Qed.

(** ** Attempts are not undone
    [try/rollback(#x=A B) catch(#x=A C) -> start]: for [A C] the only tree has one
    element in [xSequence]; the parser leaves the one of the failed attempt there
    and adds another. *)
Definition tattempt : grammar := {|
  gnodes := [NZero; NTerm; NTerm; NTerm; NSym; NAnn 1; NCons 5 2; NAnn 1; NCons 7 3; NTry 6 (Some 8); NEvolve 9 4; NTerm];
  gregular := 11; grules := [10]; gzero := 0; gterms := [1; 2; 3]; gstart := [4]; geof := 11 |}.
Theorem C73_rollback_refuted : exists g w s decl t o f ts,
  well_formed g = true /\ compute_first g 300 1500 = Some t /\ compute_follow g 300 1500 t = Some o /\ no_error g t = true /\ no_conflict g t o = true /\
  no_operators g /\ no_recovery g /\ inlined_can_go g (stream g w) decl /\ tparse g t o (stream g w) always decl f s = TDone ts /\
  pidx (fst ts) = S (length w) /\ root s ts = VNode s 0 2 [((0, true), [VTok 0; VTok 0]); ((0, true), [VTok 0])] /\
  ~ tree_of g (stream g w) decl s 0 (length w) (root s ts).
Proof.
  pose (decl := fun _ : id => (0, true)).
  assert (R : tree_with 100 tattempt decl 4 [1; 3] = Some (VNode 4 0 2 [((0, true), [VTok 0; VTok 0]); ((0, true), [VTok 0])]) /\ silent tattempt = true) by (vm_compute; split; reflexivity).
  destruct R as [R SI]. unfold tree_with in R. unfold silent in SI. destruct (sets tattempt) as [[t o]|] eqn:S0; [|discriminate R]. apply sets_first in S0. destruct S0 as [S1 S2]. apply andb_true_iff in SI.
  destruct (tparse tattempt t o (stream tattempt [1; 3]) always decl 100 4) as [ts|ts| |] eqn:T; [|discriminate R..]. apply some_inj in R.
  exists tattempt, [1; 3], 4, decl, t, o, 100, ts.
  assert (P : pidx (fst ts) = 3) by (unfold root in R; injection R as R _; revert R; clear; intros; lia).
  split; [vm_compute; reflexivity|]. split; [exact S1|]. split; [exact S2|]. split; [exact (proj1 SI)|]. split; [exact (proj2 SI)|].
  pose proof (has_not (fun k => match k with NOper _ _ _ | NTry _ None | NInl _ => true | _ => false end) tattempt eq_refl eq_refl) as N. cbn beta in N.
  split; [intros n b ops x K; specialize (N n); rewrite K in N; discriminate|]. split; [intros n k K; specialize (N n); rewrite K in N; discriminate|].
  split; [intros n k K; specialize (N n); rewrite K in N; discriminate|]. split; [exact T|]. split; [exact P|]. split; [exact R|].
  intros TR. destruct (C73_nested _ _ _ _ _ _ _ TR) as (NE & _). rewrite R in NE. inversion NE as [|? ? ? ? _ O _]; subst. specialize (O (0, true)). cbn in O. lia.
Qed.
Print Assumptions C73_rollback_refuted.
