(** What silence of the checks says, and the acceptance of all sentences. *)
From Coq Require Import List Bool PeanoNat Lia.
From Verif Require Import Base GrammarModel GrammarSpec GrammarProofs FirstProofs FollowProofs GrammarLoopProofs ParserModel ParserSpec ParserProofs CheckerModel CompleteSpec CompleteProofs.
Import ListNotations.

Lemma also_nil a b : also a b = Warn [] -> a = Warn [] /\ b = Warn [].
Proof. destruct a as [x| |]; cbn; try discriminate. destruct b as [y| |]; try discriminate. intros E. injection E as E. apply app_eq_nil in E. destruct E as [-> ->]. auto. Qed.
Lemma fold_also l : forall a, fold_left also l a = Warn [] -> a = Warn [] /\ forall b, In b l -> b = Warn [].
Proof.
  induction l as [|x l IH]; intros a E; [split; [exact E|intros b []]|]. cbn [fold_left] in E. destruct (IH _ E) as [A B]. destruct (also_nil _ _ A) as [-> ->].
  split; [reflexivity|]. intros b [<-|I]; auto.
Qed.
Lemma warn_if_nil c n : warn_if c n = Warn [] -> c = false.
Proof. destruct c; [discriminate|reflexivity]. Qed.

Section G.
Variable g : grammar.
Variables first follow : table.
Notation kind := (kind g).
Notation written := (written g).
Hypothesis WF : well_formed g = true.

Lemma meet_none a b x : meet g a b = false -> kind x = NTerm -> a x = true -> b x = false.
Proof.
  unfold meet. intros M K A. destruct (b x) eqn:B; [|reflexivity].
  assert (existsb (fun x => a x && b x) (seq 0 (size g)) = true); [|congruence].
  apply existsb_exists. exists x. rewrite A, B. split; [apply in_seq; pose proof (kind_lt g x); rewrite K in H; specialize (H ltac:(discriminate)); lia|reflexivity].
Qed.
Lemma says_at c e : says g c = true -> In e (grules g) -> c e = Warn [].
Proof. unfold says. rewrite forallb_forall. intros H I. specialize (H e I). destruct (c e) as [[|]| |]; congruence. Qed.

(** Everything written was looked at, but for the operands of operators. *)
Lemma ff_all : says g (first_first g first (depth g)) = true -> (forall n b ops x, kind n = NOper b ops x -> exists s, kind b = NNon s) ->
  forall n, written n -> (exists f, first_first g first f n = Warn []) \/ exists s, kind n = NNon s.
Proof.
  intros SA OP n W. induction W as [e He|n m W IH C].
  - left. exists (depth g). exact (says_at _ e SA He).
  - destruct IH as [[f E]|[s K]]; [|unfold child in C; rewrite K in C; destruct C].
    destruct f as [|f]; [discriminate|]. cbn [first_first] in E. unfold child in C.
    destruct (kind n) as [| | |s|s|i c a|i c a|[i|]|l r|l r|i s|tt [c|]|i|i|bb ops x|] eqn:K; try (destruct C; fail);
      try (subst m; left; exists f; exact E).
    + apply also_nil in E. destruct E as [E _]. apply also_nil in E. left. exists f. destruct C as [-> | ->]; apply E.
    + apply also_nil in E. left. exists f. destruct C as [-> | ->]; apply E.
    + subst m. left. exists f. apply fold_also in E. exact (proj1 E).
    + apply also_nil in E. left. exists f. destruct C as [-> | ->]; apply E.
    + subst m. right. exact (OP n bb ops x K).
Qed.
Lemma fo_all : says g (first_follow g first follow (depth g)) = true -> (forall n b ops x, kind n = NOper b ops x -> exists s, kind b = NNon s) ->
  forall n, written n -> (exists f, first_follow g first follow f n = Warn []) \/ exists s, kind n = NNon s.
Proof.
  intros SA OP n W. induction W as [e He|n m W IH C].
  - left. exists (depth g). exact (says_at _ e SA He).
  - destruct IH as [[f E]|[s K]]; [|unfold child in C; rewrite K in C; destruct C].
    destruct f as [|f]; [discriminate|]. cbn [first_follow] in E. unfold child in C.
    destruct (kind n) as [| | |s|s|i c a|i c a|[i|]|l r|l r|i s|tt [c|]|i|i|bb ops x|] eqn:K; try (destruct C; fail);
      try (subst m; left; exists f; exact E);
      try (apply also_nil in E; destruct E as [E _]; subst m; left; exists f; exact E).
    + apply also_nil in E. destruct E as [E _]. apply also_nil in E. left. exists f. destruct C as [-> | ->]; apply E.
    + apply also_nil in E. destruct E as [E _]. apply also_nil in E. left. exists f. destruct C as [-> | ->]; apply E.
    + apply also_nil in E. left. exists f. destruct C as [-> | ->]; apply E.
    + subst m. right. exact (OP n bb ops x K).
Qed.
Lemma careful_oper : careful g first follow = true -> forall n b ops x, kind n = NOper b ops x -> exists s, kind b = NNon s.
Proof.
  intros OK n b ops x K. assert (KN : kind n <> NOther) by congruence.
  pose proof (shaped g WF n KN) as SH. unfold shape in SH. destruct (inside g n) eqn:I; rewrite K in SH; [|discriminate].
  unfold careful in OK. apply andb_true_iff in OK. destruct OK as [O _]. rewrite forallb_forall in O. specialize (O n).
  unfold inside in I. apply Nat.ltb_lt in I. rewrite in_seq in O. specialize (O ltac:(lia)). unfold item_ok in O. rewrite K in O.
  unfold operator_ok in O. repeat rewrite andb_true_iff in O. destruct O as [[[[[[[[B _] _] _] _] _] _] _] _]. destruct (kind b); try discriminate. eauto.
Qed.

(** EmptyOperatorChecker misses no operand that can be empty. *)
Lemma base_eps b s : kind b = NNon s -> kind s = NSym -> eps g first b = eps g first s.
Proof.
  intros K KS. unfold eps. destruct (size g) as [|k] eqn:SZ; [pose proof (kind_lt g b); rewrite K, SZ in H; specialize (H ltac:(discriminate)); lia|].
  cbn [eps_visit]. change (mem b []) with false. change (mem s []) with false. cbv iota. rewrite K, KS.
  unfold mem, existsb. destruct (Nat.eqb_spec s b); [congruence|]. reflexivity.
Qed.
Lemma operands_checked rounds fuel : code_has_company g -> operators_on_top g -> compute_first g rounds fuel = Some first ->
  says g (empty_operator g first) = true -> operands_not_empty g.
Proof.
  intros CO (_ & _ & TOP) EF SA. destruct (first_loop_some g _ _ _ _ EF) as [G Q]. apply (OPERANDS g WF first Q G CO).
  intros n b ops x K D E. destruct (TOP n b ops x K) as (e & s & He & Ke). pose proof (says_at _ e SA He) as C. unfold empty_operator in C. rewrite Ke, K in C.
  apply warn_if_nil in C. unfold base_symbol in C. destruct (kind b) as [| | |s'|?|? ? ?|? ? ?|?|? ?|? ?|? ?|? ?|?|?|? ? ?|] eqn:Kb; try congruence.
  rewrite (base_eps b s' Kb (sym_of g WF b s' (or_introl Kb))) in E. congruence.
Qed.

(** What the tables of an accepted grammar know. *)
Definition knows : Prop := operands_not_empty g /\
  (forall n x w, kind n = NSym \/ written n -> derives g n (x :: w) -> first n x = true) /\
  (forall n, derives g n [] -> (forall i s, kind n <> NEvolve i s) -> eps g first n = true) /\
  (forall n w, occurs g n w -> kind (next g w) = NTerm /\ (kind n <> NTerm -> kind n <> NZero -> follow n (next g w) = true)) /\
  (forall n l r x, written n -> kind n = NAlt l r -> kind x = NTerm -> first l x = true \/ first r x = true -> first n x = true) /\
  (forall n l r x, written n -> kind n = NAlt l r -> kind x = NTerm -> first l x = true -> first r x = false) /\
  (forall s e e' x, In e (env g s) -> In e' (env g s) -> e <> e' -> kind x = NTerm -> first e x = true -> first e' x = false) /\
  (forall n i c a x, written n -> kind n = NStar i c a -> kind x = NTerm -> first n x = true -> follow n x = false).
Lemma known rounds fuel : code_has_company g -> operators_on_top g ->
  compute_first g rounds fuel = Some first -> compute_follow g rounds fuel first = Some follow ->
  no_error g first = true -> no_conflict g first follow = true -> careful g first follow = true -> knows.
Proof.
  intros CO TOP EF EO NER NC OK.
  assert (OP : operands_not_empty g) by (unfold no_error in NER; repeat rewrite andb_true_iff in NER; apply (operands_checked rounds fuel); tauto). destruct (first_loop_some g _ _ _ _ EF) as [G Q]. destruct (follow_loop_some g first _ _ _ _ EO) as [G' Q'].
  unfold no_conflict in NC. apply andb_true_iff in NC. destruct NC as [NC1 NC2]. pose proof (careful_oper OK) as CB.
  assert (FC : forall n x w, kind n = NSym \/ written n -> derives g n (x :: w) -> first n x = true).
  { intros n x v N DN. apply (first_complete g WF first Q G CO (noticed g first OP) n (x :: v) DN x v eq_refl). destruct N as [N|N]; [auto|right; apply (written_met g WF n N)]. }
  assert (EC : forall n, derives g n [] -> (forall i s, kind n <> NEvolve i s) -> eps g first n = true) by (intros n DN KN; apply (eps_of_null g WF first Q G CO (noticed g first OP) n DN KN)).
  assert (OC : forall n w, occurs g n w -> kind (next g w) = NTerm /\ (kind n <> NTerm -> kind n <> NZero -> follow n (next g w) = true)).
  { intros n v O. destruct (follow_complete g WF first follow Q' Q G G' CO OP n v O) as [_ [KM KN]]. split; [exact KM|].
    intros K1 K2. apply KN. unfold plain, is_zero, is_term. destruct (kind n); try reflexivity; congruence. }
  assert (AL : forall n l r x, written n -> kind n = NAlt l r -> kind x = NTerm -> first l x = true \/ first r x = true -> first n x = true).
  { intros n l r x W K KX H. apply (alt_either g first Q n l r x (written_met g WF n W) (or_introl K) KX H). }
  assert (FA : forall n l r x, written n -> kind n = NAlt l r -> kind x = NTerm -> first l x = true -> first r x = false).
  { intros n l r x W K KX. destruct (ff_all NC2 CB n W) as [[f E]|[s' K']]; [|congruence]. destruct f as [|f]; [discriminate|]. cbn [first_first] in E. rewrite K in E.
    apply also_nil in E. destruct E as [_ E]. apply warn_if_nil in E. exact (meet_none _ _ x E KX). }
  assert (FR : forall s e e' x, In e (env g s) -> In e' (env g s) -> e <> e' -> kind x = NTerm -> first e x = true -> first e' x = false).
  { intros s' a b x Ia Ib NE KX FX. destruct (env_rules g s' b Ib) as [Hb Rb]. unfold rule_of in Rb.
    pose proof (says_at _ b NC2 Hb) as E. unfold depth in E. cbn [first_first] in E. destruct (kind b) as [| | |?|?|? ? ?|? ? ?|?|? ?|? ?|ib sb|? ?|?|?|? ? ?|] eqn:K; try discriminate.
    apply Nat.eqb_eq in Rb. subst sb. apply fold_also in E. destruct E as [_ E].
    specialize (E (warn_if (negb (Nat.eqb b a) && meet g (first a) (first b)) b)). rewrite in_map_iff in E. specialize (E ltac:(exists a; auto)). apply warn_if_nil in E.
    destruct (Nat.eqb_spec b a); [congruence|]. cbn in E. exact (meet_none _ _ x E KX FX). }
  assert (FS : forall n i c a x, written n -> kind n = NStar i c a -> kind x = NTerm -> first n x = true -> follow n x = false).
  { intros n j c a x W K KX. destruct (fo_all NC1 CB n W) as [[f E]|[s' K']]; [|congruence]. destruct f as [|f]; [discriminate|]. cbn [first_follow] in E. rewrite K in E.
    apply also_nil in E. destruct E as [_ E]. apply warn_if_nil in E. exact (meet_none _ _ x E KX). }
  exact (conj OP (conj FC (conj EC (conj OC (conj AL (conj FA (conj FR FS))))))).
Qed.
Lemma accepts rounds fuel w s e i : code_has_company g -> operators_on_top g ->
  compute_first g rounds fuel = Some first -> compute_follow g rounds fuel first = Some follow ->
  no_error g first = true -> no_conflict g first follow = true -> careful g first follow = true ->
  In e (grules g) -> kind e = NEvolve i s -> In s (gstart g) -> derives g s w ->
  forall cond, (forall k, cond k = true) ->
  exists f st, parse g first follow (stream g w) cond f s = Done st /\ pidx st = S (length w) /\ ptok st = geof g.
Proof.
  intros CO TOP EF EO NER NC OK He Ke Is D cond COND.
  destruct (known rounds fuel CO TOP EF EO NER NC OK) as (OP & FC & EC & OC & AL & FA & FR & FS).
  assert (KS : kind s = NSym) by (exact (rule_sym g WF e i s Ke)).
  destruct (complete g first follow w cond WF TOP COND FC EC OC AL FA FR FS OP OK s w D) as (_ & [RS _] & _).
  destruct (RS KS false [] (start_state (stream g w)) (o_start g e i s He Ke Is)) as (f & st & E & (A1 & A2 & A3)).
  - reflexivity.
  - rewrite app_nil_r. split; [cbn; lia|]. split; [reflexivity|]. cbn. destruct w; reflexivity.
  - exists f, st. split; [exact E|]. split; [|exact A3].
    cbn in A1. lia.
Qed.
End G.
