(** The nodes made from a grammar file: they have the shape that the rest of the model asks
    for, and they describe the language of the file. *)
From Coq Require Import List Ascii String Bool PeanoNat Lia.
From Verif Require Import FlexModel GramModel GramSpec LangSpec.
From Verif Require Import GraphModel GrammarModel GrammarSpec.
Import ListNotations.
Open Scope list_scope.

Notation len := List.length.

Section G.
Variable g : grammar.
Variable tid sid : text -> option id.
Variable base : nat.
Notation kind := (GrammarModel.kind g).
Notation sym := (sym_id sid).
Notation place := (place tid sid).
Definition sits (n : nat) (l : list node) : Prop := forall k x, nth_error l k = Some x -> kind (n + k) = x.
Lemma sits_app n a b : sits n (a ++ b) -> sits n a /\ sits (n + len a) b.
Proof.
  intros H. split; intros k x E.
  - apply H. rewrite nth_error_app1; [exact E |]. apply nth_error_Some. rewrite E. discriminate.
  - replace (n + len a + k) with (n + (len a + k)) by lia. apply H. rewrite nth_error_app2 by lia.
    replace (len a + k - len a) with k by lia. exact E.
Qed.
Lemma sits_cons n x l : sits n (x :: l) -> kind n = x /\ sits (S n) l.
Proof.
  intros H. split; [rewrite <- (Nat.add_0_r n); apply H; reflexivity |]. intros k y E. replace (S n + k) with (n + S k) by lia. apply H. exact E.
Qed.

Hypothesis Z0 : gzero g = 0.
Hypothesis Zk : kind 0 = NZero.
Hypothesis Zb : 0 < base.
Hypothesis Br : base <= gregular g.
Hypothesis HT : forall x t, tid x = Some t -> kind t = NTerm /\ mem t (gterms g) = true /\ t < base.
Hypothesis HS : forall x s, sid x = Some s -> kind s = NSym /\ s < base.

(** Items all of whose tokens are declared and whose symbols are known; no rules and
    operators inside. *)
Fixpoint known (i : GramModel.item) : Prop :=
  match i with
  | IZero | ICode _ => True
  | ITerminal x _ => exists t, tid x = Some t
  | INonTerminal s _ | IInline s => exists n, sid s = Some n
  | GramModel.IPlus j | GramModel.IStar j | IAction j _ | ITryRecover j | IAnnotation _ _ _ j | ICondition _ j => known j
  | IAlternative j l | ICons j l | ITryRollback j l => known j /\ known l
  | IOperator _ _ _ | IEvolve _ _ _ _ | IBad => False
  end.
Definition known_operator (o : operators) : Prop :=
  match o with
  | Pre a _ | Post a _ _ | Bin a _ _ => exists t, tid (tok_name a) = Some t
  | Tern a b _ _ | Paren a b => (exists t, tid (tok_name a) = Some t) /\ (exists t, tid (tok_name b) = Some t)
  end.
Definition known_rule (i : GramModel.item) : Prop :=
  match i with
  | IEvolve (IOperator _ b l) s _ _ => Forall known_operator (by_kind l) /\ (exists n, sid b = Some n) /\ (exists n, sid s = Some n)
  | IEvolve j s _ _ => known j /\ (exists n, sid s = Some n)
  | _ => False
  end.

(** [rep i n]: node [n] is item [i]. *)
Definition rep_op (o : operators) (p : op) : Prop :=
  match o with
  | Pre a _ => exists t, tid (tok_name a) = Some t /\ p = OPre t
  | Post a _ _ => exists t, tid (tok_name a) = Some t /\ p = OPost t
  | Bin a _ _ => exists t, tid (tok_name a) = Some t /\ p = OBin t
  | Tern a b _ _ => exists t u, tid (tok_name a) = Some t /\ tid (tok_name b) = Some u /\ p = OTern t u
  | Paren a b => exists t u, tid (tok_name a) = Some t /\ tid (tok_name b) = Some u /\ p = OParen t u
  end.
Fixpoint rep (i : GramModel.item) (n : id) : Prop :=
  match i with
  | IZero => n = 0
  | ITerminal x _ => tid x = Some n
  | INonTerminal s _ => kind n = NNon (sym s)
  | IInline s => kind n = NInl (sym s)
  | GramModel.IPlus j => exists k c a, kind n = NPlus k c a /\ rep j k
  | GramModel.IStar j => exists k c a, kind n = NStar k c a /\ rep j k
  | IAction j _ => exists k, kind n = NAct (Some k) /\ rep j k
  | ICode _ => kind n = NAct None
  | IAlternative j l => exists a b, kind n = NAlt a b /\ rep j a /\ rep l b
  | ICons j l => exists a b, kind n = NCons a b /\ rep j a /\ rep l b
  | ITryRecover j => exists k, kind n = NTry k None /\ rep j k
  | ITryRollback j l => exists a b, kind n = NTry a (Some b) /\ rep j a /\ rep l b
  | IAnnotation _ _ _ j => exists k, kind n = NAnn k /\ rep j k
  | ICondition _ j => exists k, kind n = NCond k /\ rep j k
  | IOperator _ b l => exists m os x, kind n = NOper m os x /\ kind m = NNon (sym b) /\ Forall2 rep_op (by_kind l) os
  | IEvolve j s _ _ => exists k, kind n = NEvolve k (sym s) /\ rep j k
  | IBad => False
  end.

Lemma inside_lt n : n < gregular g -> inside g n = true.
Proof. intros L. apply Nat.ltb_lt. exact L. Qed.
Lemma outside_le n : gregular g <= n -> n < size g -> outside g n = true.
Proof. intros L M. unfold outside. apply andb_true_iff. split; [apply Nat.leb_le; exact L | apply Nat.ltb_lt; exact M]. Qed.
Lemma below_ok m n : m < n -> is_item g m = true -> below g m n = true.
Proof. intros L I. unfold below. apply andb_true_iff. split; [apply Nat.ltb_lt; exact L | exact I]. Qed.
Lemma sym_ok x : (exists n, sid x = Some n) -> is_sym g (sym x) = true.
Proof.
  intros [n E]. unfold sym_id. rewrite E. destruct (HS x n E) as [K L]. unfold is_sym. rewrite K. rewrite inside_lt by lia. reflexivity.
Qed.

(** What [place] gives. *)
Definition placed_ok (i : GramModel.item) (n o : nat) (p : placed) : Prop :=
  rep i (pid p) /\ pid p < n + len (pin p) /\ is_item g (pid p) = true /\
  (forall k, n <= k < n + len (pin p) -> shape g k = true) /\ (forall k, o <= k < o + len (pout p) -> shape g k = true).

Lemma one_ok (f : id -> node) i j n o p q :
  placed_ok j n o p -> q = Placed (pin p ++ [f (pid p)]) (pout p) (n + len (pin p)) ->
  sits n (pin q) -> n + len (pin q) <= gregular g ->
  (forall k, kind (n + len (pin p)) = f k -> rep j k -> rep i (n + len (pin p))) ->
  (forall k m, kind m = f k -> is_item g m = true) ->
  (forall k m, kind m = f k -> m < gregular g -> shape g m = below g k m) ->
  placed_ok i n o q.
Proof.
  intros (R1 & L1 & I1 & S1 & S2) -> St B HR HI HSh. cbn [pin pout pid] in *. destruct (sits_app _ _ _ St) as [_ St2]. destruct (sits_cons _ _ _ St2) as [K _].
  rewrite app_length in B. cbn [len] in B.
  unfold placed_ok. cbn [pin pout pid]. split; [eapply HR; eauto |]. rewrite app_length. cbn [len]. split; [cbn [pid]; lia |]. split; [eapply HI; eauto |]. split; [| exact S2].
  intros k Lk. destruct (Nat.eq_dec k (n + len (pin p))) as [-> | N]; [| apply S1; lia].
  rewrite (HSh _ _ K) by lia. apply below_ok; [lia | exact I1].
Qed.
Lemma two_ok (f : id -> id -> node) i j l n o p1 p2 q :
  placed_ok j n o p1 -> placed_ok l (n + len (pin p1)) (o + len (pout p1)) p2 ->
  q = Placed (pin p1 ++ pin p2 ++ [f (pid p1) (pid p2)]) (pout p1 ++ pout p2) (n + len (pin p1) + len (pin p2)) ->
  sits n (pin q) -> n + len (pin q) <= gregular g ->
  (forall a b, kind (n + len (pin p1) + len (pin p2)) = f a b -> rep j a -> rep l b -> rep i (n + len (pin p1) + len (pin p2))) ->
  (forall a b m, kind m = f a b -> is_item g m = true) ->
  (forall a b m, kind m = f a b -> m < gregular g -> shape g m = below g a m && below g b m) ->
  placed_ok i n o q.
Proof.
  intros (R1 & L1 & I1 & S1 & S2) (R3 & L3 & I3 & S3 & S4) -> St B HR HI HSh. cbn [pin pout pid] in *.
  destruct (sits_app _ _ _ St) as [_ St2]. destruct (sits_app _ _ _ St2) as [_ St3]. destruct (sits_cons _ _ _ St3) as [K _].
  rewrite !app_length in B. cbn [len] in B.
  unfold placed_ok. cbn [pin pout pid]. split; [eapply HR; eauto |]. rewrite !app_length. cbn [len]. split; [cbn [pid]; lia |]. split; [eapply HI; eauto |]. split.
  - intros k Lk. destruct (Nat.lt_ge_cases k (n + len (pin p1))) as [N | N]; [apply S1; lia |].
    destruct (Nat.lt_ge_cases k (n + len (pin p1) + len (pin p2))) as [M | M]; [apply S3; lia |].
    replace k with (n + len (pin p1) + len (pin p2)) by lia. rewrite (HSh _ _ _ K) by lia. rewrite !below_ok; auto; lia.
  - intros k Lk. destruct (Nat.lt_ge_cases k (o + len (pout p1))) as [N | N]; [apply S2; lia | apply S4; lia].
Qed.
Lemma loop_ok (f : id -> id -> id -> node) i j n o p q :
  placed_ok j n o p ->
  q = Placed (pin p ++ [f (pid p) (o + len (pout p)) (S (o + len (pout p)))])
        (pout p ++ [NCons (pid p) (S (o + len (pout p))); NAlt 0 (o + len (pout p))]) (n + len (pin p)) ->
  sits n (pin q) -> sits o (pout q) -> gregular g <= o -> base <= n -> n + len (pin q) <= gregular g -> o + len (pout q) <= size g ->
  (forall k c a, kind (n + len (pin p)) = f k c a -> rep j k -> rep i (n + len (pin p))) ->
  (forall k c a m, kind m = f k c a -> is_item g m = true) ->
  (forall k c a m, kind m = f k c a -> m < gregular g ->
     shape g m = below g k m && outside g c && outside g a && is_cons g c k a && is_alt g a (gzero g) c) ->
  placed_ok i n o q.
Proof.
  intros (R1 & L1 & I1 & S1 & S2) -> St Su Go Bn B C HR HI HSh. cbn [pin pout pid] in *.
  destruct (sits_app _ _ _ St) as [_ St2]. destruct (sits_cons _ _ _ St2) as [K _].
  destruct (sits_app _ _ _ Su) as [_ Su2]. destruct (sits_cons _ _ _ Su2) as [Kc Su3]. destruct (sits_cons _ _ _ Su3) as [Ka _].
  rewrite app_length in B, C. cbn [len] in B, C. remember (o + len (pout p)) as cc eqn:Ec.
  assert (Oc : outside g cc = true) by (apply outside_le; lia). assert (Oa : outside g (S cc) = true) by (apply outside_le; lia).
  unfold placed_ok. cbn [pin pout pid]. split; [eapply HR; eauto |]. rewrite !app_length. cbn [len]. split; [cbn [pid]; lia |]. split; [eapply HI; eauto |]. split.
  - intros k Lk. destruct (Nat.lt_ge_cases k (n + len (pin p))) as [N | N]; [apply S1; lia |].
    replace k with (n + len (pin p)) by lia. rewrite (HSh _ _ _ _ K) by lia. rewrite Oc, Oa, Z0. rewrite below_ok by (auto; lia). unfold is_cons, is_alt. rewrite Kc, Ka, !Nat.eqb_refl. reflexivity.
  - intros k Lk. destruct (Nat.lt_ge_cases k cc) as [N | N]; [apply S2; lia |].
    assert (NI : forall m, gregular g <= m -> inside g m = false) by (intros m Lm; apply Nat.ltb_ge; exact Lm).
    assert (IZ : is_item g 0 = true) by (unfold is_item; rewrite Zk; reflexivity).
    destruct (Nat.eq_dec k cc) as [-> | M].
    + unfold shape. rewrite NI by lia. rewrite Kc. rewrite !below_ok; auto; [lia | unfold is_item; rewrite Ka; reflexivity | lia].
    + replace k with (S cc) by lia. unfold shape. rewrite NI by lia. rewrite Ka. rewrite !below_ok; auto; [lia | unfold is_item; rewrite Kc; reflexivity | lia].
Qed.

Lemma place_token_declared x n : (exists t, tid x = Some t) -> exists t, place_token tid x n = ([], t) /\ tid x = Some t.
Proof. intros [t E]. exists t. unfold place_token. rewrite E. auto. Qed.

Lemma place_ok : forall i, known i -> forall n o, base <= n -> gregular g <= o ->
  sits n (pin (place i n o)) -> sits o (pout (place i n o)) -> n + len (pin (place i n o)) <= gregular g -> o + len (pout (place i n o)) <= size g ->
  placed_ok i n o (place i n o).
Proof.
  assert (Ap : forall a b : list node, len a <= len (a ++ b)) by (intros; rewrite app_length; lia).
  assert (ISH : forall m, m < gregular g -> shape g m = match kind m with
    | NZero => Nat.eqb m (gzero g) | NTerm => mem m (gterms g) | NSym | NOther => true | NNon s | NInl s => is_sym g s
    | NPlus i c a | NStar i c a => below g i m && outside g c && outside g a && is_cons g c i a && is_alt g a (gzero g) c
    | NAct None => true | NAct (Some i) | NAnn i | NCond i | NTry i None => below g i m
    | NAlt l r | NCons l r | NTry l (Some r) => below g l m && below g r m
    | NEvolve i s => below g i m && is_sym g s | NOper b ops x => below g b m && chain g x x b ops end).
  { intros m L. unfold shape. rewrite inside_lt by exact L. reflexivity. }
  induction i as [|x d|s a|s|j IH|j IH|j IH c|c|j IHj l IHl|j IHj l IHl|j IH|j IHj l IHl|x sq m j IH|c j IH|nm b l|j IH s ds c|]; cbn [known]; intros Kn n o Bn Go St Su B C; cbn [GraphModel.place] in *;
    try match type of Kn with _ /\ _ => destruct Kn as [K1 K2] end.
  - unfold placed_ok. cbn [pin pout pid len rep]. split; [reflexivity |]. split; [lia |]. split; [unfold is_item; rewrite Zk; reflexivity |]. split; intros k L; lia.
  - destruct (place_token_declared x n Kn) as (t & -> & E). cbn [fst snd] in *. destruct (HT x t E) as (K & M & L).
    unfold placed_ok. cbn [pin pout pid len rep]. split; [exact E |]. split; [lia |]. split; [unfold is_item; rewrite K; exact M |]. split; intros k Lk; lia.
  - cbn [pin pout pid] in *. destruct (sits_cons _ _ _ St) as [K _]. unfold placed_ok. cbn [pin pout pid len rep] in *. split; [exact K |]. split; [lia |]. split; [unfold is_item; rewrite K; reflexivity |].
    split; intros k Lk; [| lia]. replace k with n by lia. rewrite ISH by lia. rewrite K. apply sym_ok. exact Kn.
  - cbn [pin pout pid] in *. destruct (sits_cons _ _ _ St) as [K _]. unfold placed_ok. cbn [pin pout pid len rep] in *. split; [exact K |]. split; [lia |]. split; [unfold is_item; rewrite K; reflexivity |].
    split; intros k Lk; [| lia]. replace k with n by lia. rewrite ISH by lia. rewrite K. apply sym_ok. exact Kn.
  - cbn [pin pout] in *. destruct (sits_app _ _ _ St) as [St1 _]. destruct (sits_app _ _ _ Su) as [Su1 _]. pose proof (Ap (pin (place j n o))). pose proof (Ap (pout (place j n o))).
    eapply loop_ok with (f := NPlus) (j := j) (p := place j n o); try reflexivity; cbn [pin pout]; auto; try (rewrite ?app_length in *; cbn [len] in *; lia).
    + apply IH; auto; rewrite ?app_length in *; cbn [len] in *; lia.
    + intros k cc aa E R. cbn [rep]. eauto.
    + intros k cc aa m E. unfold is_item. rewrite E. reflexivity.
    + intros k cc aa m E L. rewrite ISH by exact L. rewrite E. reflexivity.
  - cbn [pin pout] in *. destruct (sits_app _ _ _ St) as [St1 _]. destruct (sits_app _ _ _ Su) as [Su1 _].
    eapply loop_ok with (f := NStar) (j := j) (p := place j n o); try reflexivity; cbn [pin pout]; auto; try (rewrite ?app_length in *; cbn [len] in *; lia).
    + apply IH; auto; rewrite ?app_length in *; cbn [len] in *; lia.
    + intros k cc aa E R. cbn [rep]. eauto.
    + intros k cc aa m E. unfold is_item. rewrite E. reflexivity.
    + intros k cc aa m E L. rewrite ISH by exact L. rewrite E. reflexivity.
  - cbn [pin pout] in *. destruct (sits_app _ _ _ St) as [St1 _].
    eapply one_ok with (f := fun k => NAct (Some k)) (j := j) (p := place j n o); try reflexivity; cbn [pin pout]; auto; try (rewrite ?app_length in *; cbn [len] in *; lia).
    + apply IH; auto; rewrite ?app_length in *; cbn [len] in *; lia.
    + intros k E R. cbn [rep]. eauto.
    + intros k m E. unfold is_item. rewrite E. reflexivity.
    + intros k m E L. rewrite ISH by exact L. rewrite E. reflexivity.
  - cbn [pin pout pid] in *. destruct (sits_cons _ _ _ St) as [K _]. unfold placed_ok. cbn [pin pout pid len rep] in *. split; [exact K |]. split; [lia |]. split; [unfold is_item; rewrite K; reflexivity |].
    split; intros k Lk; [| lia]. replace k with n by lia. rewrite ISH by lia. rewrite K. reflexivity.
  - cbn [pin pout] in *. destruct (sits_app _ _ _ St) as [St1 St2]. destruct (sits_app _ _ _ St2) as [St3 _]. destruct (sits_app _ _ _ Su) as [Su1 Su2].
    eapply two_ok with (f := NAlt) (j := j) (l := l); try reflexivity; cbn [pin pout]; auto; try (rewrite ?app_length in *; cbn [len] in *; lia).
    + apply IHj; auto; rewrite ?app_length in *; cbn [len] in *; lia.
    + apply IHl; auto; rewrite ?app_length in *; cbn [len] in *; lia.
    + intros a b E Ra Rb. cbn [rep]. eauto 6.
    + intros a b m E. unfold is_item. rewrite E. reflexivity.
    + intros a b m E L. rewrite ISH by exact L. rewrite E. reflexivity.
  - cbn [pin pout] in *. destruct (sits_app _ _ _ St) as [St1 St2]. destruct (sits_app _ _ _ St2) as [St3 _]. destruct (sits_app _ _ _ Su) as [Su1 Su2].
    eapply two_ok with (f := NCons) (j := j) (l := l); try reflexivity; cbn [pin pout]; auto; try (rewrite ?app_length in *; cbn [len] in *; lia).
    + apply IHj; auto; rewrite ?app_length in *; cbn [len] in *; lia.
    + apply IHl; auto; rewrite ?app_length in *; cbn [len] in *; lia.
    + intros a b E Ra Rb. cbn [rep]. eauto 6.
    + intros a b m E. unfold is_item. rewrite E. reflexivity.
    + intros a b m E L. rewrite ISH by exact L. rewrite E. reflexivity.
  - cbn [pin pout] in *. destruct (sits_app _ _ _ St) as [St1 _].
    eapply one_ok with (f := fun k => NTry k None) (j := j) (p := place j n o); try reflexivity; cbn [pin pout]; auto; try (rewrite ?app_length in *; cbn [len] in *; lia).
    + apply IH; auto; rewrite ?app_length in *; cbn [len] in *; lia.
    + intros k E R. cbn [rep]. eauto.
    + intros k m E. unfold is_item. rewrite E. reflexivity.
    + intros k m E L. rewrite ISH by exact L. rewrite E. reflexivity.
  - cbn [pin pout] in *. destruct (sits_app _ _ _ St) as [St1 St2]. destruct (sits_app _ _ _ St2) as [St3 _]. destruct (sits_app _ _ _ Su) as [Su1 Su2].
    eapply two_ok with (f := fun a b => NTry a (Some b)) (j := j) (l := l); try reflexivity; cbn [pin pout]; auto; try (rewrite ?app_length in *; cbn [len] in *; lia).
    + apply IHj; auto; rewrite ?app_length in *; cbn [len] in *; lia.
    + apply IHl; auto; rewrite ?app_length in *; cbn [len] in *; lia.
    + intros a b E Ra Rb. cbn [rep]. eauto 6.
    + intros a b m E. unfold is_item. rewrite E. reflexivity.
    + intros a b m E L. rewrite ISH by exact L. rewrite E. reflexivity.
  - cbn [pin pout] in *. destruct (sits_app _ _ _ St) as [St1 _].
    eapply one_ok with (f := NAnn) (j := j) (p := place j n o); try reflexivity; cbn [pin pout]; auto; try (rewrite ?app_length in *; cbn [len] in *; lia).
    + apply IH; auto; rewrite ?app_length in *; cbn [len] in *; lia.
    + intros k E R. cbn [rep]. eauto.
    + intros k m0 E. unfold is_item. rewrite E. reflexivity.
    + intros k m0 E L. rewrite ISH by exact L. rewrite E. reflexivity.
  - cbn [pin pout] in *. destruct (sits_app _ _ _ St) as [St1 _].
    eapply one_ok with (f := NCond) (j := j) (p := place j n o); try reflexivity; cbn [pin pout]; auto; try (rewrite ?app_length in *; cbn [len] in *; lia).
    + apply IH; auto; rewrite ?app_length in *; cbn [len] in *; lia.
    + intros k E R. cbn [rep]. eauto.
    + intros k m E. unfold is_item. rewrite E. reflexivity.
    + intros k m E L. rewrite ISH by exact L. rewrite E. reflexivity.
  - destruct Kn.
  - destruct Kn.
  - destruct Kn.
Qed.

(** Operators. *)
Lemma place_operators_known : forall l n, Forall known_operator l -> exists os, place_operators tid l n = ([], os) /\ Forall2 rep_op l os.
Proof.
  induction l as [|o l IH]; intros n F; [exists []; split; [reflexivity | constructor] |].
  pose proof (Forall_inv F) as Ko. pose proof (Forall_inv_tail F) as Fl. cbn [place_operators].
  assert (H : exists p, place_operator tid o n = ([], p) /\ rep_op o p).
  { destruct o; cbn [known_operator] in Ko; unfold place_operator;
      [destruct (place_token_declared _ n Ko) as (t & -> & E); cbn [fst snd]; eexists; split; [reflexivity | exists t; auto]
      |
      |destruct (place_token_declared _ n Ko) as (t & -> & E); cbn [fst snd]; eexists; split; [reflexivity | exists t; auto]
      |destruct (place_token_declared _ n Ko) as (t & -> & E); cbn [fst snd]; eexists; split; [reflexivity | exists t; auto]
      |];
      destruct Ko as [K1 K2];
      destruct (place_token_declared _ n K1) as (t & -> & E); cbn [fst snd List.length]; destruct (place_token_declared _ (n + 0) K2) as (u & -> & E'); cbn [fst snd app]; (eexists; split; [reflexivity | exists t, u; auto]). }
  destruct H as (p & -> & R). cbn [fst snd List.length app]. destruct (IH (n + 0) Fl) as (os & -> & R2). cbn [fst snd]. exists (p :: os). auto.
Qed.
Definition tok_ok (t : id) : Prop := is_tok g t = true /\ is_item g t = true /\ t < gregular g.
Definition op_ok (p : op) : Prop :=
  match p with OPre t | OPost t | OBin t => tok_ok t | OTern t u | OParen t u => tok_ok t /\ tok_ok u end.
Lemma tid_ok x t : tid x = Some t -> tok_ok t.
Proof.
  intros E. destruct (HT x t E) as (K & M & L). unfold tok_ok. split; [unfold is_tok, is_term; rewrite K, inside_lt by lia; reflexivity |].
  split; [unfold is_item; rewrite K; exact M | lia].
Qed.
Lemma rep_op_ok o p : rep_op o p -> op_ok p.
Proof.
  destruct o; cbn [rep_op]; intros H.
  1,3,4: destruct H as (t & E & ->); cbn [op_ok]; eapply tid_ok; exact E.
  1-2: destruct H as (t & u & E & E' & ->); cbn [op_ok]; split; eapply tid_ok; eassumption.
Qed.
Lemma reps_ok l os : Forall2 rep_op l os -> Forall op_ok os.
Proof. intros R. induction R as [|x y l1 l2 H R IH]; constructor; auto. eapply rep_op_ok. exact H. Qed.
Lemma chain_ok : forall os top b o, Forall op_ok os -> sits o (chain_nodes top b os o) -> gregular g <= o -> o + len (chain_nodes top b os o) <= size g ->
  b < gregular g -> is_item g b = true -> top <= o -> (os <> [] -> top < o -> is_item g top = true) ->
  chain g top (match os with [] => b | _ => o end) b os = true /\ (forall k, o <= k < o + len (chain_nodes top b os o) -> shape g k = true).
Proof.
  assert (Sz : forall k, k < gregular g -> gregular g <= size g -> k < size g) by (intros; lia).
  assert (NI : forall m, gregular g <= m -> inside g m = false) by (intros m Lm; apply Nat.ltb_ge; exact Lm).
  assert (SC : forall m l r, gregular g <= m -> kind m = NCons l r -> l < size g -> r < size g -> is_item g l = true -> is_item g r = true -> shape g m = true).
  { intros m l r Lm K Ll Lr Il Ir. unfold shape. rewrite NI by exact Lm. rewrite K. rewrite !below_ok; auto. }
  assert (IC : forall m l r, kind m = NCons l r -> is_item g m = true) by (intros m l r K; unfold is_item; rewrite K; reflexivity).
  assert (CC : forall m l r, kind m = NCons l r -> is_cons g m l r = true) by (intros m l r K; unfold is_cons; rewrite K, !Nat.eqb_refl; reflexivity).
  assert (AF : forall a b, a < b -> gregular g <= b -> b < size g -> after g a b = true).
  { intros a b L1 L2 L3. unfold after. rewrite outside_le by auto. apply Nat.ltb_lt in L1. rewrite L1. reflexivity. }
  induction os as [|p os IH]; intros top b o F St Go Sg Lb Ib Lt It.
  - cbn [chain]. split; [apply Nat.eqb_refl |]. cbn [chain_nodes len]. intros; lia.
  - pose proof (Forall_inv F) as Op. pose proof (Forall_inv_tail F) as Fo. cbn [chain_nodes] in St, Sg |- *. destruct (sits_cons _ _ _ St) as [K0 St1]. destruct (sits_app _ _ _ St1) as [Sc Sr].
    cbn [len] in Sg |- *. rewrite app_length in Sg |- *. set (nx := S o + len (spell top p (S o))) in *.
    assert (Itop : is_item g top = true). { destruct (Nat.eq_dec top o) as [-> | N]; [unfold is_item; rewrite K0; reflexivity | apply It; [discriminate | lia]]. }
    assert (Hs : (forall k, S o <= k < nx -> shape g k = true) /\ spells g top (S o) p = true /\ (Nat.ltb (S o) nx && Nat.ltb (right_of g (S o)) nx = true) /\ is_item g (S o) = true /\ nx <= size g).
    { destruct p as [t|t|t|t u|t u]; cbn [spell len op_ok] in *; unfold nx in *.
      - destruct (sits_cons _ _ _ Sc) as [K1 _]. destruct Op as (T & I & L). split; [intros k Lk; replace k with (S o) by lia; eapply SC; eauto; lia |].
        split; [cbn [spells]; rewrite T; cbn [andb]; apply CC; exact K1 |]. split; [unfold right_of; rewrite K1; apply andb_true_iff; split; apply Nat.ltb_lt; lia |]. split; [eapply IC; exact K1 | lia].
      - destruct (sits_cons _ _ _ Sc) as [K1 _]. destruct Op as (T & I & L). split; [intros k Lk; replace k with (S o) by lia; eapply SC; eauto; lia |].
        split; [cbn [spells]; rewrite T; cbn [andb]; apply CC; exact K1 |]. split; [unfold right_of; rewrite K1; apply andb_true_iff; split; apply Nat.ltb_lt; lia |]. split; [eapply IC; exact K1 | lia].
      - destruct (sits_cons _ _ _ Sc) as [K1 Sc2]. destruct (sits_cons _ _ _ Sc2) as [K2 _]. destruct Op as (T & I & L). split.
        { intros k Lk. destruct (Nat.eq_dec k (S o)) as [-> | N]; [eapply SC; eauto; lia |]. replace k with (S (S o)) by lia. eapply SC; eauto; lia. }
        split; [cbn [spells]; rewrite T, K1, Nat.eqb_refl, AF by lia; cbn [andb]; apply CC; exact K2 |]. split; [unfold right_of; rewrite K1; apply andb_true_iff; split; apply Nat.ltb_lt; lia |]. split; [eapply IC; exact K1 | lia].
      - destruct (sits_cons _ _ _ Sc) as [K1 Sc2]. destruct (sits_cons _ _ _ Sc2) as [K2 Sc3]. destruct (sits_cons _ _ _ Sc3) as [K3 Sc4]. destruct (sits_cons _ _ _ Sc4) as [K4 _]. destruct Op as ((T & I & L) & (T' & I' & L')). split.
        { intros k Lk. destruct (Nat.eq_dec k (S o)) as [-> | N]; [eapply SC; eauto; lia |]. destruct (Nat.eq_dec k (S (S o))) as [-> | N2]; [eapply SC; eauto; lia |].
          destruct (Nat.eq_dec k (S (S (S o)))) as [-> | N3]; [eapply SC; eauto; lia |]. replace k with (S (S (S (S o)))) by lia. eapply SC; eauto; lia. }
        split; [cbn [spells]; rewrite T, T', K1, Nat.eqb_refl, AF by lia; cbn [andb]; rewrite K2, Nat.eqb_refl, outside_le by lia; cbn [andb]; rewrite K3, Nat.eqb_refl, outside_le by lia; cbn [andb]; apply CC; exact K4 |].
        split; [unfold right_of; rewrite K1; apply andb_true_iff; split; apply Nat.ltb_lt; lia |]. split; [eapply IC; exact K1 | lia].
      - destruct (sits_cons _ _ _ Sc) as [K1 Sc2]. destruct (sits_cons _ _ _ Sc2) as [K2 _]. destruct Op as ((T & I & L) & (T' & I' & L')). split.
        { intros k Lk. destruct (Nat.eq_dec k (S o)) as [-> | N]; [eapply SC; eauto; lia |]. replace k with (S (S o)) by lia. eapply SC; eauto; lia. }
        split; [cbn [spells]; rewrite T, T', K1, Nat.eqb_refl, AF by lia; cbn [andb]; apply CC; exact K2 |]. split; [unfold right_of; rewrite K1; apply andb_true_iff; split; apply Nat.ltb_lt; lia |]. split; [eapply IC; exact K1 | lia]. }
    destruct Hs as (H1 & H2 & H3 & H4 & H5).
    assert (LL : len (spell top p (S o)) > 0) by (destruct p; cbn [spell len]; lia).
    destruct (IH top b nx Fo Sr ltac:(unfold nx; lia) ltac:(unfold nx in *; lia) Lb Ib ltac:(unfold nx; lia) (fun _ _ => Itop)) as [C1 C2].
    split.
    + cbn [chain]. rewrite outside_le by lia. rewrite K0. cbn [andb]. rewrite AF by (unfold nx in *; lia). rewrite H2, C1.
      destruct os as [|p2 os]; [rewrite inside_lt by exact Lb; reflexivity | rewrite H3, orb_true_r; reflexivity].
    + intros k Lk. destruct (Nat.eq_dec k o) as [-> | N].
      * unfold shape. rewrite NI by lia. rewrite K0. rewrite below_ok; [| unfold nx in *; lia | exact H4]. cbn [andb].
        destruct os as [|p2 os]; [apply below_ok; [lia | exact Ib] |]. cbn [chain_nodes] in Sr. destruct (sits_cons _ _ _ Sr) as [Kn _].
        cbn [chain_nodes len] in Sg. apply below_ok; [unfold nx in *; lia | unfold is_item; rewrite Kn; reflexivity].
      * destruct (Nat.lt_ge_cases k nx) as [M | M]; [apply H1; lia | apply C2; unfold nx in *; lia].
Qed.

Lemma operator_ok nm b l : Forall known_operator (by_kind l) -> (exists n, sid b = Some n) -> forall n o, base <= n -> gregular g <= o ->
  let p := place (IOperator nm b l) n o in
  sits n (pin p) -> sits o (pout p) -> n + len (pin p) <= gregular g -> o + len (pout p) <= size g -> placed_ok (IOperator nm b l) n o p.
Proof.
  intros F Hb n o Bn Go p St Su B C. unfold p in *. clear p. cbn [GraphModel.place] in *. destruct (place_operators_known _ n F) as (os & E & R). rewrite E in *. cbn [fst snd app pin pout pid List.length] in *.
  rewrite Nat.add_0_r in *. destruct (sits_cons _ _ _ St) as [K1 St2]. destruct (sits_cons _ _ _ St2) as [K2 _].
  assert (In1 : is_item g n = true) by (unfold is_item; rewrite K1; reflexivity).
  pose proof (reps_ok _ _ R) as OK.
  assert (CH : chain g (match os with [] => n | _ => o end) (match os with [] => n | _ => o end) n os = true /\
    (forall k, o <= k < o + len (chain_nodes (match os with [] => n | _ => o end) n os o) -> shape g k = true)).
  { destruct os as [|p0 os]; [split; [cbn [chain]; apply Nat.eqb_refl | cbn [chain_nodes len]; intros; lia] |].
    apply (chain_ok (p0 :: os) o n o); auto; lia. }
  destruct CH as [C1 C2].
  unfold placed_ok. cbn [pin pout pid len]. split; [cbn [rep]; eauto 8 |]. split; [lia |]. split; [unfold is_item; rewrite K2; reflexivity |]. split; [| exact C2].
  intros k Lk. destruct (Nat.eq_dec k n) as [-> | N].
  - unfold shape. rewrite inside_lt by lia. rewrite K1. apply sym_ok. exact Hb.
  - replace k with (S n) by lia. unfold shape. rewrite inside_lt by lia. rewrite K2. rewrite below_ok by (auto; lia). exact C1.
Qed.

(** A rule as a whole. *)
Definition rule_ok (i : GramModel.item) (n o : nat) (p : placed) : Prop :=
  rep i (pid p) /\ n <= pid p < n + len (pin p) /\ (exists k s, kind (pid p) = NEvolve k s) /\
  (forall k, n <= k < n + len (pin p) -> shape g k = true) /\ (forall k, o <= k < o + len (pout p) -> shape g k = true).
Lemma rule_place_ok i : known_rule i -> forall n o, base <= n -> gregular g <= o ->
  let p := place i n o in
  sits n (pin p) -> sits o (pout p) -> n + len (pin p) <= gregular g -> o + len (pout p) <= size g -> rule_ok i n o p.
Proof.
  destruct i as [|x d|s a|s|j|j|j c|c|j l|j l|j|j l|x sq m j|c j|nm b l|j s ds c|]; intros Kn; cbn [known_rule] in Kn; try (destruct Kn; fail).
  intros n o Bn Go p St Su B C. unfold p in *. clear p. cbn [GraphModel.place pin pout pid] in *.
  destruct (sits_app _ _ _ St) as [St1 St2]. destruct (sits_cons _ _ _ St2) as [K _]. rewrite app_length in B. cbn [len] in B.
  assert (H : placed_ok j n o (place j n o) /\ exists m, sid s = Some m).
  { destruct j; try (destruct Kn as [K1 K2]; split; [apply place_ok; auto; lia | exact K2]; fail).
    destruct Kn as (K1 & K2 & K3). split; [apply operator_ok; auto; lia | exact K3]. }
  destruct H as ((R1 & L1 & I1 & S1 & S2) & Hs).
  unfold rule_ok. cbn [pin pout pid]. rewrite app_length. cbn [len]. split; [cbn [rep]; eauto |]. split; [lia |]. split; [eauto |]. split; [| exact S2].
  intros k Lk. destruct (Nat.eq_dec k (n + len (pin (place j n o)))) as [-> | N]; [| apply S1; lia].
  unfold shape. rewrite inside_lt by lia. rewrite K. rewrite below_ok by auto. apply sym_ok. exact Hs.
Qed.
Lemma rules_place_ok : forall l n o, Forall known_rule l -> base <= n -> gregular g <= o ->
  let q := place_rules tid sid l n o in
  sits n (fst (fst q)) -> sits o (snd (fst q)) -> n + len (fst (fst q)) <= gregular g -> o + len (snd (fst q)) <= size g ->
  Forall2 rep l (snd q) /\ Forall (fun e => n <= e < n + len (fst (fst q)) /\ exists k s, kind e = NEvolve k s) (snd q) /\
  (forall k, n <= k < n + len (fst (fst q)) -> shape g k = true) /\ (forall k, o <= k < o + len (snd (fst q)) -> shape g k = true).
Proof.
  induction l as [|i l IH]; intros n o F Bn Go q St Su B C; unfold q in *; clear q; cbn [place_rules fst snd] in *.
  - split; [constructor |]. split; [constructor |]. split; intros k Lk; cbn [len] in Lk; lia.
  - pose proof (Forall_inv F) as Ki. pose proof (Forall_inv_tail F) as Fl. destruct (sits_app _ _ _ St) as [St1 St2]. destruct (sits_app _ _ _ Su) as [Su1 Su2]. rewrite app_length in B, C.
    destruct (rule_place_ok i Ki n o Bn Go St1 Su1 ltac:(lia) ltac:(lia)) as (R1 & L1 & E1 & S1 & S2).
    destruct (IH (n + len (pin (place i n o))) (o + len (pout (place i n o))) Fl ltac:(lia) ltac:(lia) St2 Su2 ltac:(lia) ltac:(lia)) as (R3 & L3 & S3 & S4).
    split; [constructor; auto |]. split.
    + constructor; [split; [rewrite app_length; lia | exact E1] |]. eapply Forall_impl; [| exact L3]. cbn beta. intros e [L E]. rewrite app_length. split; [lia | exact E].
    + rewrite !app_length. split; intros k Lk.
      * destruct (Nat.lt_ge_cases k (n + len (pin (place i n o)))); [apply S1; lia | apply S3; lia].
      * destruct (Nat.lt_ge_cases k (o + len (pout (place i n o)))); [apply S2; lia | apply S4; lia].
Qed.
End G.

(** How many nodes an item needs. *)
Section L.
Variable tid sid : text -> option id.
Lemma token_len x n m : len (fst (place_token tid x n)) = len (fst (place_token tid x m)).
Proof. unfold place_token. destruct (tid x); reflexivity. Qed.
Lemma operators_len : forall l n m, len (fst (place_operators tid l n)) = len (fst (place_operators tid l m)).
Proof.
  induction l as [|o l IH]; intros n m; [reflexivity |]. cbn [place_operators fst]. rewrite !app_length.
  rewrite (IH (n + _) (m + len (fst (place_operator tid o m)))). f_equal.
  destruct o; unfold place_operator; cbn [fst]; rewrite ?app_length; auto using token_len; f_equal; apply token_len.
Qed.
Lemma place_len : forall i n o n' o', len (pin (place tid sid i n o)) = len (pin (place tid sid i n' o')).
Proof.
  induction i as [|x d|s a|s|j IH|j IH|j IH c|c|j IHj l IHl|j IHj l IHl|j IH|j IHj l IHl|x sq m j IH|c j IH|nm b l|j IH s ds c|]; intros n o n' o'; cbn [place pin]; auto; rewrite ?app_length; cbn [len]; auto using token_len.
  all: try (first [rewrite (IH n o n' o') | rewrite (operators_len (by_kind l) n n') | erewrite (IHj n o n' o'), IHl]; reflexivity).
Qed.
Lemma rules_len : forall l n o n' o', len (fst (fst (place_rules tid sid l n o))) = len (fst (fst (place_rules tid sid l n' o'))).
Proof.
  induction l as [|i l IH]; intros n o n' o'; [reflexivity |]. cbn [place_rules fst]. rewrite !app_length. erewrite (place_len i n o n' o'), IH. reflexivity.
Qed.
End L.

(** Places of names. *)
Lemma same_iff x y : same x y = true <-> x = y.
Proof. unfold same. destruct (list_eq_dec ascii_dec x y); split; congruence. Qed.
Lemma index_bounds x : forall l n k, index x l n = Some k -> n <= k < n + len l.
Proof.
  induction l as [|y l IH]; intros n k E; cbn [index len] in *; [discriminate |]. destruct (same x y).
  - injection E as <-. lia.
  - apply IH in E. lia.
Qed.
Lemma index_nth x : forall l n k, index x l n = Some k -> nth_error l (k - n) = Some x.
Proof.
  induction l as [|y l IH]; intros n k E; cbn [index] in *; [discriminate |]. destruct (same x y) eqn:Es.
  - injection E as <-. apply same_iff in Es. subst. rewrite Nat.sub_diag. reflexivity.
  - pose proof (index_bounds x l (S n) k E). replace (k - n) with (S (k - S n)) by lia. apply IH. exact E.
Qed.
Lemma index_inj x y l n k : index x l n = Some k -> index y l n = Some k -> x = y.
Proof. intros A B. apply index_nth in A. apply index_nth in B. congruence. Qed.
Lemma index_some x : forall l n, In x l <-> exists k, index x l n = Some k.
Proof.
  induction l as [|y l IH]; intros n; cbn [index In].
  - split; [intros [] | intros [k E]; discriminate].
  - destruct (same x y) eqn:Es.
    + apply same_iff in Es. subst. split; [eauto | auto].
    + rewrite <- IH. split; [intros [-> | H]; [| exact H] | auto]. exfalso. assert (same x x = true) by (apply same_iff; reflexivity). congruence.
Qed.

Section W.
Variable w : world.
Variable order : list id.
Notation g := (graph w order).
Notation T := (len (token_names w)).
Notation N := (len (symbol_names w)).
Notation rules := (rules_pushed (rev (events w))).
Hypothesis KR : Forall (known_rule (token_id w) (symbol_id w)) rules.
Hypothesis Ord : incl order (rule_ids w).

Lemma pins_len : len (fst (fst (all_placed w))) = items_to w - items_from w.
Proof. unfold items_to, all_placed. rewrite (rules_len _ _ _ _ _ (items_from w) 0). lia. Qed.
Lemma to_from : items_from w <= items_to w.
Proof. unfold items_to. lia. Qed.
Lemma plain_len : len (plain_nodes w) = items_to w + len (snd (fst (all_placed w))).
Proof. unfold plain_nodes. rewrite !app_length, !repeat_length, pins_len. pose proof to_from. unfold items_from in *. cbn [len]. lia. Qed.
Lemma graph_kind n x : nth_error (plain_nodes w) n = Some x -> kind g n = x.
Proof.
  intros E. unfold kind. cbn [gnodes graph]. apply nth_error_nth. rewrite nth_error_app1; [exact E |]. apply nth_error_Some. rewrite E. discriminate.
Qed.
Lemma kind_zero : kind g 0 = NZero.
Proof. apply graph_kind. reflexivity. Qed.
Lemma kind_tok n : 1 <= n < 1 + T -> kind g n = NTerm.
Proof.
  intros L. apply graph_kind. unfold plain_nodes. rewrite nth_error_app2 by (cbn [len]; lia). cbn [len]. rewrite nth_error_app1 by (rewrite repeat_length; lia).
  apply nth_error_repeat. lia.
Qed.
Lemma kind_sym n : 1 + T <= n < items_from w -> kind g n = NSym.
Proof.
  unfold items_from. intros L. apply graph_kind. unfold plain_nodes. rewrite nth_error_app2 by (cbn [len]; lia). cbn [len]. rewrite nth_error_app2 by (rewrite repeat_length; lia). rewrite repeat_length.
  rewrite nth_error_app1 by (rewrite repeat_length; lia). apply nth_error_repeat. lia.
Qed.
Lemma sits_in : sits g (items_from w) (fst (fst (all_placed w))).
Proof.
  intros k x E. apply graph_kind. unfold plain_nodes, items_from. rewrite nth_error_app2 by (cbn [len]; lia). rewrite nth_error_app2 by (rewrite repeat_length; cbn [len]; lia).
  rewrite nth_error_app2 by (rewrite !repeat_length; cbn [len]; lia). rewrite !repeat_length. cbn [len]. rewrite nth_error_app1.
  - replace (1 + T + N + k - 1 - T - N) with k by lia. exact E.
  - apply nth_error_Some. replace (1 + T + N + k - 1 - T - N) with k by lia. rewrite E. discriminate.
Qed.
Lemma sits_out : sits g (items_to w) (snd (fst (all_placed w))).
Proof.
  intros k x E. apply graph_kind. pose proof pins_len as P. pose proof to_from as Q. unfold plain_nodes. unfold items_from in *. rewrite nth_error_app2 by (cbn [len]; lia). rewrite nth_error_app2 by (rewrite repeat_length; cbn [len]; lia).
  rewrite nth_error_app2 by (rewrite !repeat_length; cbn [len]; lia). rewrite !repeat_length. rewrite nth_error_app2 by (cbn [len]; lia). cbn [len].
  match goal with |- nth_error _ ?a = _ => replace a with k by lia end. exact E.
Qed.
Lemma kind_eof : token_id w eof_name = None -> kind g (len (plain_nodes w)) = NTerm.
Proof.
  intros E. unfold kind. cbn [gnodes graph]. rewrite E. rewrite app_nth2 by lia. rewrite Nat.sub_diag. reflexivity.
Qed.
Lemma size_graph : size g = len (plain_nodes w) + match token_id w eof_name with Some _ => 0 | None => 1 end.
Proof. unfold size. cbn [gnodes graph]. rewrite app_length. destruct (token_id w eof_name); reflexivity. Qed.

Lemma token_ok x t : token_id w x = Some t -> kind g t = NTerm /\ mem t (gterms g) = true /\ t < items_from w.
Proof.
  intros E. apply index_bounds in E. split; [apply kind_tok; lia |]. split; [| unfold items_from; lia].
  unfold mem. apply existsb_exists. exists t. split; [cbn [gterms graph]; apply in_seq; lia | apply Nat.eqb_refl].
Qed.
Lemma symbol_ok x s : symbol_id w x = Some s -> kind g s = NSym /\ s < items_from w.
Proof. intros E. apply index_bounds in E. split; [apply kind_sym; unfold items_from; lia | unfold items_from; lia]. Qed.

Lemma graph_rules :
  Forall2 (rep g (token_id w) (symbol_id w)) rules (rule_ids w) /\
  Forall (fun e => items_from w <= e < items_to w /\ exists k s, kind g e = NEvolve k s) (rule_ids w) /\
  (forall k, items_from w <= k < items_to w -> shape g k = true) /\
  (forall k, items_to w <= k < len (plain_nodes w) -> shape g k = true).
Proof.
  pose proof pins_len as P. pose proof to_from as Q. pose proof plain_len as R. pose proof size_graph as Z.
  destruct (rules_place_ok g (token_id w) (symbol_id w) (items_from w) eq_refl kind_zero ltac:(unfold items_from; lia) to_from token_ok symbol_ok
    rules (items_from w) (items_to w) KR (le_n _) (le_n _) sits_in sits_out) as (A & B & C & D).
  - fold (all_placed w). cbn [gregular graph]. lia.
  - fold (all_placed w). lia.
  - fold (all_placed w) in *. fold (rule_ids w) in *. rewrite P in *. replace (items_from w + (items_to w - items_from w)) with (items_to w) in * by lia. rewrite <- R in D. auto.
Qed.

Lemma graph_well_formed : well_formed g = true.
Proof.
  pose proof pins_len as P. pose proof to_from as Q. pose proof plain_len as R. pose proof size_graph as Z. destruct graph_rules as (A & B & C & D).
  assert (Rg : gregular g = items_to w) by reflexivity.
  unfold well_formed. rewrite !andb_true_iff. repeat match goal with |- _ /\ _ => split end.
  - apply Nat.leb_le. rewrite Rg. lia.
  - apply Nat.ltb_lt. rewrite Rg. cbn [gzero graph]. unfold items_from in *. lia.
  - unfold is_zero. cbn [gzero graph]. fold g. rewrite kind_zero. reflexivity.
  - apply Nat.ltb_lt. rewrite Z. cbn [geof graph]. destruct (token_id w eof_name) as [t|] eqn:E; [| lia]. apply index_bounds in E. unfold items_from in *. lia.
  - unfold is_term. cbn [geof graph]. fold g. destruct (token_id w eof_name) as [t|] eqn:E; [destruct (token_ok _ _ E) as [-> _]; reflexivity | rewrite kind_eof by exact E; reflexivity].
  - apply forallb_forall. intros t I. cbn [gterms graph] in I. apply in_seq in I. apply andb_true_iff. split; [apply Nat.ltb_lt; rewrite Z; unfold items_from in *; lia |]. unfold is_term. rewrite kind_tok by lia. reflexivity.
  - apply forallb_forall. intros e I. cbn [grules graph] in I. apply Ord in I. rewrite Forall_forall in B. destruct (B e I) as (L & k & s & K). rewrite K. unfold inside. rewrite Rg. apply andb_true_iff. split; [apply Nat.ltb_lt; lia | reflexivity].
  - apply forallb_forall. intros n I. apply in_seq in I. destruct (Nat.lt_ge_cases n (items_from w)) as [L1 | L1].
    + assert (In : inside g n = true) by (apply Nat.ltb_lt; rewrite Rg; lia). unfold shape. rewrite In. destruct n as [|n]; [rewrite kind_zero; reflexivity |].
      destruct (Nat.lt_ge_cases (S n) (1 + T)) as [L2 | L2].
      * rewrite kind_tok by lia. unfold mem. apply existsb_exists. exists (S n). split; [cbn [gterms graph]; apply in_seq; lia | apply Nat.eqb_refl].
      * rewrite kind_sym by lia. reflexivity.
    + destruct (Nat.lt_ge_cases n (items_to w)) as [L2 | L2]; [apply C; lia |]. destruct (Nat.lt_ge_cases n (len (plain_nodes w))) as [L3 | L3]; [apply D; lia |].
      rewrite Z in I. destruct (token_id w eof_name) as [t|] eqn:E; [lia |]. replace n with (len (plain_nodes w)) by lia.
      unfold shape. assert (In : inside g (len (plain_nodes w)) = false) by (apply Nat.ltb_ge; rewrite Rg; lia). rewrite In, kind_eof by exact E. cbn [geof graph]. rewrite E. apply Nat.eqb_refl.
Qed.
End W.
