(** C57: copied items and the list operator. *)
From Coq Require Import List PeanoNat Bool Lia.
From Verif Require Import CloneModel CloneSpec CloneProofs.
Import ListNotations.

(** C57.  The copy of an item without bare code (code that stands alone, without an
    item in front) derives the same words, whatever the symbols derive; its nodes
    are new and pairwise different.  If the item has no conditions the copy is the
    same item node for node, with all codes, arguments and names. *)
Theorem C57_copy_partial (i : item) (n : nat) : no_bare_code i = true -> exists j m, clone i n = Some (j, m) /\
  (forall sym oper w, words sym oper j w <-> words sym oper i w) /\ (no_condition i = true -> copy i j) /\
  (forall a, In a (own j) -> n <= a < m) /\ NoDup (own j) /\ n <= m.
Proof.
  intros B. destruct (visit_good i B [] n) as (j & m & E & G1 & G2 & G3 & _ & G5 & G6). exists j, m. unfold clone. rewrite E. auto 10.
Qed.
Print Assumptions C57_copy_partial.
(** So it shares no such node with any item that existed before. *)
Theorem C57_disjoint (i k : item) (n : nat) j m : clone i n = Some (j, m) -> (forall a, In a (own k) -> a < n) -> forall a, In a (own k) -> ~ In a (own j).
Proof.
  intros E F a A B. destruct (no_bare_code i) eqn:C.
  - destruct (C57_copy_partial i n C) as (j' & m' & E' & _ & _ & G & _). rewrite E in E'. injection E' as <- <-. specialize (G a B). specialize (F a A). lia.
  - unfold clone in E. rewrite (visit_bare i C n) in E. discriminate.
Qed.
Print Assumptions C57_disjoint.
(** x @ y derives exactly the words x (y x)*: one or more x, separated by y. *)
Inductive separated (X Y : list nat -> Prop) : list nat -> Prop :=
| sep_one x : X x -> separated X Y x
| sep_more x y r : X x -> Y y -> separated X Y r -> separated X Y (x ++ y ++ r).
Lemma separated_star (X Y : list nat -> Prop) w : separated X Y w <-> exists a b, w = a ++ b /\ X a /\ star (fun w => exists a b, w = a ++ b /\ Y a /\ X b) b.
Proof.
  split.
  - induction 1 as [x H|x y r H1 H2 _ (a & b & -> & A & B)].
    + exists x, []. rewrite app_nil_r. repeat split; [exact H|constructor].
    + exists x, ((y ++ a) ++ b). split; [rewrite <- app_assoc; reflexivity|]. split; [exact H1|]. constructor; [|exact B]. exists y, a. auto.
  - intros (a & b & -> & A & B). revert a A. induction B as [|c d (y & x & -> & P & Q) B IH]; intros a A.
    + rewrite app_nil_r. constructor 1. exact A.
    + rewrite <- (app_assoc y). constructor 2; [exact A|exact P|apply IH; exact Q].
Qed.
Theorem C57_list_partial (x y : item) (n : nat) : no_bare_code x = true -> no_bare_code y = true -> exists l m, list_of x y n = Some (l, m) /\
  (forall sym oper w, words sym oper l w <-> separated (words sym oper x) (words sym oper y) w) /\
  (NoDup (own x) -> (forall a, In a (own x) -> a < n) -> NoDup (own l)).
Proof.
  intros BX BY. unfold list_of. destruct (C57_copy_partial y n BY) as (y' & m & -> & GY & _ & FY & NY & LY). destruct (C57_copy_partial x m BX) as (x' & k & -> & GX & _ & FX & NX & LX).
  eexists _, _. split; [reflexivity|]. split.
  - intros sym oper w. rewrite separated_star. cbn [words]. split; intros (a & b & -> & A & B); exists a, b; (split; [reflexivity|]); (split; [exact A|]); (eapply star_ext; [|exact B]);
      intros v (c & d & -> & C & D); exists c, d; (split; [reflexivity|]); (split; [apply GY; exact C|apply GX; exact D]).
  - intros N L. cbn [own].
    assert (N2 : NoDup (k :: own y' ++ own x')).
    { constructor; [intros I; apply in_app_or in I; destruct I as [I|I]; [apply FY in I|apply FX in I]; lia|]. apply NoDup_app_iff'; auto. intros a I J. apply FY in I. apply FX in J. lia. }
    assert (R2 : forall a, In a (k :: own y' ++ own x') -> n <= a <= k).
    { intros a [<- | I]; [lia|]. apply in_app_or in I. destruct I as [I|I]; [apply FY in I|apply FX in I]; lia. }
    constructor.
    + intros I. apply in_app_or in I. destruct I as [I|[I|I]]; [apply L in I; lia|lia|apply R2 in I; lia].
    + apply NoDup_app_iff'; [exact N| |].
      * constructor; [intros I; apply R2 in I; lia|exact N2].
      * intros a I [J|J]; apply L in I; [lia|apply R2 in J; lia].
Qed.
Print Assumptions C57_list_partial.
(** The full claims are false of the code in two ways. *)
(** 1. Conditions are dropped: the second and later items of (?[: cond :] A) @ B are
    not guarded by the condition. *)
Theorem C57_condition_refuted : exists i n j m, no_bare_code i = true /\ clone i n = Some (j, m) /\ ~ copy i j.
Proof. exists (ICond 5 (ITerm 1) 7), 10, (ITerm 1), 10. split; [reflexivity|]. split; [reflexivity|]. intros C. inversion C. Qed.
Print Assumptions C57_condition_refuted.
Theorem C57_condition_exact (i : item) n j m : clone i n = Some (j, m) -> copy i j -> no_condition i = true.
Proof.
  intros E C. destruct (no_bare_code i) eqn:B.
  - destruct (visit_good i B [] n) as (j' & m' & E' & _ & _ & _ & G & _). unfold clone in E. rewrite E' in E. injection E as <- <-. clear E'. clear B. revert G. induction C; cbn [no_condition]; intros G; auto;
      try (apply andb_true_iff in G; destruct G as [Ga Gb]; rewrite IHC1, IHC2 by assumption; reflexivity).
  - unfold clone in E. rewrite (visit_bare i B n) in E. discriminate.
Qed.
Print Assumptions C57_condition_exact.
(** 2. Bare code: the copy reads the top of an empty stack, always. *)
Theorem C57_bare_code_refuted (i : item) n : clone i n = None <-> no_bare_code i = false.
Proof.
  split; intros H.
  - destruct (no_bare_code i) eqn:B; [|reflexivity]. destruct (C57_copy_partial i n B) as (j & m & E & _). rewrite E in H. discriminate.
  - unfold clone. rewrite (visit_bare i H n). reflexivity.
Qed.
Print Assumptions C57_bare_code_refuted.

(** A @ B with a sequence, code, a name and a nested list in the parts. *)
Example C57_case : let x := ICons 10 (INon 11 3 4) (IAct 12 (Some (IAnn 13 (ITerm 5) 6)) 7) in let y := IAlt 14 (ITerm 1) (IStar 15 (ITerm 2)) in
  no_bare_code x = true /\ no_bare_code y = true /\ no_condition x = true /\
  list_of x y 20 = Some (ICons 28 x (IStar 27 (ICons 26 (IAlt 21 (ITerm 1) (IStar 20 (ITerm 2))) (ICons 25 (INon 22 3 4) (IAct 24 (Some (IAnn 23 (ITerm 5) 6)) 7)))), 29) /\
  clone (IAct 3 None 4) 9 = None.
Proof. cbn. repeat split. Qed.
