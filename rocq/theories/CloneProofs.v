From Coq Require Import List PeanoNat Bool Lia.
From Verif Require Import CloneModel CloneSpec.
Import ListNotations.

(** Induction that goes below options. *)
Fixpoint item_ind' (P : item -> Prop)
  (H0 : forall a, P (IZero a)) (H1 : forall a, P (ISym a)) (H2 : forall a, P (ITerm a)) (H3 : forall a s r, P (INon a s r)) (H4 : forall a s, P (IInl a s))
  (H5 : forall a i, P i -> P (IPlus a i)) (H6 : forall a i, P i -> P (IStar a i)) (H7 : forall a c, P (IAct a None c)) (H8 : forall a i c, P i -> P (IAct a (Some i) c))
  (H9 : forall a l r, P l -> P r -> P (IAlt a l r)) (H10 : forall a l r, P l -> P r -> P (ICons a l r)) (H11 : forall a i s d c, P i -> P (IEvolve a i s d c))
  (H12 : forall a t, P t -> P (ITry a t None)) (H13 : forall a t c, P t -> P c -> P (ITry a t (Some c))) (H14 : forall a i d, P i -> P (IAnn a i d))
  (H15 : forall a i c, P i -> P (ICond a i c)) (H16 : forall a, P (IOper a)) (i : item) {struct i} : P i :=
  let R := item_ind' P H0 H1 H2 H3 H4 H5 H6 H7 H8 H9 H10 H11 H12 H13 H14 H15 H16 in
  match i with
  | IZero a => H0 a | ISym a => H1 a | ITerm a => H2 a | INon a s r => H3 a s r | IInl a s => H4 a s
  | IPlus a j => H5 a j (R j) | IStar a j => H6 a j (R j) | IAct a None c => H7 a c | IAct a (Some j) c => H8 a j c (R j)
  | IAlt a l r => H9 a l r (R l) (R r) | ICons a l r => H10 a l r (R l) (R r) | IEvolve a j s d c => H11 a j s d c (R j)
  | ITry a t None => H12 a t (R t) | ITry a t (Some c) => H13 a t c (R t) (R c) | IAnn a j d => H14 a j d (R j) | ICond a j c => H15 a j c (R j) | IOper a => H16 a
  end.

Lemma star_ext (P Q : list nat -> Prop) w : (forall v, P v -> Q v) -> star P w -> star Q w.
Proof. intros H. induction 1; [constructor|constructor; auto]. Qed.

Lemma NoDup_app_iff' (a b : list nat) : NoDup a -> NoDup b -> (forall x, In x a -> In x b -> False) -> NoDup (a ++ b).
Proof.
  induction 1 as [|x a N _ IH]; intros B D; [exact B|]. cbn [app]. constructor.
  - intros I. apply in_app_or in I. destruct I as [I|I]; [exact (N I)|exact (D x (or_introl eq_refl) I)].
  - apply IH; [exact B|]. intros y I J. exact (D y (or_intror I) J).
Qed.
(** The copy: same words, a copy if there are no conditions, new addresses. *)
Definition good (i j : item) (n m : nat) : Prop :=
  n <= m /\ (forall sym oper w, words sym oper j w <-> words sym oper i w) /\ (no_condition i = true -> copy i j) /\ no_condition j = true /\
  (forall a, In a (own j) -> n <= a < m) /\ NoDup (own j).
Lemma visit_good i : no_bare_code i = true -> forall t n, exists j m, visit i {| temps := t; fresh := n |} = Some {| temps := j :: t; fresh := m |} /\ good i j n m.
Proof.
  induction i as [a|a|a|a s r|a s|a i IH|a i IH|a c|a i c IH|a l r IHl IHr|a l r IHl IHr|a i s d c IH|a t0 IH|a t0 c IHl IHr|a i d IH|a i c IH|a] using item_ind'; intros B t n; cbn [visit no_bare_code] in *;
    try discriminate; try (apply andb_true_iff in B; destruct B as [B1 B2]).
  - exists (IZero a), n. split; [reflexivity|]. unfold good. cbn. repeat split; try tauto; try lia; constructor.
  - exists (ISym a), n. split; [reflexivity|]. unfold good. cbn. repeat split; try tauto; try lia; constructor.
  - exists (ITerm a), n. split; [reflexivity|]. unfold good. cbn. repeat split; try tauto; try lia; constructor.
  - exists (INon n s r), (S n). split; [reflexivity|]. unfold good. cbn. repeat split; try tauto; try lia; try (constructor; auto; fail). constructor; [auto|constructor].
  - exists (IInl n s), (S n). split; [reflexivity|]. unfold good. cbn. repeat split; try tauto; try lia; try (constructor; auto; fail). constructor; [auto|constructor].
  - destruct (IH B t n) as (j & m & E & G1 & G2 & G3 & G4 & G5 & G6). rewrite E. exists (IPlus m j), (S m). split; [reflexivity|]. unfold good. cbn [words no_condition own].
    split; [lia|]. split; [intros sym oper w; split; intros (x & y & E1 & W1 & W2); exists x, y; (split; [exact E1|split; [apply G2; exact W1|eapply star_ext; [|exact W2]; intros v; apply G2]])|].
    split; [intros C; constructor; auto|]. split; [exact G4|]. split; [intros b [<- | I]; [lia|apply G5 in I; lia]|]. constructor; [intros I; apply G5 in I; lia|exact G6].
  - destruct (IH B t n) as (j & m & E & G1 & G2 & G3 & G4 & G5 & G6). rewrite E. exists (IStar m j), (S m). split; [reflexivity|]. unfold good. cbn [words no_condition own].
    split; [lia|]. split; [intros sym oper w; split; intros W; (eapply star_ext; [|exact W]); intros v; apply G2|].
    split; [intros C; constructor; auto|]. split; [exact G4|]. split; [intros b [<- | I]; [lia|apply G5 in I; lia]|]. constructor; [intros I; apply G5 in I; lia|exact G6].
  - destruct (IH B t n) as (j & m & E & G1 & G2 & G3 & G4 & G5 & G6). rewrite E. exists (IAct m (Some j) c), (S m). split; [reflexivity|]. unfold good. cbn [words no_condition own].
    split; [lia|]. split; [exact G2|].
    split; [intros C; constructor; auto|]. split; [exact G4|]. split; [intros b [<- | I]; [lia|apply G5 in I; lia]|]. constructor; [intros I; apply G5 in I; lia|exact G6].
  - destruct (IHl B1 t n) as (j & m & E & G1 & G2 & G3 & G4 & G5 & G6). rewrite E. cbn [pop]. destruct (IHr B2 t m) as (j' & m' & E' & H1 & H2 & H3 & H4 & H5 & H6). rewrite E'.
    exists (IAlt m' j j'), (S m'). split; [reflexivity|]. unfold good. cbn [words no_condition own]. split; [lia|]. split; [intros sym oper w; rewrite G2, H2; tauto|].
    split; [intros C; apply andb_true_iff in C; destruct C; constructor; auto|]. split; [rewrite G4, H4; reflexivity|].
    split; [intros b [<- | I]; [lia|apply in_app_or in I; destruct I as [I|I]; [apply G5 in I|apply H5 in I]; lia]|].
    constructor; [intros I; apply in_app_or in I; destruct I as [I|I]; [apply G5 in I|apply H5 in I]; lia|]. apply NoDup_app_iff'; auto. intros x I J. apply G5 in I. apply H5 in J. lia.
  - destruct (IHl B1 t n) as (j & m & E & G1 & G2 & G3 & G4 & G5 & G6). rewrite E. cbn [pop]. destruct (IHr B2 t m) as (j' & m' & E' & H1 & H2 & H3 & H4 & H5 & H6). rewrite E'.
    exists (ICons m' j j'), (S m'). split; [reflexivity|]. unfold good. cbn [words no_condition own]. split; [lia|].
    split; [intros sym oper w; split; intros (x & y & E1 & W1 & W2); exists x, y; (split; [exact E1|split; [apply G2; exact W1|apply H2; exact W2]])|].
    split; [intros C; apply andb_true_iff in C; destruct C; constructor; auto|]. split; [rewrite G4, H4; reflexivity|].
    split; [intros b [<- | I]; [lia|apply in_app_or in I; destruct I as [I|I]; [apply G5 in I|apply H5 in I]; lia]|].
    constructor; [intros I; apply in_app_or in I; destruct I as [I|I]; [apply G5 in I|apply H5 in I]; lia|]. apply NoDup_app_iff'; auto. intros x I J. apply G5 in I. apply H5 in J. lia.
  - destruct (IH B t n) as (j & m & E & G1 & G2 & G3 & G4 & G5 & G6). rewrite E. exists (IEvolve m j s d c), (S m). split; [reflexivity|]. unfold good. cbn [words no_condition own].
    split; [lia|]. split; [exact G2|].
    split; [intros C; constructor; auto|]. split; [exact G4|]. split; [intros b [<- | I]; [lia|apply G5 in I; lia]|]. constructor; [intros I; apply G5 in I; lia|exact G6].
  - destruct (IH B t n) as (j & m & E & G1 & G2 & G3 & G4 & G5 & G6). rewrite E. exists (ITry m j None), (S m). split; [reflexivity|]. unfold good. cbn [words no_condition own].
    split; [lia|]. split; [exact G2|].
    split; [intros C; constructor; auto|]. split; [exact G4|]. split; [intros b [<- | I]; [lia|apply G5 in I; lia]|]. constructor; [intros I; apply G5 in I; lia|exact G6].
  - destruct (IHl B1 t n) as (j & m & E & G1 & G2 & G3 & G4 & G5 & G6). rewrite E. cbn [pop]. destruct (IHr B2 t m) as (j' & m' & E' & H1 & H2 & H3 & H4 & H5 & H6). rewrite E'.
    exists (ITry m' j (Some j')), (S m'). split; [reflexivity|]. unfold good. cbn [words no_condition own]. split; [lia|]. split; [intros sym oper w; rewrite G2, H2; tauto|].
    split; [intros C; apply andb_true_iff in C; destruct C; constructor; auto|]. split; [rewrite G4, H4; reflexivity|].
    split; [intros b [<- | I]; [lia|apply in_app_or in I; destruct I as [I|I]; [apply G5 in I|apply H5 in I]; lia]|].
    constructor; [intros I; apply in_app_or in I; destruct I as [I|I]; [apply G5 in I|apply H5 in I]; lia|]. apply NoDup_app_iff'; auto. intros x I J. apply G5 in I. apply H5 in J. lia.
  - destruct (IH B t n) as (j & m & E & G1 & G2 & G3 & G4 & G5 & G6). rewrite E. exists (IAnn m j d), (S m). split; [reflexivity|]. unfold good. cbn [words no_condition own].
    split; [lia|]. split; [exact G2|].
    split; [intros C; constructor; auto|]. split; [exact G4|]. split; [intros b [<- | I]; [lia|apply G5 in I; lia]|]. constructor; [intros I; apply G5 in I; lia|exact G6].
  - destruct (IH B t n) as (j & m & E & G1 & G2 & G3 & G4 & G5 & G6). exists j, m. split; [exact E|]. unfold good. cbn [words no_condition own].
    split; [exact G1|]. split; [exact G2|]. split; [discriminate|]. auto.
  - exists (IOper a), n. split; [reflexivity|]. unfold good. cbn. repeat split; try tauto; try lia; constructor.
Qed.
Lemma visit_bare i : no_bare_code i = false -> forall n, visit i {| temps := []; fresh := n |} = None.
Proof.
  induction i as [a|a|a|a s r|a s|a i IH|a i IH|a c|a i c IH|a l r IHl IHr|a l r IHl IHr|a i s d c IH|a t0 IH|a t0 c IHl IHr|a i d IH|a i c IH|a] using item_ind'; intros B n; cbn [visit no_bare_code] in *;
    try discriminate; try (rewrite IH by exact B; reflexivity).
  - reflexivity.
  - destruct (no_bare_code l) eqn:BL; [|rewrite IHl by reflexivity; reflexivity]. destruct (visit_good l BL [] n) as (j & m & E & _). rewrite E. cbn [pop]. rewrite IHr by exact B. reflexivity.
  - destruct (no_bare_code l) eqn:BL; [|rewrite IHl by reflexivity; reflexivity]. destruct (visit_good l BL [] n) as (j & m & E & _). rewrite E. cbn [pop]. rewrite IHr by exact B. reflexivity.
  - destruct (no_bare_code t0) eqn:BL; [|rewrite IHl by reflexivity; reflexivity]. destruct (visit_good t0 BL [] n) as (j & m & E & _). rewrite E. cbn [pop]. rewrite IHr by exact B. reflexivity.
Qed.
