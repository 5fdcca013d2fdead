(** Shared helpers: the option monad used for "defined outcome or fault". *)
From Coq Require Import List ZArith NArith Lia Bool.
Import ListNotations.

Definition obind {A B} (x : option A) (f : A -> option B) : option B :=
  match x with Some a => f a | None => None end.

Notation "'do' x <- e ; f" := (obind e (fun x => f))
  (at level 200, x pattern, e at level 100, f at level 200, right associativity).

(** qint64 range. *)
Definition int64_max : Z := 9223372036854775807%Z.
Definition int64_min : Z := (-9223372036854775808)%Z.

Fixpoint replace {A} (l : list A) (i : nat) (v : A) : option (list A) :=
  match l, i with
  | [], _ => None
  | _ :: t, O => Some (v :: t)
  | h :: t, S j => do t' <- replace t j v; Some (h :: t')
  end.

Lemma replace_spec {A} : forall (l : list A) i v,
  i < length l ->
  exists l', replace l i v = Some l' /\ length l' = length l /\
    (forall j, nth_error l' j = if Nat.eqb j i then Some v else nth_error l j).
Proof.
  induction l as [|h t IH]; intros i v Hi; simpl in Hi; [lia|].
  destruct i as [|i]; simpl.
  - exists (v :: t). split; [reflexivity|]. split; [reflexivity|].
    intros [|j]; reflexivity.
  - destruct (IH i v) as (t' & E & L & N); [lia|].
    rewrite E. simpl. exists (h :: t'). split; [reflexivity|].
    split; [simpl; congruence|].
    intros [|j]; simpl; [reflexivity|apply N].
Qed.

Lemma replace_none {A} : forall (l : list A) i v,
  length l <= i -> replace l i v = None.
Proof.
  induction l as [|h t IH]; intros i v Hi; simpl in *; [reflexivity|].
  destruct i; [lia|]. simpl. rewrite IH; [reflexivity|lia].
Qed.
