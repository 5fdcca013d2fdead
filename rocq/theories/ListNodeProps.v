(** Property theorem C11 (AST sequences). *)
From Coq Require Import List Lia Bool PeanoNat.
From Verif Require Import Base ListNodeModel ListNodeProofs.
Import ListNotations.

(** Specification: the elements a program appends to list [l], in order. *)
Definition appended_to {A} (l : nat) (ops : list (op A)) : list A :=
  flat_map (fun o => match o with Snoc l' _ e => if Nat.eqb l' l then [e] else [] end) ops.

Lemma appended_to_eq {A} l (ops : list (op A)) : appended_to l ops = appended l ops.
Proof.
  unfold appended_to.
  induction ops as [|[l' k e] r IH]; [reflexivity|].
  simpl. rewrite IH. destruct (Nat.eqb l' l); reflexivity.
Qed.

(** C11: any program of appends to any number of lists sharing one pool, each
    append through an arbitrary node of its list, ends with lists on which
    every observer (through any node n of the list) sees exactly the appended
    elements in order. *)
Theorem C11_sequence_is_list : forall (A : Type) (ops : list (op A)),
  exists hs h, run ops (fun _ => []) [] = Some (hs, h) /\
  forall l, length (hs l) = length (appended_to l ops) /\
  forall n, In n (hs l) ->
    elements h n = Some (appended_to l ops) /\
    count h n = Some (length (appended_to l ops)) /\
    (exists f, front h n = Some f /\
       option_map element (nth_error h f) = hd_error (appended_to l ops)) /\
    (forall i e, nth_error (appended_to l ops) i = Some e ->
       exists m, at_ h i n = Some m /\ option_map element (nth_error h m) = Some e) /\
    (forall k, nth_error (hs l) k = Some n ->
       hasNext h n = Some (Nat.ltb (S k) (length (appended_to l ops)))).
Proof.
  intros A ops. destruct (run_ok ops [] (fun _ => []) (fun _ => []) empty_rep)
    as (hs & h & E & (R & _)).
  exists hs, h. split; [exact E|]. intros l. specialize (R l). cbn beta in R.
  change ([] ++ appended l ops) with (appended l ops) in R. rewrite appended_to_eq.
  split; [apply (proj1 R)|]. intros n Hn.
  split; [exact (elements_ok h (hs l) _ n R Hn)|].
  split; [exact (count_ok h (hs l) _ n R Hn)|].
  split.
  { exists (nth 0 (hs l) 0). split; [exact (front_ok h (hs l) _ n R Hn)|].
    destruct R as (HL & _ & HN). destruct (hs l) as [|i0 r]; [destruct Hn|].
    destruct (HN 0 i0 eq_refl) as (e & He & Eh). simpl nth. rewrite Eh. simpl.
    destruct (appended l ops); [discriminate|]. simpl in *. congruence. }
  split; [intros i e He; exact (at_ok h (hs l) _ i n e R Hn He)|].
  intros k Hk. destruct R as (HL & R'). rewrite <- HL.
  exact (hasNext_ok h (hs l) _ k n (conj HL R') Hk).
Qed.
Print Assumptions C11_sequence_is_list.

Example C11_case : exists hs h,
  run [Snoc 0 0 10; Snoc 1 0 20; Snoc 0 0 11; Snoc 0 1 12; Snoc 1 5 21; Snoc 0 7 13] (fun _ => []) []
    = Some (hs, h) /\ elements h 2 = Some [10; 11; 12; 13] /\ elements h 4 = Some [20; 21].
Proof. do 2 eexists. split; [reflexivity|]. split; reflexivity. Qed.

(** at(i) with an index outside the list does not terminate (it needs more
    steps than any bound). *)
Theorem C11_at_absent_index_refuted : exists (h : heap nat) (n : nat),
  snoc None 7 [] = Some (n, h) /\ forall fuel, at_loop fuel h 1 n = None.
Proof.
  do 2 eexists. split; [reflexivity|]. induction fuel as [|f IH]; [reflexivity|exact IH].
Qed.
Print Assumptions C11_at_absent_index_refuted.
