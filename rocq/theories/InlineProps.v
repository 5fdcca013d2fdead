(** Cyclic inlining is found. *)
From Coq Require Import List NArith PeanoNat Bool Lia Relations.
From Verif Require Import Base ItemModel InlineModel InlineSpec InlineProofs.
Import ListNotations.

(** C74.  The checker ends, lets no exception out, and reports an error
    if and only if inlining is cyclic or an operator symbol is inlined. *)
Theorem C74_errors_exact : forall g fuel, length (rules g) <= fuel ->
  exists c, inline_check g fuel = Some (Some c) /\ (ccyclic c + coper c = 0 <-> ~ cyclic g /\ ~ inlines_operator g).
Proof. exact inline_exact. Qed.
Print Assumptions C74_errors_exact.

(** Without an error nothing is changed, and whatever traverses the rules
    afterwards, going through the inlined ones, comes to an end. *)
Theorem C74_traversals_end : forall g fuel c follow,
  inline_check g fuel = Some (Some c) -> ccyclic c + coper c = 0 ->
  (forall n, csym c n = target g n) /\ exists f, forall r, In r (rules g) -> walk_rule (after g c) follow f r <> None.
Proof. exact inline_walks. Qed.
Print Assumptions C74_traversals_end.

(** After an error the tool goes on with the other checks (errors are only
    counted, until kdev-pg-main.cpp 513); to let them end the checker sets mSymbol
    of an inlined non-terminal on a cycle to nullptr.  That does not cut all the
    cycles: with p = [1], q = [2], x = [3], y = [4] and the rules
      inline y inline x inline q T -> p ;;   inline y inline p T -> q ;;
      inline q T -> x ;;   inline p T -> y ;;   p q x y -> s ;;
    the EmptyOperatorChecker (kdev-pg-main.cpp 376-380), which traverses the rules
    as DefaultVisitor does, never comes back from p. *)
Definition tok : item := IAtom (ATerm [84]%N).
Definition knot : grammar := Grammar
  [Rule [1]%N [] (ICons (ICons (ICons (IInl 0) (IInl 1)) (IInl 2)) tok);
   Rule [2]%N [] (ICons (ICons (IInl 3) (IInl 4)) tok);
   Rule [3]%N [] (ICons (IInl 5) tok);
   Rule [4]%N [] (ICons (IInl 6) tok);
   Rule [5]%N [] (ICons (ICons (IAtom (ANon [1]%N)) (IAtom (ANon [2]%N))) (ICons (IAtom (ANon [3]%N)) (IAtom (ANon [4]%N))))]
  (fun n => nth_error [[4]; [3]; [2]; [4]; [1]; [2]; [1]]%N n).
Lemma knot_check : exists c, inline_check knot 5 = Some (Some c) /\ ccyclic c = 5 /\
  csym c 0 = None /\ csym c 1 = None /\ csym c 2 = Some [2]%N /\ csym c 3 = None /\ csym c 4 = Some [1]%N.
Proof. eexists. split; [vm_compute; reflexivity|]. repeat split; reflexivity. Qed.
Lemma knot_loops c follow : csym c 0 = None -> csym c 1 = None -> csym c 2 = Some [2]%N -> csym c 3 = None -> csym c 4 = Some [1]%N ->
  forall fuel, walk (after knot c) follow fuel (ICons (ICons (ICons (IInl 0) (IInl 1)) (IInl 2)) tok) = None /\
    walk (after knot c) follow fuel (ICons (ICons (IInl 3) (IInl 4)) tok) = None.
Proof.
  intros A B C D E.
  assert (S1 : search (after knot c) [1]%N = Some (Rule [1]%N [] (ICons (ICons (ICons (IInl 0) (IInl 1)) (IInl 2)) tok))) by reflexivity.
  assert (S2 : search (after knot c) [2]%N = Some (Rule [2]%N [] (ICons (ICons (IInl 3) (IInl 4)) tok))) by reflexivity.
  induction fuel as [|f (IH1 & IH2)]; rewrite !walk_eq; cbn [walk_item]; unfold wstep; cbn [after target]; rewrite A, B, C, D, E; cbn [obind];
    fold (after knot c); rewrite S1, S2; cbn [ritem]; [split; reflexivity|]. rewrite IH1, IH2. split; reflexivity.
Qed.
Theorem C74_cut_refuted : exists g c, inline_check g (length (rules g)) = Some (Some c) /\ 0 < ccyclic c /\
  exists r, In r (rules g) /\ forall follow fuel, walk_rule (after g c) follow fuel r = None.
Proof.
  destruct knot_check as (c & E & N & A & B & C & D & F). exists knot, c. split; [exact E|]. split; [rewrite N; lia|].
  exists (Rule [1]%N [] (ICons (ICons (ICons (IInl 0) (IInl 1)) (IInl 2)) tok)). split; [left; reflexivity|].
  intros follow fuel. unfold walk_rule. cbn [ritem]. rewrite (proj1 (knot_loops c follow A B C D F fuel)). reflexivity.
Qed.
Print Assumptions C74_cut_refuted.

(** A grammar without cycles in which a rule is inlined twice, and one with a
    cycle. *)
Definition diamond : grammar := Grammar
  [Rule [1]%N [] (IAlt (IInl 0) (ICons (IInl 1) tok)); Rule [2]%N [] (IStar (IInl 2)); Rule [3]%N [] tok]
  (fun n => nth_error [[2]; [3]; [3]]%N n).
Definition loop : grammar := Grammar
  [Rule [1]%N [] (IAlt (IInl 0) tok); Rule [2]%N [] (ICons tok (IInl 1))] (fun n => nth_error [[2]; [1]]%N n).
Example C74_case :
  (exists c, inline_check diamond 3 = Some (Some c) /\ ccyclic c + coper c = 0) /\ ~ cyclic diamond /\
  cyclic loop /\ (exists c, inline_check loop 2 = Some (Some c) /\ 0 < ccyclic c).
Proof.
  assert (D : exists c, inline_check diamond 3 = Some (Some c) /\ ccyclic c + coper c = 0).
  { eexists. split; [vm_compute; reflexivity|]. reflexivity. }
  split; [exact D|]. split.
  - destruct D as (c & E & Z). destruct (C74_errors_exact diamond 3 (le_n 3)) as (c' & E' & H). rewrite E in E'.
    injection E' as <-. apply H, Z.
  - split; [|eexists; split; [vm_compute; reflexivity|cbn; lia]].
    exists [1]%N. apply t_trans with [2]%N; apply t_step.
    + exists (Rule [1]%N [] (IAlt (IInl 0) tok)), 0. repeat split; [constructor; reflexivity|apply in_alt_l; constructor].
    + exists (Rule [2]%N [] (ICons tok (IInl 1))), 1. repeat split; [apply fr_there; [discriminate|constructor; reflexivity]|apply in_cons_r; constructor].
Qed.
