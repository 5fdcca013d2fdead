(** Property theorems C01-C03 (line/column table). *)
From Coq Require Import List ZArith Lia Bool.
From Verif Require Import Base LocationTableModel LocationTableSpec LocationTableProofs.
Import ListNotations.
Local Open Scope Z_scope.

(** C01: every legal client program runs without fault and gets the specified
    answers. *)
Theorem C01_position_exact : forall (n : nat) (ops : list op),
  (1 <= n)%nat -> legal (-1) 1 ops ->
  exists t0 t, create n = Some t0 /\ run ops t0 = Some (spec_answers [] ops, t).
Proof.
  intros n ops H1 H2. destruct (run_from_create n ops H1 H2) as (t0 & t & A & B & _).
  exact (ex_intro _ t0 (ex_intro _ t (conj A B))).
Qed.
Print Assumptions C01_position_exact.

Example C01_case :
  let ops := [Query 3; Newline 5; Query 5; Query 6; Newline 9; Resize 5; Newline 20;
              Query 7; Query 10; Query 21; Query 100; Query 0; Query (-4); Query 12] in
  legal (-1) 1 ops /\
  spec_answers [] ops =
    [(0,3); (0,5); (1,0); (1,1); (2,0); (3,0); (3,79); (0,0); (-1,-1); (2,2)].
Proof. split; [vm_compute; repeat split; discriminate || lia | vm_compute; reflexivity]. Qed.

(** C02: two programs recording the same newlines, with any queries in
    between, leave tables that answer every further query alike. *)
Theorem C02_history_free :
  forall n1 n2 ops1 ops2 x a1 a2 t1 t2 t1' t2' r1 r2,
  (1 <= n1)%nat -> (1 <= n2)%nat -> legal (-1) 1 ops1 -> legal (-1) 1 ops2 ->
  newlines ops1 = newlines ops2 ->
  create n1 = Some t1 -> create n2 = Some t2 ->
  run ops1 t1 = Some (r1, t1') -> run ops2 t2 = Some (r2, t2') ->
  positionAt x t1' = Some a1 -> positionAt x t2' = Some a2 -> fst a1 = fst a2.
Proof. exact history_free. Qed.
Print Assumptions C02_history_free.

Example C02_case : exists t1 t2 t1' t2' r1 r2 a1 a2,
  create 1 = Some t1 /\ create 2 = Some t2 /\
  run [Newline 4; Newline 8; Newline 12; Query 6] t1 = Some (r1, t1') /\
  run [Newline 4; Newline 8; Query 0; Newline 12] t2 = Some (r2, t2') /\
  lastLine t1' <> lastLine t2' /\
  positionAt 10 t1' = Some a1 /\ positionAt 10 t2' = Some a2 /\ fst a1 = (2, 1).
Proof.
  do 8 eexists. split; [vm_compute; reflexivity|]. split; [vm_compute; reflexivity|]. split; [vm_compute; reflexivity|].
  split; [vm_compute; reflexivity|]. split; [cbn; discriminate|]. split; [vm_compute; reflexivity|].
  split; vm_compute; reflexivity.
Qed.

(** C02 without the "strictly increasing" obligation is false: after a
    duplicated newline offset the answer depends on earlier queries. *)
Theorem C02_duplicate_newlines_refuted : exists ops1 ops2 t t1 t2 r1 r2 a1 a2,
  newlines ops1 = newlines ops2 /\ create 8 = Some t /\
  run ops1 t = Some (r1, t1) /\ run ops2 t = Some (r2, t2) /\
  positionAt 5 t1 = Some a1 /\ positionAt 5 t2 = Some a2 /\ fst a1 <> fst a2.
Proof.
  exists [Newline 4; Newline 4; Newline 8].
  exists [Newline 4; Newline 4; Newline 8; Query 7].
  do 7 eexists. split; [vm_compute; reflexivity|]. split; [vm_compute; reflexivity|]. split; [vm_compute; reflexivity|].
  split; [vm_compute; reflexivity|]. split; [vm_compute; reflexivity|]. split; [vm_compute; reflexivity|].
  cbn; discriminate.
Qed.
Print Assumptions C02_duplicate_newlines_refuted.

(** C03: no store or load leaves the buffer ([run] is not a fault), and all
    recorded line starts stay readable, whatever the initial size. *)
Theorem C03_lines_kept : forall n ops, (1 <= n)%nat -> legal (-1) 1 ops ->
  exists t0 r t', create n = Some t0 /\ run ops t0 = Some (r, t') /\
    forall k, (k <= length (newlines ops))%nat ->
      getLine t' k = Some (match k with O => 0 | S j => nth j (newlines ops) 0 + 1 end).
Proof. exact lines_kept. Qed.
Print Assumptions C03_lines_kept.

Example C03_case :
  legal (-1) 1 [Newline 0; Newline 1; Newline 2; Resize 4; Newline 3; Query 2] /\
  exists t0 r t', create 1 = Some t0 /\
   run [Newline 0; Newline 1; Newline 2; Resize 4; Newline 3; Query 2] t0 = Some (r, t') /\
   length (cells t') = 8%nat.
Proof.
  split; [simpl; repeat split; lia|]. do 3 eexists. split; [vm_compute; reflexivity|].
  split; vm_compute; reflexivity.
Qed.

(** The public resize() may drop recorded lines: shrinking below the number
    of recorded lines makes a later query undefined. *)
Theorem C03_resize_shrink_refuted : exists t0,
  create 4 = Some t0 /\ run [Newline 1; Newline 2; Resize 1; Query 2] t0 = None.
Proof. eexists. split; vm_compute; reflexivity. Qed.
Print Assumptions C03_resize_shrink_refuted.
