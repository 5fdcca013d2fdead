(** Property theorems C04-C06 (token stream, lookahead, backtracking). *)
From Coq Require Import List ZArith Lia Bool PeanoNat.
From Verif Require Import Base TokenStreamModel TokenStreamSpec TokenStreamProofs.
Import ListNotations.

(** C04 (a): a program respecting the index ranges never faults and leaves
    exactly the specified tokens. *)
Theorem C04_stream_contents : forall ops : list bop,
  blegal ops 0 0 ->
  exists o s', brun ops (empty_stream tt) = Some (o, s') /\ buf s' = bcontent ops [] 0.
Proof.
  intros ops H. destruct (brun_ok ops (empty_stream tt) H (le_n 0)) as (o & s' & E & B & _).
  exact (ex_intro _ o (ex_intro _ s' (conj E B))).
Qed.
Print Assumptions C04_stream_contents.

(** C04 (b): without clear(), every token delivered for index i (by read, at,
    curr, back or front) is the one the stream finally holds at i. *)
Theorem C04_delivered_tokens_stay : forall ops s o s',
  ~ In BClear ops -> brun ops s = Some (o, s') ->
  (exists more, buf s' = buf s ++ more) /\
  (forall i t, In (i, t) o -> nth_error (buf s') i = Some t).
Proof. exact brun_consistent. Qed.
Print Assumptions C04_delivered_tokens_stay.

Example C04_case :
  let a := MkToken 1001 0 2 in let b := MkToken 1002 3 4 in
  let ops := [BPush a; BRead; BRead; BPush b; BRewind 0; BRead; BRead; BRead; BRead;
              BAt 2; BBack; BFront; BReset; BCurr] in
  blegal ops 0 0 /\
  bcontent ops [] 0 = [a; MkToken 1000 0 0; b; MkToken 1000 0 0].
Proof. split; [vm_compute; repeat split; discriminate || lia | vm_compute; reflexivity]. Qed.

(** C05: LA(k) is the token that k-1 further reads make current ... *)
Theorem C05_LA_value : forall (L : Type) (lex : L -> token * list token * L) (l0 : L) ops o s k,
  legal 0 0 ops -> run lex ops (empty_stream l0) = Some (o, s) ->
  1 <= idx s -> 1 <= k ->
  exists t sl outs sr, LA lex (Z.of_nat k) s = Some (t, sl) /\
    run lex (repeat Read (k - 1)) s = Some (outs, sr) /\
    nth_error (buf sr) (idx sr - 1) = Some t.
Proof.
  intros L lex l0 ops o s k H1 H2. exact (la_is_later lex l0 s k (reachable_good lex l0 ops o s H1 H2)).
Qed.
Print Assumptions C05_LA_value.

(** ... and leaves position and buffered tokens alone, so every later client
    program sees the same tokens as without the lookahead. *)
Theorem C05_LA_transparent : forall (L : Type) (lex : L -> token * list token * L) (l0 : L) ops o s k,
  legal 0 0 ops -> run lex ops (empty_stream l0) = Some (o, s) ->
  (2 <= Z.of_nat (idx s) + k)%Z ->
  exists t s', LA lex k s = Some (t, s') /\ idx s' = idx s /\
    (exists more, buf s' = buf s ++ more) /\
    (forall ops', legal (size s) (idx s) ops' ->
       exists o' s1 s2, run lex ops' s = Some (o', s1) /\ run lex ops' s' = Some (o', s2)).
Proof.
  intros L lex l0 ops o s k H1 H2.
  exact (la_transparent lex l0 s k (reachable_good lex l0 ops o s H1 H2)).
Qed.
Print Assumptions C05_LA_transparent.

(** A lexer delivering one token, then two at once, then one, then EOFs. *)
Definition demo_lex (n : nat) : token * list token * nat :=
  match n with
  | 3 => (MkToken 1001 0 0, [], 2)
  | 2 => (MkToken 1002 1 1, [MkToken 1003 1 1], 1)
  | 1 => (MkToken 1004 2 5, [], 0)
  | n => (MkToken 1000 6 6, [], n)
  end.

Example C05_case : exists s, run demo_lex [Read] (empty_stream 3) = Some ([MkToken 1001 0 0], s) /\
  exists s', LA demo_lex 4 s = Some (MkToken 1004 2 5, s') /\ size s = 1 /\ size s' = 4 /\ idx s' = 1.
Proof.
  eexists; split; [vm_compute; reflexivity|]. eexists; split; [vm_compute; reflexivity|]. repeat split; reflexivity.
Qed.

(** LA before the first token was read accesses index -1. *)
Theorem C05_LA_before_first_token_refuted :
  LA base_lex 1 (empty_stream tt) = None.
Proof. reflexivity. Qed.
Print Assumptions C05_LA_before_first_token_refuted.

(** C06: whatever a client reads, looks ahead and rewinds, the tokens it sees
    are a function of the cursor alone. *)
Theorem C06_replay : forall (L : Type) (lex : L -> token * list token * L) (l0 : L) ops,
  legal 0 0 ops ->
  exists s', run lex ops (empty_stream l0) = Some (view (input_token lex l0) 0 ops, s') /\
    idx s' = cursor 0 ops.
Proof. exact @run_empty. Qed.
Print Assumptions C06_replay.

(** The same for a plain stream filled with tokens beforehand: then the input
    is the list of tokens followed by EOF tokens. *)
Theorem C06_replay_plain : forall (ts : list token) ops,
  legal 0 0 ops ->
  exists s', run base_lex ops (MkStream ts 0 tt) = Some (view (then_eof ts) 0 ops, s') /\
    idx s' = cursor 0 ops.
Proof.
  intros ts ops Hl. refine (plain_run ts ops 0 (MkStream ts 0 tt) _ (Nat.le_0_l _) Hl).
  split; [exists 0; symmetry; apply app_nil_r | apply Nat.le_0_l].
Qed.
Print Assumptions C06_replay_plain.

Example C06_case :
  let ops := [Read; Read; Look 3; Rewind 0; Read; Rewind 2; Read; Read; Read; Rewind 3; Read] in
  legal 0 0 ops /\
  view (input_token demo_lex 3) 0 ops =
   [MkToken 1001 0 0; MkToken 1002 1 1; MkToken 1004 2 5; MkToken 1001 0 0;
    MkToken 1003 1 1; MkToken 1004 2 5; MkToken 1000 6 6; MkToken 1004 2 5].
Proof. split; [vm_compute; repeat split; discriminate || lia | vm_compute; reflexivity]. Qed.
