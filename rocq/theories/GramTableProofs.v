(** The table of the grammar of grammar files, and the checks it passes. *)
From Coq Require Import List NArith Bool PeanoNat Lia.
From Verif Require Import YaccModel YaccSpec YaccProofs YaccEndProofs GramModel.
Import ListNotations.

Definition grammar_states : table := Eval vm_compute in grammar_table.
Lemma states_eq : grammar_table = grammar_states.
Proof. vm_compute. reflexivity. Qed.

Lemma table_checked : table_ok productions grammar_states 0 = true.
Proof. vm_compute. reflexivity. Qed.
Lemma just_checked : just_ok productions grammar_states = true.
Proof. vm_compute. reflexivity. Qed.
Lemma productive_checked : productive_ok productions = true.
Proof. vm_compute. reflexivity. Qed.
Lemma settle_checked : settle_ok productions grammar_states 0 (N.succ nt) 40 = true.
Proof. vm_compute. reflexivity. Qed.
