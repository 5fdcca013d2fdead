(** Languages of automata and of regular expressions. *)
From Coq Require Import List NArith Bool.
From Verif Require Import AutomatonModel CharSetModel CharSetSpec.
Import ListNotations.

Section S.
Variable C : cset.
Notation cs := (car C).

(** Paths in a labelled graph: edges labelled with an epsilon set consume
    nothing, others one character of the set. *)
Inductive path (E : nat -> cs -> nat -> Prop) : nat -> list N -> nat -> Prop :=
| P_nil q : path E q [] q
| P_eps q c t w r : E q c t -> c_eps C c = true -> path E t w r -> path E q w r
| P_chr q c t x w r : E q c t -> c_eps C c = false -> c_acc C c x = true ->
    path E t w r -> path E q (x :: w) r.

Definition nedge (a : nfa C) : nat -> cs -> nat -> Prop :=
  fun q c t => In (c, t) (nth q (nrules a) []).
Definition dedge (d : dfa C) : nat -> cs -> nat -> Prop :=
  fun q c t => In (c, t) (nth q (drules d) []).

(** [w] leads to the k-th accepting state (rule k of a lexer). *)
Definition laccepts (a : nfa C) (k : nat) (w : list N) : Prop :=
  naccept a + k < nst a /\ path (nedge a) 0 w (naccept a + k).
(** The language: some accepting state is reached. *)
Definition lang (a : nfa C) (w : list N) : Prop := exists k, laccepts a k w.
(** A word accepted by a DFA with action [act] (> 0). *)
Definition daccepts (d : dfa C) (act : nat) (w : list N) : Prop :=
  exists q, path (dedge d) 0 w q /\ nth q (daccept d) 0 = act /\ act <> 0.

(** All characters of the word are characters of the codec. *)
Definition in_codec (w : list N) : Prop := Forall (fun x => (x < c_size C)%N) w.

(** Word operations. *)
Definition cat (L M : list N -> Prop) : list N -> Prop :=
  fun w => exists u v, w = u ++ v /\ L u /\ M v.
Inductive star (L : list N -> Prop) : list N -> Prop :=
| star_nil : star L []
| star_app u v : L u -> star L v -> star L (u ++ v).

(** Well-formed automata; [ok] is well-formedness of character sets. *)
Definition wf_nfa (ok : cs -> Prop) (a : nfa C) : Prop :=
  0 < nst a /\ nst a <= length (nrules a) /\ naccept a < nst a /\
  forall i c t, In (c, t) (nth i (nrules a) []) -> i < nst a /\ t < nst a /\ ok c.
(** The automata of single regular expressions have one accepting state, the
    last one. *)
Definition single (ok : cs -> Prop) (a : nfa C) : Prop :=
  wf_nfa ok a /\ naccept a = nst a - 1.
Definition wf_dfa (ok : cs -> Prop) (d : dfa C) : Prop :=
  length (drules d) = dst d /\ length (daccept d) = dst d /\
  (forall i, nth i (daccept d) 0 <= dactions d) /\
  forall i c t, In (c, t) (nth i (drules d) []) -> t < dst d /\ ok c /\ c_eps C c = false.
(** At most one way to continue with any character. *)
Definition deterministic (d : dfa C) : Prop :=
  forall q c1 t1 c2 t2 x, dedge d q c1 t1 -> dedge d q c2 t2 ->
    c_acc C c1 x = true -> c_acc C c2 x = true -> t1 = t2.
End S.

(** The character set classes in use. *)
Definition seq_ok (sz : N) (s : seqset) : Prop := canonical sz (sdata s).
Definition tab_ok (s : tabset) : Prop := True.
Inductive supported : forall C : cset, (car C -> Prop) -> Prop :=
| sup_seq sz : (0 < sz)%N -> supported (seq_cset sz) (seq_ok sz)
| sup_tab sz : (0 < sz)%N -> supported (tab_cset sz) tab_ok.
