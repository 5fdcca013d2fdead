(** Property C62: the automaton built for a regular expression accepts the
    language of the expression. *)
From Coq Require Import List NArith ZArith Lia Bool PeanoNat Permutation.
From Verif Require Import Base AutomatonModel AutomatonSpec CharSetModel CharSetSpec CsetLaws RegexpModel RegexpSpec RegexpProofs AutomatonProps.
Import ListNotations.

Theorem C62_regexp_partial : forall C ok ord r, supported C ok -> (forall l, Permutation (ord l) l) -> translatable C ok r ->
  (exists F a, forall f, F <= f -> build C f ord r = Some a) /\
  forall f a, build C f ord r = Some a -> single C ok a /\ forall w, lang C a w <-> re_lang C r w.
Proof.
  intros C ok ord r S P T. pose proof (supported_laws C ok S) as L. split.
  - destruct (build_ends C ok L ord P r T) as (a & F & H). exists F, a. exact H.
  - intros f a H. destruct (build_ok C ok L ord P f r a T H). auto.
Qed.
Print Assumptions C62_regexp_partial.

(** "/*" (~(any* "*/" any* )) "*/" : comments. *)
Definition any : re Asc := RStar (RSet (c_full Asc)).
Definition comment : re Asc := RCat (RWord [47; 42]%N) (RCat (RNot (RCat any (RCat (RWord [42; 47]%N) any))) (RWord [42; 47]%N)).
Example C62_case : translatable Asc Asc_ok comment /\ re_lang Asc comment [47; 42; 97; 42; 47]%N.
Proof.
  split.
  - cbn [translatable comment any fresh repeatable]. assert (F : Asc_ok (c_full Asc)) by (unfold Asc_ok, seq_ok, canonical; cbn; lia).
    repeat split; try exact F; try (exists 0%N; reflexivity); try solve [unfold in_codec; repeat constructor]. all: apply N.leb_le; reflexivity.
  - exists [47; 42]%N, [97; 42; 47]%N. split; [reflexivity|]. split; [reflexivity|]. exists [97%N], [42; 47]%N. split; [reflexivity|]. split; [|reflexivity].
    split; [repeat constructor|]. intros (u & v & E & _ & x & y & -> & -> & _). destruct u as [|u1 [|u2 u]]; discriminate E.
Qed.
(** Repetition of an expression beginning with a repetition: (a* b)* accepts
    "a"; a named expression that accepts all prefixes of its words: ?a. *)
Theorem C62_star_refuted : exists r : re Asc, exists a, build Asc 100 same_order r = Some a /\ lang Asc a [97%N] /\ ~ re_lang Asc r [97%N].
Proof.
  exists (RStar (RCat (RStar (@RSet Asc (MkSeq [(97, 98)]%N false))) (@RSet Asc (MkSeq [(98, 99)]%N false)))). eexists. split; [reflexivity|]. split.
  - exists 0. split; [vm_compute; lia|].
    eapply P_chr with (c := MkSeq [(97, 98)]%N false) (t := 1); [vm_compute; auto|reflexivity|reflexivity|].
    eapply P_eps with (c := c_epsset Asc) (t := 0); [vm_compute; auto|reflexivity|].
    eapply P_eps with (c := c_epsset Asc) (t := 5); [vm_compute; auto|reflexivity|]. constructor.
  - intros H. inversion H as [|u v (x & y & -> & _ & z & -> & K) H2 E]. destruct x as [|x1 [|x2 x]]; try discriminate E. injection E as -> ->. discriminate K.
Qed.
Print Assumptions C62_star_refuted.
Theorem C62_named_refuted : exists (r : re Asc) a d, build Asc 100 same_order (RNamed r) = Some a /\ dfa_of Asc 100 100 same_order a = Some d /\
  dfa_accepts Asc d [97; 97]%N = 1 /\ ~ re_lang Asc (RNamed r) [97; 97]%N.
Proof.
  exists (ROpt (@RSet Asc (MkSeq [(97, 98)]%N false))). eexists _, _. split; [vm_compute; reflexivity|]. split; [vm_compute; reflexivity|]. split; [reflexivity|].
  intros [(x & E & _)|E]; discriminate E.
Qed.
Print Assumptions C62_named_refuted.
