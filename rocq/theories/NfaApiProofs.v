(** Invariants of the automata that can be built. *)
From Coq Require Import List NArith ZArith Lia Bool PeanoNat Permutation ZifyBool ZifyN ZifyNat.
From Verif Require Import Base AutomatonModel AutomatonSpec CsetLaws ThompsonProofs DfaProofs DfaOpsProofs MinimizeProofs NfaDiagModel NfaDiagProofs
  NfaBuiltProofs NfaApiSpec.
Import ListNotations.

Section R.
Variable C : cset.
Variable ok : car C -> Prop.
Variable L : cs_laws C ok.

Lemma nfa_of_single d : wf_dfa C ok d -> dactions d = 1 -> single C ok (nfa_of C d).
Proof.
  intros W A. destruct (Nat.eq_dec (dst d) 0) as [Z|Z].
  - unfold nfa_of. rewrite Z. cbn [Nat.eqb]. apply (empty_single C ok).
  - destruct (nfa_of_shape C d) as (S1 & S2 & S3 & S4 & S5); [lia|]. split; [apply (nfa_of_wf C ok L); try assumption; lia|].
    rewrite S4, S1; [lia|]. intros i. rewrite <- A. apply W.
Qed.
Theorem api_ok a : api C ok a -> single C ok a /\ no_empty_edge C a /\ layered C a.
Proof.
  assert (BUT : forall f ff ord a b n, (forall l, Permutation (ord l) l) -> single C ok a -> no_empty_edge C a -> single C ok b -> no_empty_edge C b ->
    nfa_but C f ff ord a b = Some n -> single C ok n /\ no_empty_edge C n /\ layered C n).
  { intros f ff ord a0 b n HP A1 A2 B1 B2 H. split; [apply (but_ok C ok L _ _ _ _ _ _ A1 B1 HP H)|]. unfold nfa_but in H.
    destruct (nfa_negate C f ff ord a0) as [a3|] eqn:Ea; [|discriminate H]. cbn [obind] in H.
    destruct (negate_ok C ok L _ _ _ _ _ A1 HP Ea) as (Sa1 & _). destruct (negate_nee C ok L _ _ _ _ _ A1 HP A2 Ea) as (X2 & _).
    apply (negate_nee C ok L f ff ord (nfa_or C a3 b)); [apply (or_single C ok L); assumption|exact HP| |exact H].
    apply (or_nee C ok L); [apply Sa1|apply B1|exact X2|exact B2]. }
  induction 1 as [| |s x O E X|a b _ (A1 & A2 & A3) _ (B1 & B2 & B3)|a b _ (A1 & A2 & A3) _ (B1 & B2 & B3)|a _ (A1 & A2 & A3)
    |f ff ord a n HP _ (A1 & A2 & A3) H|f ff ord a b n HP _ (A1 & A2 & A3) _ (B1 & B2 & B3) H|f ff ord a b n HP _ (A1 & A2 & A3) _ (B1 & B2 & B3) H
    |f ff ord a d d' HP _ (A1 & A2 & A3) H M|f ff ord a d HP _ (A1 & A2 & A3) H].
  - split; [apply empty_single|]. split; [|apply empty_layered]. intros p c q E. exfalso. apply (no_edges C (nfa_empty C) p c q); [left; reflexivity|exact E].
  - split; [apply emptyWord_single|]. split; [|apply emptyWord_layered]. intros p c q E. exfalso. apply (no_edges C (nfa_emptyWord C) p c q); [right; reflexivity|exact E].
  - split; [apply set_single; exact O|]. split; [apply (set_nee C s x X)|apply set_layered].
  - split; [apply (or_single C ok L); assumption|]. split; [apply (or_nee C ok L); try assumption; [apply A1|apply B1]|apply (or_layered C ok L); assumption].
  - split; [apply (concat_single C ok L); assumption|]. split; [apply (concat_nee C ok L); try assumption; [apply A1|apply B1]|apply (concat_layered C ok L); assumption].
  - split; [apply (star_single C ok L); assumption|]. split; [apply (star_nee C ok L); try assumption; apply A1|apply (star_layered C ok L); assumption].
  - split; [apply (negate_ok C ok L _ _ _ _ _ A1 HP H)|apply (negate_nee C ok L _ _ _ _ _ A1 HP A2 H)].
  - unfold nfa_and in H. destruct (nfa_negate C f ff ord b) as [b1|] eqn:Eb; [|discriminate H]. cbn [obind] in H.
    destruct (nfa_negate C f ff ord a) as [a1|] eqn:Ea; [|discriminate H]. cbn [obind] in H.
    destruct (negate_ok C ok L _ _ _ _ _ A1 HP Ea) as (Sa & _). destruct (negate_nee C ok L _ _ _ _ _ A1 HP A2 Ea) as (Na & _).
    destruct (negate_ok C ok L _ _ _ _ _ B1 HP Eb) as (Sb & _). destruct (negate_nee C ok L _ _ _ _ _ B1 HP B2 Eb) as (Nb & _).
    assert (So : single C ok (nfa_or C a1 b1)) by (apply (or_single C ok L); assumption).
    split; [apply (negate_ok C ok L _ _ _ _ _ So HP H)|]. apply (negate_nee C ok L f ff ord (nfa_or C a1 b1)); [exact So|exact HP| |exact H].
    apply (or_nee C ok L); [apply Sa|apply Sb|exact Na|exact Nb].
  - apply (BUT _ _ _ _ _ _ HP A1 A2 B1 B2 H).
  - pose proof A1 as (W & AC). pose proof W as (W0 & _). destruct (dfa_wf C ok L _ _ _ _ _ W HP H) as (Wd & Dd & Pd & Ad).
    destruct (minimize_wf C ok L d d' Wd Dd Pd M) as (W' & T' & N').
    split; [apply nfa_of_single; [exact W'|lia]|]. split; [apply (nfa_of_nee C ok L); assumption|apply (nfa_of_layered C ok L); exact W'].
  - pose proof A1 as (W & AC). pose proof W as (W0 & _). destruct (dfa_wf C ok L _ _ _ _ _ W HP H) as (Wd & Dd & Pd & Ad).
    split; [apply nfa_of_single; [exact Wd|lia]|]. split; [|apply (nfa_of_layered C ok L); exact Wd].
    apply (nfa_of_nee C ok L); [exact Wd|]. apply (dfa_of_tight C ok L _ _ _ _ _ W A2 H).
Qed.
End R.
