(** Proofs about the automata for characters. *)
From Coq Require Import List NArith Lia Bool PeanoNat ZifyBool ZifyN ZifyNat.
From Verif Require Import Base CharSetModel CharSetSpec CharSetProofs AutomatonModel AutomatonSpec CsetLaws ThompsonProofs UtfModel UtfSpec UtfProofs RangeModel RangeSpec.
Import ListNotations.
Local Open Scope N_scope.

Lemma ranged_supported C ok rng : ranged C ok rng -> supported C ok.
Proof. intros []; constructor; assumption. Qed.
Lemma rng_law C ok rng b e : ranged C ok rng -> e <= c_size C ->
  ok (rng b e) /\ c_eps C (rng b e) = false /\ forall x, c_acc C (rng b e) x = (b <=? x) && (x <? e).
Proof.
  intros [sz S|sz S] E; cbn [c_size seq_cset tab_cset] in E.
  - unfold seq_range, seq_ok, canonical. cbn [c_eps seq_cset seps sdata c_acc]. split.
    + destruct (N.ltb_spec b e); [|exact I]. cbn; repeat split; lia.
    + split; [reflexivity|]. intros x. destruct (N.ltb_spec b e) as [K|K].
      * rewrite (seq_accepts_ok (MkSeq [(b, e)] false) x); [cbn [sdata]; rewrite mem_cons; apply orb_false_r|]. apply (weak_mono _ 0 sz). cbn. repeat split; lia.
      * cbn. lia.
  - unfold tab_rng, tab_range. cbn [c_eps tab_cset c_acc]. split; [exact I|]. destruct (N.ltb_spec b e) as [K|K].
    + destruct (N.leb_spec e sz); [|lia]. cbn [teps]. split; [reflexivity|]. intros x. unfold tab_accepts. cbn [tdata]. destruct (N.ltb_spec x sz); lia.
    + cbn. split; [reflexivity|]. intros x. unfold tab_accepts. cbn. destruct (x <? sz); lia.
Qed.

Section Lang.
Variable C : cset.
Variable ok : car C -> Prop.
Variable rng : N -> N -> car C.
Hypothesis R : ranged C ok rng.
Let S := ranged_supported C ok rng R.
Let L := supported_laws C ok S.

(** An automaton for exactly the words [P]. *)
Definition for_words (a : nfa C) (P : list N -> Prop) : Prop := single C ok a /\ forall w, lang C a w <-> P w.
Lemma fw_ext a P Q : for_words a P -> (forall w, P w <-> Q w) -> for_words a Q.
Proof. intros (H1 & H2) E. split; [exact H1|]. intros w. rewrite H2. apply E. Qed.
Lemma fw_empty : for_words (nfa_empty C) (fun _ => False).
Proof. split; [apply empty_single|]. intros w. split; [intros H; exact (empty_lang C ok w H)|contradiction]. Qed.
Lemma fw_set s (P : N -> Prop) : ok s -> c_eps C s = false -> (forall x, c_acc C s x = true <-> P x) -> for_words (nfa_set C s) (fun w => exists x, w = [x] /\ P x).
Proof.
  intros O E H. split; [apply set_single; exact O|]. intros w. rewrite (set_lang C ok s w O E). split; intros (x & -> & K); exists x; (split; [reflexivity|]); apply H; exact K.
Qed.
Lemma fw_rng f t : t <= c_size C -> for_words (nfa_set C (rng f t)) (fun w => exists x, w = [x] /\ f <= x < t).
Proof. intros H. destruct (rng_law C ok rng f t R H) as (K1 & K2 & K3). apply fw_set; [exact K1|exact K2|]. intros x. rewrite K3. lia. Qed.
Lemma fw_char c : c < c_size C -> for_words (nfa_set C (c_char C c)) (fun w => exists x, w = [x] /\ x = c).
Proof. intros H. destruct (l_char C ok L c H) as (K1 & K2 & K3). apply fw_set; [exact K1|exact K2|]. intros x. rewrite K3. lia. Qed.
Lemma fw_or a b P Q : for_words a P -> for_words b Q -> for_words (nfa_or C a b) (fun w => P w \/ Q w).
Proof.
  intros (A1 & A2) (B1 & B2). split; [apply (or_single C ok L); assumption|]. intros w. rewrite (or_lang C ok L a b w A1 B1), A2, B2. reflexivity.
Qed.
Lemma fw_cat a b P Q : for_words a P -> for_words b Q -> for_words (nfa_concat C a b) (fun w => exists u v, w = u ++ v /\ P u /\ Q v).
Proof.
  intros (A1 & A2) (B1 & B2). split; [apply (concat_single C ok L); assumption|]. intros w. rewrite (concat_lang C ok L a b w A1 B1). unfold cat.
  split; intros (u & v & E & X & Y); exists u, v; (split; [exact E|]); (split; [apply A2; exact X|apply B2; exact Y]).
Qed.
Lemma fw_cons a b (P : N -> Prop) Q : for_words a (fun w => exists x, w = [x] /\ P x) -> for_words b Q ->
  for_words (nfa_concat C a b) (fun w => exists x v, w = x :: v /\ P x /\ Q v).
Proof.
  intros A B. eapply fw_ext; [apply fw_cat; [exact A|exact B]|]. intros w. cbn beta. split.
  - intros (u & v & E & (x & -> & X) & Y). exists x, v. auto.
  - intros (x & v & E & X & Y). exists [x], v. split; [exact E|]. split; [exists x; auto|exact Y].
Qed.
End Lang.

(** ** The tuples *)
Definition Q1 (f0 t0 x0 : N) : Prop := f0 <= x0 < t0.
Definition Q2 (f0 t0 f1 t1 x0 x1 : N) : Prop :=
  f0 = t0 /\ x0 = f0 /\ Q1 f1 t1 x1 \/
  f0 <> t0 /\ (x0 = f0 /\ Q1 f1 192 x1 \/ f0 < x0 < t0 /\ Q1 128 192 x1 \/ x0 = t0 /\ Q1 128 t1 x1).
Definition Q3 (f0 t0 f1 t1 f2 t2 x0 x1 x2 : N) : Prop :=
  f0 = t0 /\ x0 = f0 /\ Q2 f1 t1 f2 t2 x1 x2 \/
  f0 <> t0 /\ (x0 = f0 /\ Q2 f1 192 f2 t2 x1 x2 \/ f0 < x0 < t0 /\ Q2 128 192 f2 t2 x1 x2 \/ x0 = t0 /\ Q2 128 t1 f2 t2 x1 x2).
Definition Q4 (f0 t0 f1 t1 f2 t2 f3 t3 x0 x1 x2 x3 : N) : Prop :=
  f0 = t0 /\ x0 = f0 /\ Q3 f1 t1 f2 t2 f3 t3 x1 x2 x3 \/
  f0 <> t0 /\ (x0 = f0 /\ Q3 f1 192 f2 t2 f3 t3 x1 x2 x3 \/ f0 < x0 < t0 /\ Q3 128 192 f2 t2 f3 t3 x1 x2 x3 \/ x0 = t0 /\ Q3 128 t1 f2 t2 f3 t3 x1 x2 x3).
Definition W1 (f0 t0 : N) (w : list N) : Prop := exists x0, w = [x0] /\ Q1 f0 t0 x0.
Definition W2 f0 t0 f1 t1 (w : list N) : Prop := exists x0 x1, w = [x0; x1] /\ Q2 f0 t0 f1 t1 x0 x1.
Definition W3 f0 t0 f1 t1 f2 t2 (w : list N) : Prop := exists x0 x1 x2, w = [x0; x1; x2] /\ Q3 f0 t0 f1 t1 f2 t2 x0 x1 x2.
Definition W4 f0 t0 f1 t1 f2 t2 f3 t3 (w : list N) : Prop := exists x0 x1 x2 x3, w = [x0; x1; x2; x3] /\ Q4 f0 t0 f1 t1 f2 t2 f3 t3 x0 x1 x2 x3.

Section Tuples.
Variable C : cset.
Variable ok : car C -> Prop.
Variable rng : N -> N -> car C.
Hypothesis R : ranged C ok rng.
Hypothesis SZ : 256 <= c_size C.
Notation fw := (for_words C ok).
Lemma tuples1_lang f0 t0 : t0 <= 256 -> fw (tuples1 C rng f0 t0) (W1 f0 t0).
Proof. intros H. apply (fw_rng C ok rng R). lia. Qed.
(** The common shape. *)
Lemma tuples_step (sub : N -> N -> nfa C) (W : N -> N -> list N -> Prop) f0 t0 f1 t1 :
  f0 < 256 -> t0 < 256 -> (forall f t, (f = f1 \/ f = 128) -> (t = t1 \/ t = 192) -> fw (sub f t) (W f t)) ->
  fw (if f0 =? t0 then nfa_concat C (nfa_set C (c_char C f0)) (sub f1 t1)
      else nfa_or C (nfa_or C (nfa_or C (nfa_empty C) (nfa_concat C (nfa_set C (c_char C f0)) (sub f1 192)))
        (nfa_concat C (nfa_set C (rng (f0 + 1) t0)) (sub 128 192))) (nfa_concat C (nfa_set C (c_char C t0)) (sub 128 t1)))
    (fun w => exists x v, w = x :: v /\ (f0 = t0 /\ x = f0 /\ W f1 t1 v \/ f0 <> t0 /\ (x = f0 /\ W f1 192 v \/ f0 < x < t0 /\ W 128 192 v \/ x = t0 /\ W 128 t1 v))).
Proof.
  intros F T H. pose proof (ranged_supported C ok rng R) as SS. destruct (N.eqb_spec f0 t0) as [E|E].
  - eapply fw_ext; [apply (fw_cons C ok rng R); [apply (fw_char C ok rng R); lia|apply H; auto]|]. intros w. cbn beta. split.
    + intros (x & v & -> & -> & X). exists f0, v. auto.
    + intros (x & v & -> & [(_ & -> & X)|(N & _)]); [|contradiction]. exists f0, v. auto.
  - eapply fw_ext.
    + apply (fw_or C ok rng R); [apply (fw_or C ok rng R); [apply (fw_or C ok rng R); [apply fw_empty|]|]|].
      * apply (fw_cons C ok rng R); [apply (fw_char C ok rng R); lia|apply H; auto].
      * apply (fw_cons C ok rng R); [apply (fw_rng C ok rng R); lia|apply H; auto].
      * apply (fw_cons C ok rng R); [apply (fw_char C ok rng R); lia|apply H; auto].
    + intros w. cbn beta. split.
      * intros [[[[]|(x & v & -> & -> & X)]|(x & v & -> & K & X)]|(x & v & -> & -> & X)].
        { exists f0, v. split; [reflexivity|]. right. split; [exact E|]. left. auto. }
        { exists x, v. split; [reflexivity|]. right. split; [exact E|]. right. left. split; [lia|exact X]. }
        { exists t0, v. split; [reflexivity|]. right. split; [exact E|]. right. right. auto. }
      * intros (x & v & -> & [(Q & _)|(_ & [(-> & X)|[(K & X)|(-> & X)]])]); [contradiction|..].
        { left. left. right. exists f0, v. auto. }
        { left. right. exists x, v. split; [reflexivity|]. split; [lia|exact X]. }
        { right. exists t0, v. auto. }
Qed.
Lemma tuples2_lang f0 t0 f1 t1 : f0 < 256 -> t0 < 256 -> t1 <= 256 -> fw (tuples2 C rng f0 t0 f1 t1) (W2 f0 t0 f1 t1).
Proof.
  intros F T T1. eapply fw_ext; [apply (tuples_step (tuples1 C rng) W1 f0 t0 f1 t1 F T)|].
  - intros f t _ [-> | ->]; apply tuples1_lang; lia.
  - intros w. unfold W2, W1, Q2. split.
    + intros (x & v & -> & K). assert (KK : exists y, v = [y]) by (destruct K as [(_ & _ & y & -> & _)|(_ & [(_ & y & -> & _)|[(_ & y & -> & _)|(_ & y & -> & _)]])]; exists y; reflexivity).
      destruct KK as (y & ->). exists x, y. split; [reflexivity|].
      destruct K as [(A & B & z & E & K)|(A & [(B & z & E & K)|[(B & z & E & K)|(B & z & E & K)]])]; injection E as <-; tauto.
    + intros (x & y & -> & K). exists x, [y]. split; [reflexivity|].
      destruct K as [(A & B & K)|(A & [(B & K)|[(B & K)|(B & K)]])]; [left|right; split; [exact A|]..].
      * split; [exact A|]. split; [exact B|]. exists y. auto.
      * left. split; [exact B|]. exists y. auto.
      * right. left. split; [exact B|]. exists y. auto.
      * right. right. split; [exact B|]. exists y. auto.
Qed.
Lemma tuples3_lang f0 t0 f1 t1 f2 t2 : f0 < 256 -> t0 < 256 -> f1 < 256 -> t1 < 256 -> t2 <= 256 -> fw (tuples3 C rng f0 t0 f1 t1 f2 t2) (W3 f0 t0 f1 t1 f2 t2).
Proof.
  intros F T F1 T1 T2. eapply fw_ext; [apply (tuples_step (fun a b => tuples2 C rng a b f2 t2) (fun a b => W2 a b f2 t2) f0 t0 f1 t1 F T)|].
  - intros f t [-> | ->] [-> | ->]; apply tuples2_lang; lia.
  - intros w. unfold W3, W2, Q3. split.
    + intros (x & v & -> & K). assert (KK : exists y z, v = [y; z]) by (destruct K as [(_ & _ & y & z & -> & _)|(_ & [(_ & y & z & -> & _)|[(_ & y & z & -> & _)|(_ & y & z & -> & _)]])]; exists y, z; reflexivity).
      destruct KK as (y & z & ->). exists x, y, z. split; [reflexivity|].
      destruct K as [(A & B & y' & z' & E & K)|(A & [(B & y' & z' & E & K)|[(B & y' & z' & E & K)|(B & y' & z' & E & K)]])]; injection E as <- <-; tauto.
    + intros (x & y & z & -> & K). exists x, [y; z]. split; [reflexivity|].
      destruct K as [(A & B & K)|(A & [(B & K)|[(B & K)|(B & K)]])]; [left|right; split; [exact A|]..].
      * split; [exact A|]. split; [exact B|]. exists y, z. auto.
      * left. split; [exact B|]. exists y, z. auto.
      * right. left. split; [exact B|]. exists y, z. auto.
      * right. right. split; [exact B|]. exists y, z. auto.
Qed.
Lemma tuples4_lang f0 t0 f1 t1 f2 t2 f3 t3 : f0 < 256 -> t0 < 256 -> f1 < 256 -> t1 < 256 -> f2 < 256 -> t2 < 256 -> t3 <= 256 ->
  fw (tuples4 C rng f0 t0 f1 t1 f2 t2 f3 t3) (W4 f0 t0 f1 t1 f2 t2 f3 t3).
Proof.
  intros F T F1 T1 F2 T2 T3. eapply fw_ext; [apply (tuples_step (fun a b => tuples3 C rng a b f2 t2 f3 t3) (fun a b => W3 a b f2 t2 f3 t3) f0 t0 f1 t1 F T)|].
  - intros f t [-> | ->] [-> | ->]; apply tuples3_lang; lia.
  - intros w. unfold W4, W3, Q4. split.
    + intros (x & v & -> & K). assert (KK : exists y z a, v = [y; z; a]) by (destruct K as [(_ & _ & y & z & a & -> & _)|(_ & [(_ & y & z & a & -> & _)|[(_ & y & z & a & -> & _)|(_ & y & z & a & -> & _)]])]; exists y, z, a; reflexivity).
      destruct KK as (y & z & a & ->). exists x, y, z, a. split; [reflexivity|].
      destruct K as [(A & B & y' & z' & a' & E & K)|(A & [(B & y' & z' & a' & E & K)|[(B & y' & z' & a' & E & K)|(B & y' & z' & a' & E & K)]])]; injection E as <- <- <-; tauto.
    + intros (x & y & z & a & -> & K). exists x, [y; z; a]. split; [reflexivity|].
      destruct K as [(A & B & K)|(A & [(B & K)|[(B & K)|(B & K)]])]; [left|right; split; [exact A|]..].
      * split; [exact A|]. split; [exact B|]. exists y, z, a. auto.
      * left. split; [exact B|]. exists y, z, a. auto.
      * right. left. split; [exact B|]. exists y, z, a. auto.
      * right. right. split; [exact B|]. exists y, z, a. auto.
Qed.
End Tuples.

(** ** Values *)
Definition V2 (x0 x1 : N) : N := x0 * 64 + x1.
Definition cond3 f0 t0 t1 f2 t2 : Prop := f0 = t0 \/ t2 = 128 /\ (f2 = 128 \/ t0 = f0 + 1 /\ t1 = 128).
Definition cond4 f0 t0 f1 t1 f2 t2 f3 t3 : Prop :=
  f0 = t0 /\ cond3 f1 t1 t2 f3 t3 \/
  f0 <> t0 /\ t2 = 128 /\ t3 = 128 /\ f2 = 128 /\ (f3 = 128 \/ f1 = 191 /\ t0 = f0 + 1 /\ t1 = 128).
Definition dg (x : N) : Prop := 128 <= x < 192.
Lemma Q2_value f0 t0 f1 t1 x0 x1 : dg f1 -> dg t1 -> f0 * 64 + f1 <= t0 * 64 + t1 ->
  (Q2 f0 t0 f1 t1 x0 x1 <-> dg x1 /\ f0 * 64 + f1 <= x0 * 64 + x1 < t0 * 64 + t1).
Proof. unfold Q2, Q1, dg. intros F T H. lia. Qed.
(** The pieces of the longer tuples. *)
Lemma Q2_up f1 f2 x1 x2 : dg f1 -> dg f2 -> (Q2 f1 192 f2 128 x1 x2 <-> dg x1 /\ dg x2 /\ f1 * 64 + f2 <= x1 * 64 + x2).
Proof. unfold Q2, Q1, dg. lia. Qed.
Lemma Q2_all x1 x2 : Q2 128 192 128 128 x1 x2 <-> dg x1 /\ dg x2.
Proof. unfold Q2, Q1, dg. lia. Qed.
Lemma Q2_below t1 x1 x2 : dg t1 -> (Q2 128 t1 128 128 x1 x2 <-> dg x1 /\ dg x2 /\ x1 < t1).
Proof. unfold Q2, Q1, dg. lia. Qed.
Lemma Q2_none f2 x1 x2 : dg f2 -> (Q2 128 128 f2 128 x1 x2 <-> False).
Proof. unfold Q2, Q1, dg. lia. Qed.
Lemma Q3_same f0 f1 t1 f2 t2 x0 x1 x2 : Q3 f0 f0 f1 t1 f2 t2 x0 x1 x2 <-> x0 = f0 /\ Q2 f1 t1 f2 t2 x1 x2.
Proof. unfold Q3. tauto. Qed.
Lemma Q3_diff f0 t0 f1 t1 f2 t2 x0 x1 x2 : f0 <> t0 ->
  (Q3 f0 t0 f1 t1 f2 t2 x0 x1 x2 <-> x0 = f0 /\ Q2 f1 192 f2 t2 x1 x2 \/ f0 < x0 < t0 /\ Q2 128 192 f2 t2 x1 x2 \/ x0 = t0 /\ Q2 128 t1 f2 t2 x1 x2).
Proof. unfold Q3. tauto. Qed.
Lemma Q4_same f0 f1 t1 f2 t2 f3 t3 x0 x1 x2 x3 : Q4 f0 f0 f1 t1 f2 t2 f3 t3 x0 x1 x2 x3 <-> x0 = f0 /\ Q3 f1 t1 f2 t2 f3 t3 x1 x2 x3.
Proof. unfold Q4. tauto. Qed.
Lemma Q4_diff f0 t0 f1 t1 f2 t2 f3 t3 x0 x1 x2 x3 : f0 <> t0 ->
  (Q4 f0 t0 f1 t1 f2 t2 f3 t3 x0 x1 x2 x3 <-> x0 = f0 /\ Q3 f1 192 f2 t2 f3 t3 x1 x2 x3 \/ f0 < x0 < t0 /\ Q3 128 192 f2 t2 f3 t3 x1 x2 x3 \/ x0 = t0 /\ Q3 128 t1 f2 t2 f3 t3 x1 x2 x3).
Proof. unfold Q4. tauto. Qed.
Ltac ands := repeat match goal with H : _ /\ _ |- _ => destruct H end.
Ltac ars := unfold dg in *; split; [intros X; repeat match goal with H : _ \/ _ |- _ => destruct H end; ands; repeat split; lia|intros X; ands].

Section Three.
Variables f0 t0 f1 t1 f2 t2 : N.
Hypothesis (D1 : dg f1) (D2 : dg t1) (D3 : dg f2) (D4 : dg t2).
Hypothesis LE : f0 * 4096 + f1 * 64 + f2 <= t0 * 4096 + t1 * 64 + t2.
Definition in3 x0 x1 x2 : Prop := dg x1 /\ dg x2 /\ f0 * 4096 + f1 * 64 + f2 <= x0 * 4096 + x1 * 64 + x2 < t0 * 4096 + t1 * 64 + t2.
Lemma Q3_sound x0 x1 x2 : cond3 f0 t0 t1 f2 t2 -> (Q3 f0 t0 f1 t1 f2 t2 x0 x1 x2 <-> in3 x0 x1 x2).
Proof.
  unfold in3. intros [E|(E & K)].
  - subst t0. rewrite Q3_same, Q2_value by (try assumption; unfold dg in *; lia). unfold dg in *. lia.
  - subst t2. destruct (N.eq_dec f0 t0) as [->|NE].
    { rewrite Q3_same, Q2_value by (try assumption; unfold dg in *; lia). unfold dg in *. lia. }
    assert (LT : f0 < t0) by (unfold dg in *; lia).
    rewrite Q3_diff by exact NE. rewrite Q2_up by assumption. destruct K as [->|(-> & ->)].
    + rewrite Q2_all, Q2_below by assumption. unfold dg in *. clear -LT D1 D2. lia.
    + rewrite Q2_none by assumption. unfold dg in *. clear -LT D1 D3. lia.
Qed.
Lemma Q3_complete : (forall x0 x1 x2, Q3 f0 t0 f1 t1 f2 t2 x0 x1 x2 <-> in3 x0 x1 x2) -> cond3 f0 t0 t1 f2 t2.
Proof.
  unfold in3. intros H. unfold cond3. destruct (N.eq_dec f0 t0) as [E|NE]; [left; exact E|right]. assert (LT : f0 < t0) by (unfold dg in *; lia).
  unfold dg in *. assert (T2 : t2 = 128).
  { destruct (N.eq_dec t2 128) as [E|N2]; [exact E|]. exfalso. assert (K : Q3 f0 t0 f1 t1 f2 t2 f0 192 128) by (apply Q3_diff; [exact NE|]; left; unfold Q2, Q1; lia).
    apply H in K. lia. }
  split; [exact T2|]. destruct (N.eq_dec f2 128) as [E2|N2]; [left; exact E2|right]. subst t2.
  assert (T0 : t0 = f0 + 1).
  { destruct (N.eq_dec t0 (f0 + 1)) as [E|N0]; [exact E|]. exfalso. assert (K : Q3 f0 t0 f1 t1 f2 128 (f0 + 1) 128 128) by (apply H; lia).
    apply Q3_diff in K; [|exact NE]. unfold Q2, Q1 in K. lia. }
  split; [exact T0|]. destruct (N.eq_dec t1 128) as [E|N1]; [exact E|]. exfalso. assert (K : Q3 f0 t0 f1 t1 f2 128 t0 128 128) by (apply H; lia).
  apply Q3_diff in K; [|exact NE]. unfold Q2, Q1 in K. lia.
Qed.
End Three.

Lemma Q3_up f1 f3 x1 x2 x3 : dg f1 -> dg f3 -> (f3 = 128 \/ f1 = 191) ->
  (Q3 f1 192 128 128 f3 128 x1 x2 x3 <-> dg x1 /\ dg x2 /\ dg x3 /\ f1 * 4096 + 128 * 64 + f3 <= x1 * 4096 + x2 * 64 + x3).
Proof.
  intros D1 D3 K. rewrite Q3_diff by (unfold dg in D1; lia). rewrite Q2_up by (try assumption; unfold dg; lia). rewrite Q2_none by assumption.
  destruct K as [->| ->]; unfold dg in *; lia.
Qed.
Lemma Q3_all x1 x2 x3 : Q3 128 192 128 128 128 128 x1 x2 x3 <-> dg x1 /\ dg x2 /\ dg x3.
Proof. rewrite Q3_up by (unfold dg; lia). unfold dg. lia. Qed.
Lemma Q3_below t1 x1 x2 x3 : dg t1 -> (Q3 128 t1 128 128 128 128 x1 x2 x3 <-> dg x1 /\ dg x2 /\ dg x3 /\ x1 < t1).
Proof.
  intros D. destruct (N.eq_dec 128 t1) as [E|E].
  - subst t1. rewrite Q3_same, Q2_none by (unfold dg; lia). unfold dg in *. lia.
  - rewrite Q3_diff by exact E. rewrite Q2_up, Q2_none by (unfold dg; lia). unfold dg in *. lia.
Qed.
Lemma Q3_none f3 x1 x2 x3 : dg f3 -> (Q3 128 128 128 128 f3 128 x1 x2 x3 <-> False).
Proof. intros D. rewrite Q3_same, Q2_none by assumption. tauto. Qed.

Section Four.
Variables f0 t0 f1 t1 f2 t2 f3 t3 : N.
Hypothesis (D1 : dg f1) (D2 : dg t1) (D3 : dg f2) (D4 : dg t2) (D5 : dg f3) (D6 : dg t3).
Hypothesis LE : f0 * 262144 + f1 * 4096 + f2 * 64 + f3 <= t0 * 262144 + t1 * 4096 + t2 * 64 + t3.
Definition in4 x0 x1 x2 x3 : Prop := dg x1 /\ dg x2 /\ dg x3 /\
  f0 * 262144 + f1 * 4096 + f2 * 64 + f3 <= x0 * 262144 + x1 * 4096 + x2 * 64 + x3 < t0 * 262144 + t1 * 4096 + t2 * 64 + t3.
Lemma Q4_sound x0 x1 x2 x3 : cond4 f0 t0 f1 t1 f2 t2 f3 t3 -> (Q4 f0 t0 f1 t1 f2 t2 f3 t3 x0 x1 x2 x3 <-> in4 x0 x1 x2 x3).
Proof.
  unfold in4. intros [(E & K)|(NE & E2 & E3 & F2 & K)].
  - subst t0. rewrite Q4_same, Q3_sound by (try assumption; unfold dg in *; lia). unfold in3, dg in *. lia.
  - subst t2 t3 f2. assert (LT : f0 < t0) by (unfold dg in *; lia). rewrite Q4_diff by exact NE. rewrite Q3_up by (try assumption; tauto).
    destruct K as [->|(-> & -> & ->)].
    + rewrite Q3_all, Q3_below by assumption. unfold dg in *. clear -LT D1 D2. lia.
    + rewrite Q3_none by assumption. unfold dg in *. clear -D5. lia.
Qed.
Lemma Q4_complete : (forall x0 x1 x2 x3, Q4 f0 t0 f1 t1 f2 t2 f3 t3 x0 x1 x2 x3 <-> in4 x0 x1 x2 x3) -> cond4 f0 t0 f1 t1 f2 t2 f3 t3.
Proof.
  unfold in4. intros H. unfold cond4. destruct (N.eq_dec f0 t0) as [E|NE].
  - left. split; [exact E|]. subst t0. apply (Q3_complete f1 t1 f2 t2 f3 t3); try assumption; [unfold dg in *; lia|].
    intros x1 x2 x3. specialize (H f0 x1 x2 x3). rewrite Q4_same in H. unfold in3, dg in *. split.
    + intros K. assert (K' : f0 = f0 /\ Q3 f1 t1 f2 t2 f3 t3 x1 x2 x3) by (split; [reflexivity|exact K]). apply H in K'. clear H K. repeat split; lia.
    + intros K. apply H. clear H. repeat split; lia.
  - right. split; [exact NE|]. assert (LT : f0 < t0) by (unfold dg in *; lia). unfold dg in *.
    assert (T3 : t3 = 128).
    { destruct (N.eq_dec t3 128) as [E|N]; [exact E|]. exfalso.
      assert (K : Q4 f0 t0 f1 t1 f2 t2 f3 t3 f0 f1 192 128) by (apply Q4_diff; [exact NE|]; left; split; [reflexivity|]; apply Q3_diff; [lia|]; left; unfold Q2, Q1; lia).
      apply H in K. lia. }
    subst t3. assert (T2 : t2 = 128).
    { destruct (N.eq_dec t2 128) as [E|N]; [exact E|]. exfalso.
      assert (K : Q4 f0 t0 f1 t1 f2 t2 f3 128 f0 192 128 f3) by (apply Q4_diff; [exact NE|]; left; split; [reflexivity|]; apply Q3_diff; [lia|]; right; right; unfold Q2, Q1; lia).
      apply H in K. lia. }
    subst t2. split; [reflexivity|]. split; [reflexivity|].
    assert (F2 : f2 = 128).
    { destruct (N.eq_dec f2 128) as [E|N]; [exact E|]. exfalso. destruct (N.eq_dec t1 128) as [E1|N1].
      - subst t1. assert (K : Q4 f0 t0 f1 128 f2 128 f3 128 t0 128 f2 f3) by (apply Q4_diff; [exact NE|]; right; right; split; [reflexivity|]; apply Q3_same; split; [reflexivity|]; unfold Q2, Q1; lia).
        apply H in K. lia.
      - assert (K : Q4 f0 t0 f1 t1 f2 128 f3 128 t0 128 128 128) by (apply H; repeat split; lia).
        apply Q4_diff in K; [|exact NE]. destruct K as [(K & _)|[(K & _)|(_ & K)]]; [lia|lia|]. apply Q3_diff in K; [|lia]. unfold Q2, Q1 in K. lia. }
    split; [exact F2|]. subst f2. destruct (N.eq_dec f3 128) as [E3|N3]; [left; exact E3|right].
    assert (F1 : f1 = 191).
    { destruct (N.eq_dec f1 191) as [E|N]; [exact E|]. exfalso. assert (K : Q4 f0 t0 f1 t1 128 128 f3 128 f0 (f1 + 1) 128 128) by (apply H; repeat split; lia).
      apply Q4_diff in K; [|exact NE]. destruct K as [(_ & K)|[(K & _)|(K & _)]]; [|lia|lia]. apply Q3_diff in K; [|lia]. unfold Q2, Q1 in K. lia. }
    split; [exact F1|]. assert (T0 : t0 = f0 + 1).
    { destruct (N.eq_dec t0 (f0 + 1)) as [E|N]; [exact E|]. exfalso. assert (K : Q4 f0 t0 f1 t1 128 128 f3 128 (f0 + 1) 128 128 128) by (apply H; repeat split; lia).
      apply Q4_diff in K; [|exact NE]. destruct K as [(K & _)|[(_ & K)|(K & _)]]; [lia| |lia]. apply Q3_diff in K; [|lia]. unfold Q2, Q1 in K. lia. }
    split; [exact T0|]. destruct (N.eq_dec t1 128) as [E|N]; [exact E|]. exfalso. assert (K : Q4 f0 t0 f1 t1 128 128 f3 128 t0 128 128 128) by (apply H; repeat split; lia).
    apply Q4_diff in K; [|exact NE]. destruct K as [(K & _)|[(K & _)|(_ & K)]]; [lia|lia|]. apply Q3_diff in K; [|lia]. unfold Q2, Q1 in K. lia.
Qed.
End Four.

(** ** Digits of a code point *)
Lemma digit_eq k x : digit k x = (x / 2 ^ (6 * k)) mod 64 + 128.
Proof. unfold digit. rewrite N.shiftr_div_pow2, land_3f. reflexivity. Qed.
Lemma digit0 x : digit 0 x = x mod 64 + 128.
Proof. rewrite digit_eq. change (2 ^ (6 * 0)) with 1. rewrite N.div_1_r. reflexivity. Qed.
Lemma digit1 x : digit 1 x = (x / 64) mod 64 + 128. Proof. apply digit_eq. Qed.
Lemma digit2 x : digit 2 x = (x / 4096) mod 64 + 128. Proof. apply digit_eq. Qed.
Lemma top_eq k x : top k x = x / 2 ^ (6 * k).
Proof. unfold top. apply N.shiftr_div_pow2. Qed.
Lemma digit_dg k x : dg (digit k x).
Proof. rewrite digit_eq. pose proof (N.mod_lt (x / 2 ^ (6 * k)) 64 ltac:(discriminate)) as H. unfold dg. revert H. generalize ((x / 2 ^ (6 * k)) mod 64). intros n H. lia. Qed.
Lemma split_2 x : x + 192 * 64 + 128 = (top 1 x + 192) * 64 + digit 0 x.
Proof. rewrite digit0, top_eq. change (2 ^ (6 * 1)) with 64. pose proof (N.div_mod x 64 ltac:(discriminate)). lia. Qed.
Lemma split_3 x : x + 224 * 4096 + 128 * 64 + 128 = (top 2 x + 224) * 4096 + digit 1 x * 64 + digit 0 x.
Proof.
  rewrite digit0, digit1, top_eq. change (2 ^ (6 * 2)) with (64 * 64). rewrite (div64 x 64). pose proof (N.div_mod x 64 ltac:(discriminate)).
  pose proof (N.div_mod (x / 64) 64 ltac:(discriminate)). lia.
Qed.
Lemma split_4 x : x + 240 * 262144 + 128 * 4096 + 128 * 64 + 128 = (top 3 x + 240) * 262144 + digit 2 x * 4096 + digit 1 x * 64 + digit 0 x.
Proof.
  rewrite digit0, digit1, digit2, top_eq. change (2 ^ (6 * 3)) with 262144. rewrite (div64 x 4096 : x / 262144 = x / 4096 / 64), (div64 x 64 : x / 4096 = x / 64 / 64). pose proof (N.div_mod x 64 ltac:(discriminate)).
  pose proof (N.div_mod (x / 64) 64 ltac:(discriminate)). pose proof (N.div_mod (x / 64 / 64) 64 ltac:(discriminate)). lia.
Qed.
(** Encodings by length. *)
Lemma utf8_2 c : 0x80 <= c < 0x800 -> utf8_char c = [top 1 c + 192; digit 0 c].
Proof.
  intros H. unfold utf8_char. destruct (N.ltb_spec c 0x80); [lia|]. destruct (N.ltb_spec c 0x800); [|lia]. rewrite digit0, top_eq. change (2 ^ (6 * 1)) with 64.
  f_equal; [|f_equal]; apply N.add_comm.
Qed.
Lemma utf8_3 c : 0x800 <= c < 0x10000 -> utf8_char c = [top 2 c + 224; digit 1 c; digit 0 c].
Proof.
  intros H. unfold utf8_char. destruct (N.ltb_spec c 0x80); [lia|]. destruct (N.ltb_spec c 0x800); [lia|]. destruct (N.ltb_spec c 0x10000); [|lia].
  rewrite digit0, digit1, top_eq. change (2 ^ (6 * 2)) with 4096. f_equal; [|f_equal; [|f_equal]]; apply N.add_comm.
Qed.
Lemma utf8_4 c : 0x10000 <= c -> utf8_char c = [top 3 c + 240; digit 2 c; digit 1 c; digit 0 c].
Proof.
  intros H. unfold utf8_char. destruct (N.ltb_spec c 0x80); [lia|]. destruct (N.ltb_spec c 0x800); [lia|]. destruct (N.ltb_spec c 0x10000); [lia|].
  rewrite digit0, digit1, digit2, top_eq. change (2 ^ (6 * 3)) with 262144. f_equal; [|f_equal; [|f_equal; [|f_equal]]]; apply N.add_comm.
Qed.
Definition Enc (b e : N) (w : list N) : Prop := exists c, b <= c < e /\ w = utf8_char c.
Lemma Enc2 b e w : 0x80 <= b -> e <= 0x800 ->
  (Enc b e w <-> exists x0 x1, w = [x0; x1] /\ dg x1 /\ b + 192 * 64 + 128 <= x0 * 64 + x1 < e + 192 * 64 + 128).
Proof.
  intros B E. split.
  - intros (c & K & ->). rewrite utf8_2 by lia. exists (top 1 c + 192), (digit 0 c). split; [reflexivity|]. split; [apply digit_dg|]. rewrite <- split_2. lia.
  - intros (x0 & x1 & -> & D & K). set (c := x0 * 64 + x1 - 192 * 64 - 128). exists c. split; [unfold c; lia|]. rewrite utf8_2 by (unfold c; lia).
    pose proof (split_2 c) as SP. pose proof (digit_dg 0 c) as D0. unfold dg in *. assert (X : c + 192 * 64 + 128 = x0 * 64 + x1) by (unfold c; lia). rewrite X in SP. f_equal; [|f_equal]; lia.
Qed.
Lemma Enc3 b e w : 0x800 <= b -> e <= 0x10000 ->
  (Enc b e w <-> exists x0 x1 x2, w = [x0; x1; x2] /\ dg x1 /\ dg x2 /\ b + 224 * 4096 + 128 * 64 + 128 <= x0 * 4096 + x1 * 64 + x2 < e + 224 * 4096 + 128 * 64 + 128).
Proof.
  intros B E. split.
  - intros (c & K & ->). rewrite utf8_3 by lia. exists (top 2 c + 224), (digit 1 c), (digit 0 c). split; [reflexivity|]. split; [apply digit_dg|]. split; [apply digit_dg|]. rewrite <- split_3. lia.
  - intros (x0 & x1 & x2 & -> & D1 & D2 & K). set (c := x0 * 4096 + x1 * 64 + x2 - 224 * 4096 - 128 * 64 - 128). exists c. split; [unfold c; lia|]. rewrite utf8_3 by (unfold c; lia).
    pose proof (split_3 c) as SP. pose proof (digit_dg 0 c) as G0. pose proof (digit_dg 1 c) as G1. unfold dg in *.
    assert (X : c + 224 * 4096 + 128 * 64 + 128 = x0 * 4096 + x1 * 64 + x2) by (unfold c; lia). rewrite X in SP. clearbody c. f_equal; [|f_equal; [|f_equal]]; lia.
Qed.
Lemma Enc4 b e w : 0x10000 <= b ->
  (Enc b e w <-> exists x0 x1 x2 x3, w = [x0; x1; x2; x3] /\ dg x1 /\ dg x2 /\ dg x3 /\
     b + 240 * 262144 + 128 * 4096 + 128 * 64 + 128 <= x0 * 262144 + x1 * 4096 + x2 * 64 + x3 < e + 240 * 262144 + 128 * 4096 + 128 * 64 + 128).
Proof.
  intros B. split.
  - intros (c & K & ->). rewrite utf8_4 by lia. exists (top 3 c + 240), (digit 2 c), (digit 1 c), (digit 0 c). split; [reflexivity|]. do 3 (split; [apply digit_dg|]). rewrite <- split_4. lia.
  - intros (x0 & x1 & x2 & x3 & -> & D1 & D2 & D3 & K). set (c := x0 * 262144 + x1 * 4096 + x2 * 64 + x3 - 240 * 262144 - 128 * 4096 - 128 * 64 - 128). exists c. split; [unfold c; lia|]. rewrite utf8_4 by (unfold c; lia).
    pose proof (split_4 c) as SP. pose proof (digit_dg 0 c) as G0. pose proof (digit_dg 1 c) as G1. pose proof (digit_dg 2 c) as G2. unfold dg in *.
    assert (X : c + 240 * 262144 + 128 * 4096 + 128 * 64 + 128 = x0 * 262144 + x1 * 4096 + x2 * 64 + x3) by (unfold c; lia). rewrite X in SP. clearbody c. f_equal; [|f_equal; [|f_equal; [|f_equal]]]; lia.
Qed.
Lemma part2_words b e w : 0x80 <= b -> b <= e -> e <= 0x800 -> (W2 (top 1 b + 192) (top 1 e + 192) (digit 0 b) (digit 0 e) w <-> Enc b e w).
Proof.
  intros B BE E. rewrite Enc2 by assumption. unfold W2. assert (LE : (top 1 b + 192) * 64 + digit 0 b <= (top 1 e + 192) * 64 + digit 0 e) by (rewrite <- !split_2; lia).
  split; intros (x0 & x1 & Hw & K); exists x0, x1; (split; [exact Hw|]); [apply Q2_value in K; try apply digit_dg; try exact LE; rewrite !split_2; exact K|].
  apply Q2_value; try apply digit_dg; try exact LE. rewrite <- !split_2. exact K.
Qed.
Lemma part3_words b e : 0x800 <= b -> b <= e -> e <= 0x10000 ->
  ((forall w, W3 (top 2 b + 224) (top 2 e + 224) (digit 1 b) (digit 1 e) (digit 0 b) (digit 0 e) w <-> Enc b e w) <->
   cond3 (top 2 b + 224) (top 2 e + 224) (digit 1 e) (digit 0 b) (digit 0 e)).
Proof.
  intros B BE E. assert (LE : (top 2 b + 224) * 4096 + digit 1 b * 64 + digit 0 b <= (top 2 e + 224) * 4096 + digit 1 e * 64 + digit 0 e) by (rewrite <- !split_3; lia).
  split.
  - intros H. apply (Q3_complete (top 2 b + 224) (top 2 e + 224) (digit 1 b) (digit 1 e) (digit 0 b) (digit 0 e)); try apply digit_dg; [exact LE|].
    intros x0 x1 x2. specialize (H [x0; x1; x2]). rewrite Enc3 in H by assumption. unfold in3. rewrite <- !split_3. unfold W3 in H. split.
    + intros K. destruct (proj1 H) as (y0 & y1 & y2 & Y & Z); [exists x0, x1, x2; auto|]. injection Y as <- <- <-. exact Z.
    + intros K. destruct (proj2 H) as (y0 & y1 & y2 & Y & Z); [exists x0, x1, x2; auto|]. injection Y as <- <- <-. exact Z.
  - intros K w. rewrite Enc3 by assumption. unfold W3. split; intros (x0 & x1 & x2 & Hw & H); exists x0, x1, x2; (split; [exact Hw|]).
    + apply Q3_sound in H; try apply digit_dg; try exact LE; [|exact K]. unfold in3 in H. rewrite <- !split_3 in H. exact H.
    + apply Q3_sound; try apply digit_dg; try exact LE; [exact K|]. unfold in3. rewrite <- !split_3. exact H.
Qed.
Lemma part4_words b e : 0x10000 <= b -> b <= e ->
  ((forall w, W4 (top 3 b + 240) (top 3 e + 240) (digit 2 b) (digit 2 e) (digit 1 b) (digit 1 e) (digit 0 b) (digit 0 e) w <-> Enc b e w) <->
   cond4 (top 3 b + 240) (top 3 e + 240) (digit 2 b) (digit 2 e) (digit 1 b) (digit 1 e) (digit 0 b) (digit 0 e)).
Proof.
  intros B BE. assert (LE : (top 3 b + 240) * 262144 + digit 2 b * 4096 + digit 1 b * 64 + digit 0 b <= (top 3 e + 240) * 262144 + digit 2 e * 4096 + digit 1 e * 64 + digit 0 e) by (rewrite <- !split_4; lia).
  split.
  - intros H. apply (Q4_complete (top 3 b + 240) (top 3 e + 240) (digit 2 b) (digit 2 e) (digit 1 b) (digit 1 e) (digit 0 b) (digit 0 e)); try apply digit_dg; [exact LE|].
    intros x0 x1 x2 x3. specialize (H [x0; x1; x2; x3]). rewrite Enc4 in H by assumption. unfold in4. rewrite <- !split_4. unfold W4 in H. split.
    + intros K. destruct (proj1 H) as (y0 & y1 & y2 & y3 & Y & Z); [exists x0, x1, x2, x3; auto|]. injection Y as <- <- <- <-. exact Z.
    + intros K. destruct (proj2 H) as (y0 & y1 & y2 & y3 & Y & Z); [exists x0, x1, x2, x3; auto|]. injection Y as <- <- <- <-. exact Z.
  - intros K w. rewrite Enc4 by assumption. unfold W4. split; intros (x0 & x1 & x2 & x3 & Hw & H); exists x0, x1, x2, x3; (split; [exact Hw|]).
    + apply Q4_sound in H; try apply digit_dg; try exact LE; [|exact K]. unfold in4 in H. rewrite <- !split_4 in H. exact H.
    + apply Q4_sound; try apply digit_dg; try exact LE; [exact K|]. unfold in4. rewrite <- !split_4. exact H.
Qed.

Lemma div_digits b : exists b0 b1 b2 b3, b = b0 * 262144 + b1 * 4096 + b2 * 64 + b3 /\ b1 < 64 /\ b2 < 64 /\ b3 < 64 /\
  b / 262144 = b0 /\ b / 4096 = b0 * 64 + b1 /\ b / 64 = b0 * 4096 + b1 * 64 + b2 /\ b mod 64 = b3 /\ b mod 4096 = b2 * 64 + b3 /\ (b / 64) mod 64 = b2 /\ (b / 4096) mod 64 = b1.
Proof.
  pose proof (N.div_mod b 64 ltac:(discriminate)) as A1. pose proof (N.mod_lt b 64 ltac:(discriminate)) as A2.
  pose proof (N.div_mod (b / 64) 64 ltac:(discriminate)) as B1. pose proof (N.mod_lt (b / 64) 64 ltac:(discriminate)) as B2.
  pose proof (N.div_mod (b / 64 / 64) 64 ltac:(discriminate)) as C1. pose proof (N.mod_lt (b / 64 / 64) 64 ltac:(discriminate)) as C2.
  exists (b / 64 / 64 / 64), ((b / 64 / 64) mod 64), ((b / 64) mod 64), (b mod 64).
  rewrite (div64 b 4096 : b / 262144 = b / 4096 / 64), (div64 b 64 : b / 4096 = b / 64 / 64).
  assert (M : b mod 4096 = (b / 64) mod 64 * 64 + b mod 64).
  { symmetry. apply (N.mod_unique b 4096 (b / 64 / 64)); [lia|]. lia. }
  rewrite M. set (x := b / 64) in *. set (y := x / 64) in *. set (z := y / 64) in *. set (r := b mod 64) in *. set (q := x mod 64) in *. set (p := y mod 64) in *.
  repeat split; lia.
Qed.
Lemma cond3_tidy b e : cond3 (top 2 b + 224) (top 2 e + 224) (digit 1 e) (digit 0 b) (digit 0 e) <-> tidy3 b e.
Proof.
  unfold cond3, tidy3. rewrite !digit0, !digit1, !top_eq. change (2 ^ (6 * 2)) with 4096. change 0x1000 with 4096.
  destruct (div_digits b) as (b0 & b1 & b2 & b3 & B & L1 & L2 & L3 & E0 & E1 & E2 & E3 & E4 & E5 & E6).
  destruct (div_digits e) as (e0 & e1 & e2 & e3 & E & M1 & M2 & M3 & F0 & F1 & F2 & F3 & F4 & F5 & F6).
  rewrite E1, E3, F1, F3, F5. clear -E M1 M2 M3 L1 L2 L3. lia.
Qed.
Lemma cond4_tidy b e : cond4 (top 3 b + 240) (top 3 e + 240) (digit 2 b) (digit 2 e) (digit 1 b) (digit 1 e) (digit 0 b) (digit 0 e) <-> tidy4 b e.
Proof.
  unfold cond4, cond3, tidy4, tidy3. rewrite !digit0, !digit1, !digit2, !top_eq. change (2 ^ (6 * 3)) with 262144. change 0x1000 with 4096. change 0x40000 with 262144.
  destruct (div_digits b) as (b0 & b1 & b2 & b3 & B & L1 & L2 & L3 & E0 & E1 & E2 & E3 & E4 & E5 & E6).
  destruct (div_digits e) as (e0 & e1 & e2 & e3 & E & M1 & M2 & M3 & F0 & F1 & F2 & F3 & F4 & F5 & F6).
  rewrite ?E0, ?E1, ?E3, ?E4, ?E5, ?E6, ?F0, ?F1, ?F3, ?F4, ?F5, ?F6. clear -E B M1 M2 M3 L1 L2 L3. 
  destruct (N.eq_dec b0 e0) as [->|NE]; [|lia]. lia.
Qed.

Definition X4 b e := W4 (top 3 b + 240) (top 3 e + 240) (digit 2 b) (digit 2 e) (digit 1 b) (digit 1 e) (digit 0 b) (digit 0 e).
Definition X3 b e (w : list N) : Prop :=
  if b <? 0x10000 then
    if e <=? 0x10000 then W3 (top 2 b + 224) (top 2 e + 224) (digit 1 b) (digit 1 e) (digit 0 b) (digit 0 e) w
    else W3 (top 2 b + 224) 240 (digit 1 b) 192 (digit 0 b) 192 w \/ X4 0x10000 e w
  else X4 b e w.
Definition X2 b e (w : list N) : Prop :=
  if b <? 0x800 then
    if e <=? 0x800 then W2 (top 1 b + 192) (top 1 e + 192) (digit 0 b) (digit 0 e) w
    else W2 (top 1 b + 192) 224 (digit 0 b) 192 w \/ X3 0x800 e w
  else X3 b e w.
Definition X1 b e (w : list N) : Prop :=
  if b <? 0x80 then if e <=? 0x80 then W1 b e w else W1 b 0x80 w \/ X2 0x80 e w else X2 b e w.
Lemma top_bound k x n : x < n * 2 ^ (6 * k) -> top k x < n.
Proof. intros H. rewrite top_eq. apply N.div_lt_upper_bound; [apply N.pow_nonzero; discriminate|]. rewrite N.mul_comm. exact H. Qed.

Section Utf8.
Variable C : cset.
Variable ok : car C -> Prop.
Variable rng : N -> N -> car C.
Hypothesis R : ranged C ok rng.
Hypothesis SZ : c_size C = 256.
Notation fw := (for_words C ok).
Lemma dg256 k x : digit k x < 256. Proof. pose proof (digit_dg k x) as H. unfold dg in H. lia. Qed.
Lemma part4_lang res P b e : fw res P -> b <= e -> e <= 0x110000 -> fw (utf8_part4 C rng res b e) (fun w => P w \/ X4 b e w).
Proof.
  intros F B E. unfold utf8_part4, X4. apply (fw_or C ok rng R); [exact F|].
  pose proof (top_bound 3 b 16) as T1. pose proof (top_bound 3 e 16) as T2. change (16 * 2 ^ (6 * 3)) with 4194304 in *.
  apply (tuples4_lang C ok rng R); try apply dg256; try lia. apply N.lt_le_incl, dg256.
Qed.
Lemma part3_lang res P b e : fw res P -> b <= e -> e <= 0x110000 -> fw (utf8_part3 C rng res b e) (fun w => P w \/ X3 b e w).
Proof.
  intros F B E. unfold utf8_part3, X3. destruct (N.ltb_spec b 0x10000) as [K|K]; [|apply part4_lang; assumption].
  pose proof (top_bound 2 b 16) as T1. change (16 * 2 ^ (6 * 2)) with 65536 in *. destruct (N.leb_spec e 0x10000) as [J|J].
  - apply (fw_or C ok rng R); [exact F|]. pose proof (top_bound 2 e 17) as T2. change (17 * 2 ^ (6 * 2)) with 69632 in *.
    apply (tuples3_lang C ok rng R); try apply dg256; try lia. apply N.lt_le_incl, dg256.
  - eapply fw_ext; [apply part4_lang; [apply (fw_or C ok rng R); [exact F|]|lia|exact E]|].
    + apply (tuples3_lang C ok rng R); try apply dg256; lia.
    + intros w. cbn beta. change (224 + 16) with 240. change (128 + 64) with 192. tauto.
Qed.
Lemma part2_lang res P b e : fw res P -> b <= e -> e <= 0x110000 -> fw (utf8_part2 C rng res b e) (fun w => P w \/ X2 b e w).
Proof.
  intros F B E. unfold utf8_part2, X2. destruct (N.ltb_spec b 0x800) as [K|K]; [|apply part3_lang; assumption].
  pose proof (top_bound 1 b 32) as T1. change (32 * 2 ^ (6 * 1)) with 2048 in *. destruct (N.leb_spec e 0x800) as [J|J].
  - apply (fw_or C ok rng R); [exact F|]. pose proof (top_bound 1 e 33) as T2. change (33 * 2 ^ (6 * 1)) with 2112 in *.
    apply (tuples2_lang C ok rng R); try apply dg256; try lia. apply N.lt_le_incl, dg256.
  - eapply fw_ext; [apply part3_lang; [apply (fw_or C ok rng R); [exact F|]|lia|exact E]|].
    + apply (tuples2_lang C ok rng R); try apply dg256; lia.
    + intros w. cbn beta. change (192 + 32) with 224. change (128 + 64) with 192. tauto.
Qed.
Lemma utf8_range_words b e : b <= e -> e <= 0x110000 -> fw (utf8_range C rng b e) (X1 b e).
Proof.
  intros B E. unfold utf8_range, X1. destruct (N.ltb_spec b 0x80) as [K|K].
  - destruct (N.leb_spec e 0x80) as [J|J].
    + eapply fw_ext; [apply (fw_or C ok rng R); [apply fw_empty|apply (tuples1_lang C ok rng R); lia]|]. intros w. cbn beta. tauto.
    + eapply fw_ext; [apply part2_lang; [apply (fw_or C ok rng R); [apply fw_empty|apply (tuples1_lang C ok rng R); lia]|lia|exact E]|]. intros w. cbn beta. tauto.
  - eapply fw_ext; [apply part2_lang; [apply fw_empty|exact B|exact E]|]. intros w. cbn beta. tauto.
Qed.
End Utf8.
Lemma Enc1 b e w : e <= 0x80 -> (Enc b e w <-> W1 b e w).
Proof.
  intros E. unfold Enc, W1, Q1. assert (U : forall c, c < e -> utf8_char c = [c]) by (intros c H; unfold utf8_char; destruct (N.ltb_spec c 0x80); [reflexivity|lia]).
  split; intros (c & H); exists c; [destruct H as (H & ->); rewrite U by lia; auto|destruct H as (-> & H); rewrite U by lia; auto].
Qed.
Lemma Enc_split b m e w : b <= m -> m <= e -> (Enc b e w <-> Enc b m w \/ Enc m e w).
Proof.
  intros B E. unfold Enc. split.
  - intros (c & H & ->). destruct (N.ltb_spec c m); [left|right]; exists c; (split; [lia|reflexivity]).
  - intros [(c & H & ->)|(c & H & ->)]; exists c; (split; [lia|reflexivity]).
Qed.
(** No encoding looks like this. *)
Lemma Enc_e0 b e : ~ Enc b e [224; 128].
Proof.
  intros (c & _ & H). unfold utf8_char in H. destruct (N.ltb_spec c 0x80); [discriminate H|]. destruct (N.ltb_spec c 0x800) as [K|K].
  - apply (f_equal (fun l => nth 0 l 0)) in H. cbn [nth] in H. assert (c / 64 < 32) by (apply N.div_lt_upper_bound; lia). lia.
  - destruct (c <? 0x10000); discriminate H.
Qed.
Lemma Enc_c0 b e x y : ~ Enc b e [x; 192; y].
Proof.
  intros (c & _ & H). unfold utf8_char in H. destruct (c <? 0x80); [discriminate H|]. destruct (c <? 0x800); [discriminate H|].
  destruct (c <? 0x10000); [|discriminate H]. apply (f_equal (fun l => nth 1 l 0)) in H. cbn [nth] in H. pose proof (N.mod_lt (c / 64) 64 ltac:(discriminate)). lia.
Qed.
Theorem utf8_range_exact b e : b <= e -> e <= 0x110000 -> ((forall w, X1 b e w <-> Enc b e w) <-> tidy8 b e).
Proof.
  intros B E. unfold tidy8. unfold X1. destruct (N.ltb_spec b 0x80) as [K1|K1].
  { destruct (N.leb_spec e 0x80) as [J1|J1].
    - split; [intros _; left; lia|]. intros _ w. symmetry. apply Enc1. exact J1.
    - unfold X2. destruct (N.ltb_spec 0x80 0x800) as [_|Z]; [|lia]. destruct (N.leb_spec e 0x800) as [J2|J2].
      + split; [intros _; left; lia|]. intros _ w. rewrite (Enc_split b 0x80 e) by lia. rewrite (Enc1 b 0x80) by lia. rewrite part2_words by lia. reflexivity.
      + split; [|lia]. intros H. exfalso. apply (Enc_e0 b e). apply H. right. left. exists 224, 128. split; [reflexivity|]. unfold Q2, Q1. right. split; [discriminate|]. right. right. lia. }
  unfold X2. destruct (N.ltb_spec b 0x800) as [K2|K2].
  { destruct (N.leb_spec e 0x800) as [J2|J2].
    - split; [intros _; left; lia|]. intros _ w. apply part2_words; lia.
    - split; [|lia]. intros H. exfalso. apply (Enc_e0 b e). apply H. left. exists 224, 128. split; [reflexivity|]. unfold Q2, Q1. right.
      pose proof (top_bound 1 b 32) as T1. change (32 * 2 ^ (6 * 1)) with 2048 in T1. split; [lia|]. right. right. lia. }
  unfold X3. destruct (N.ltb_spec b 0x10000) as [K3|K3].
  { destruct (N.leb_spec e 0x10000) as [J3|J3].
    - rewrite part3_words by lia. rewrite cond3_tidy. split; [intros H; right; left; auto|]. intros [H|[(_ & _ & H)|(H & _)]]; [|exact H|lia].
      unfold tidy3. assert (b = 0x800 /\ e = 0x800) by lia. left. destruct H0 as (-> & ->). reflexivity.
    - split; [|lia]. intros H. exfalso. apply (Enc_c0 b e (top 2 b + 224) 128). apply H. left. exists (top 2 b + 224), 192, 128. split; [reflexivity|].
      pose proof (top_bound 2 b 16) as T1. change (16 * 2 ^ (6 * 2)) with 65536 in T1. pose proof (digit_dg 1 b) as D. unfold dg in D. apply Q3_diff; [lia|]. left. unfold Q2, Q1. lia. }
  unfold X4. rewrite part4_words by lia. rewrite cond4_tidy. split; [intros H; right; right; auto|]. intros [H|[(_ & H & _)|(_ & H)]]; [lia| |exact H].
  assert (X : b = 0x10000 /\ e = 0x10000) by lia. destruct X as (-> & ->). left. split; [reflexivity|]. left. reflexivity.
Qed.

(** ** UTF-16 *)
Lemma hi_eq x : x < 0x110000 -> hi x = 0xd800 + (x - 0x10000) / 1024.
Proof.
  intros H. unfold hi. rewrite N.shiftr_land. change (N.shiftr 0xffc00 10) with (N.ones 10). rewrite N.land_ones, N.shiftr_div_pow2. change (2 ^ 10) with 1024.
  rewrite N.mod_small by (apply N.div_lt_upper_bound; lia). lia.
Qed.
Lemma lo_eq x : lo x = 0xdc00 + (x - 0x10000) mod 1024.
Proof. unfold lo. change 0x3ff with (N.ones 10). rewrite N.land_ones. change (2 ^ 10) with 1024. lia. Qed.
Lemma halves x : 0x10000 <= x -> x < 0x110000 -> exists h l, x = 0x10000 + 1024 * h + l /\ h < 1024 /\ l < 1024 /\ hi x = 0xd800 + h /\ lo x = 0xdc00 + l /\ x / 1024 = 64 + h /\ x mod 1024 = l.
Proof.
  intros A B. exists ((x - 0x10000) / 1024), ((x - 0x10000) mod 1024). rewrite hi_eq, lo_eq by exact B.
  pose proof (N.div_mod (x - 0x10000) 1024 ltac:(discriminate)) as D. pose proof (N.mod_lt (x - 0x10000) 1024 ltac:(discriminate)) as M.
  assert (Q : (x - 0x10000) / 1024 < 1024) by (apply N.div_lt_upper_bound; lia).
  set (h := (x - 0x10000) / 1024) in *. set (l := (x - 0x10000) mod 1024) in *. repeat split; try lia.
Qed.
Definition Enc16 b e (w : list N) : Prop := exists c, b <= c < e /\ scalar c /\ w = utf16_char c.
Definition ones (P : N -> Prop) (w : list N) : Prop := exists x, w = [x] /\ P x.
Definition pairs (P : N -> N -> Prop) (w : list N) : Prop := exists h l, w = [0xd800 + h; 0xdc00 + l] /\ h < 1024 /\ l < 1024 /\ P h l.
Lemma Enc16_eq b e w : Enc16 b e w <-> ones (fun x => b <= x < e /\ x < 0x10000 /\ ~ (0xd800 <= x < 0xe000)) w \/ pairs (fun h l => b <= 0x10000 + 1024 * h + l < e) w.
Proof.
  unfold Enc16, ones, pairs, scalar, code_point, utf16_char. split.
  - intros (c & H & (K1 & K2) & ->). destruct (N.ltb_spec c 0x10000) as [J|J]; [left; exists c; auto|]. right.
    destruct (halves c J K1) as (h & l & E1 & E2 & E3 & E4 & E5 & _). rewrite hi_eq in E4 by exact K1. rewrite lo_eq in E5. exists h, l. split; [f_equal; [exact E4|f_equal; exact E5]|]. lia.
  - intros [(x & -> & H & K & J)|(h & l & -> & H & L & K)].
    + exists x. split; [exact H|]. split; [split; [lia|exact J]|]. destruct (N.ltb_spec x 0x10000); [reflexivity|lia].
    + exists (0x10000 + 1024 * h + l). split; [exact K|]. split; [lia|]. destruct (N.ltb_spec (0x10000 + 1024 * h + l) 0x10000); [lia|].
      replace (0x10000 + 1024 * h + l - 0x10000) with (h * 1024 + l) by lia. rewrite (N.div_add_l h 1024 l), N.div_small by lia. rewrite (N.add_comm (h * 1024)), N.mod_add, N.mod_small by lia. rewrite N.add_0_r. reflexivity.
Qed.
Lemma ones_ext P Q : (forall x, P x <-> Q x) -> forall w, ones P w <-> ones Q w.
Proof. intros H w. unfold ones. split; intros (x & E & K); exists x; (split; [exact E|]); apply H; exact K. Qed.
Lemma pairs_ext P Q : (forall h l, h < 1024 -> l < 1024 -> (P h l <-> Q h l)) -> forall w, pairs P w <-> pairs Q w.
Proof. intros H w. unfold pairs. split; intros (h & l & E & K1 & K2 & K); exists h, l; (split; [exact E|]); (split; [exact K1|]); (split; [exact K2|]); apply (H h l K1 K2); exact K. Qed.
Lemma pairs_or P Q w : pairs P w \/ pairs Q w <-> pairs (fun h l => P h l \/ Q h l) w.
Proof.
  unfold pairs. split.
  - intros [(h & l & H1 & H2 & H3 & H4)|(h & l & H1 & H2 & H3 & H4)]; exists h, l; auto 6.
  - intros (h & l & H1 & H2 & H3 & [H4|H4]); [left|right]; exists h, l; auto.
Qed.
Lemma no_ones P : (forall x, ~ P x) -> forall w, ~ ones P w.
Proof. intros H w (x & _ & K). exact (H x K). Qed.
Lemma no_pairs P : (forall h l, h < 1024 -> l < 1024 -> ~ P h l) -> forall w, ~ pairs P w.
Proof. intros H w (h & l & _ & K1 & K2 & K). exact (H h l K1 K2 K). Qed.
Lemma pairs_at P h l : h < 1024 -> l < 1024 -> (pairs P [0xd800 + h; 0xdc00 + l] <-> P h l).
Proof.
  intros H L. split.
  - intros (h' & l' & E & _ & _ & K). assert (E1 := f_equal (fun w => nth 0 w 0) E). assert (E2 := f_equal (fun w => nth 1 w 0) E). cbn [nth] in E1, E2.
    assert (h' = h) by lia. assert (l' = l) by lia. subst. exact K.
  - intros K. exists h, l. auto.
Qed.
Lemma ones_pair P h l : ~ ones P [h; l].
Proof. intros (x & E & _). discriminate E. Qed.

Section Utf16.
Variable C : cset.
Variable ok : car C -> Prop.
Variable rng : N -> N -> car C.
Hypothesis R : ranged C ok rng.
Hypothesis SZ : c_size C = 0x10000.
Let L := supported_laws C ok (ranged_supported C ok rng R).
Notation fw := (for_words C ok).
Notation set := (nfa_set C).
Lemma fw_pair h1 h2 l1 l2 : h2 <= 1024 -> l2 <= 1024 ->
  fw (nfa_concat C (set (rng (0xd800 + h1) (0xd800 + h2))) (set (rng (0xdc00 + l1) (0xdc00 + l2)))) (pairs (fun h l => h1 <= h < h2 /\ l1 <= l < l2)).
Proof.
  intros H1 H2. eapply fw_ext; [apply (fw_cons C ok rng R); apply (fw_rng C ok rng R); lia|]. intros w. unfold pairs. split.
  - intros (x & v & -> & Hx & y & -> & Hy). exists (x - 0xd800), (y - 0xdc00). split; [f_equal; [lia|f_equal; lia]|]. lia.
  - intros (h & l & -> & Hh & Hl & K1 & K2). exists (0xd800 + h), [0xdc00 + l]. split; [reflexivity|]. split; [lia|]. exists (0xdc00 + l). split; [reflexivity|lia].
Qed.
Lemma fw_two b1 e1 b2 e2 : e1 <= 0x10000 -> e2 <= 0x10000 -> fw (set (c_unite C (rng b1 e1) (rng b2 e2))) (ones (fun x => b1 <= x < e1 \/ b2 <= x < e2)).
Proof.
  intros H1 H2. rewrite <- SZ in H1, H2. destruct (rng_law C ok rng b1 e1 R H1) as (A1 & A2 & A3). destruct (rng_law C ok rng b2 e2 R H2) as (B1 & B2 & B3).
  destruct (l_unite C ok L _ _ A1 B1) as (U1 & U2 & U3). apply (fw_set C ok).
  - exact U1.
  - rewrite U2, A2. reflexivity.
  - intros x. rewrite U3, A3, B3. lia.
Qed.
Lemma fw_one b e : e <= 0x10000 -> fw (set (rng b e)) (ones (fun x => b <= x < e)).
Proof. intros H. apply (fw_rng C ok rng R). lia. Qed.
Lemma fw_or_pairs a c P1 P2 Q : fw a (fun w => ones P1 w \/ pairs P2 w) -> fw c (pairs Q) -> fw (nfa_or C a c) (fun w => ones P1 w \/ pairs (fun h l => P2 h l \/ Q h l) w).
Proof. intros A B. eapply fw_ext; [apply (fw_or C ok rng R); [exact A|exact B]|]. intros w. cbn beta. rewrite <- pairs_or. tauto. Qed.
Lemma fw_only_ones a P : fw a (ones P) -> fw a (fun w => ones P w \/ pairs (fun _ _ => False) w).
Proof. intros A. eapply fw_ext; [exact A|]. intros w. split; [auto|]. intros [H|H]; [exact H|]. destruct (no_pairs (fun _ _ => False)) with w; [|exact H]. auto. Qed.
Lemma fw_only_pairs a P : fw a (pairs P) -> fw a (fun w => ones (fun _ => False) w \/ pairs P w).
Proof. intros A. eapply fw_ext; [exact A|]. intros w. split; [auto|]. intros [H|H]; [|exact H]. destruct (no_ones (fun _ => False)) with w; [|exact H]. auto. Qed.
(** The automaton accepts the single units in [P] and the pairs in [Q]. *)
Definition shape (a : nfa C) (P : N -> Prop) (Q : N -> N -> Prop) : Prop := fw a (fun w => ones P w \/ pairs Q w).
Lemma shape_exact a P Q b e : shape a P Q ->
  ((forall w, lang C a w <-> Enc16 b e w) <->
   (forall x, P x <-> b <= x < e /\ x < 0x10000 /\ ~ (0xd800 <= x < 0xe000)) /\ forall h l, h < 1024 -> l < 1024 -> (Q h l <-> b <= 0x10000 + 1024 * h + l < e)).
Proof.
  intros (_ & H). split.
  - intros K. split.
    + intros x. specialize (H [x]). specialize (K [x]). rewrite H, Enc16_eq in K. unfold ones, pairs in K. split; intros J.
      * destruct K as (K & _). destruct K as [(y & E & Y)|(y & z & E & _)]; [left; exists x; auto| |discriminate E]. injection E as ->. exact Y.
      * destruct K as (_ & K). destruct K as [(y & E & Y)|(y & z & E & _)]; [left; exists x; auto| |discriminate E]. injection E as ->. exact Y.
    + intros h l Hh Hl. specialize (H [0xd800 + h; 0xdc00 + l]). specialize (K [0xd800 + h; 0xdc00 + l]). rewrite H, Enc16_eq, !pairs_at in K by assumption.
      split; intros J; [destruct K as (K & _)|destruct K as (_ & K)]; (destruct K as [K|K]; [right; exact J|destruct (ones_pair _ _ _ K)|exact K]).
  - intros (K1 & K2) w. rewrite H, Enc16_eq. rewrite (ones_ext _ _ K1 w), (pairs_ext _ _ K2 w). reflexivity.
Qed.
Lemma shape_empty : shape (nfa_empty C) (fun _ => False) (fun _ _ => False).
Proof. apply fw_only_ones. eapply fw_ext; [apply fw_empty|]. intros w. split; [contradiction|]. apply no_ones. auto. Qed.
Lemma utf16_row h1 h2 l1 : h2 <= 1024 ->
  fw (nfa_concat C (set (rng (0xd800 + h1) (0xd800 + h2))) (set (rng (0xdc00 + l1) 0xe000))) (pairs (fun h l => h1 <= h < h2 /\ l1 <= l)).
Proof. intros H. eapply fw_ext; [apply (fw_pair h1 h2 l1 1024); lia|]. apply pairs_ext. lia. Qed.
Lemma utf16_full h1 h2 : h2 <= 1024 -> fw (nfa_concat C (set (rng (0xd800 + h1) (0xd800 + h2))) (set (rng 0xdc00 0xe000))) (pairs (fun h _ => h1 <= h < h2)).
Proof. intros H. eapply fw_ext; [apply (fw_pair h1 h2 0 1024); lia|]. apply pairs_ext. lia. Qed.
Lemma utf16_low b e : b <= e -> e < 0x10000 -> exists P, shape (utf16_range C rng b e) P (fun _ _ => False) /\ forall x, P x <-> b <= x < e /\ x < 0x10000 /\ ~ (0xd800 <= x < 0xe000).
Proof.
  intros BE E. unfold utf16_range. destruct (N.leb_spec 0x110000 e); [lia|]. destruct (N.leb_spec 0x110000 b); [lia|]. cbn [orb].
  destruct (N.ltb_spec e 0x10000); [|lia]. destruct (N.leb_spec b 0xd800).
  - destruct (N.leb_spec e b); [exists (fun _ => False); split; [exact shape_empty|lia]|]. destruct (N.ltb_spec 0xe000 e).
    + eexists. split; [apply fw_only_ones, fw_two; lia|]. cbn beta. lia.
    + eexists. split; [apply fw_only_ones, fw_one; lia|]. cbn beta. lia.
  - destruct (N.leb_spec e (N.max b 0xe000)); [exists (fun _ => False); split; [exact shape_empty|lia]|].
    eexists. split; [apply fw_only_ones, fw_one; lia|]. cbn beta. lia.
Qed.
Lemma utf16_cross b e : b < 0x10000 -> 0x10000 <= e -> e < 0x110000 -> exists P Q, shape (utf16_range C rng b e) P Q /\
  (forall x, P x <-> b <= x < e /\ x < 0x10000 /\ ~ (0xd800 <= x < 0xe000)) /\ forall h l, h < 1024 -> l < 1024 -> (Q h l <-> b <= 0x10000 + 1024 * h + l < e).
Proof.
  intros B E1 E2. unfold utf16_range. destruct (N.leb_spec 0x110000 e); [lia|]. destruct (N.leb_spec 0x110000 b); [lia|]. cbn [orb].
  destruct (N.ltb_spec e 0x10000); [lia|]. destruct (N.leb_spec 0x10000 b); [lia|]. destruct (N.leb_spec e b); [lia|].
  destruct (halves e E1 E2) as (h & l & He & Hh & Hl & -> & -> & _ & _).
  set (bmp := if b <? 0xd800 then _ else _).
  assert (exists P, shape bmp P (fun _ _ => False) /\ (forall x, P x <-> b <= x < e /\ x < 0x10000 /\ ~ (0xd800 <= x < 0xe000))) as (P & SP & HP).
  { unfold bmp. destruct (N.ltb_spec b 0xd800); (eexists; split; [apply fw_only_ones; first [apply fw_two; lia|apply fw_one; lia]|cbn beta; lia]). }
  clearbody bmp. exists P. destruct (N.eqb_spec (0xdc00 + l) 0xdc00) as [Z|Z].
  - eexists. split; [apply fw_or_pairs; [exact SP|apply (utf16_full 0 h); lia]|]. split; [exact HP|]. cbn beta. lia.
  - assert (X : exists Q, shape (if 0xd800 <? 0xd800 + h then nfa_or C bmp (nfa_concat C (set (rng 0xd800 (0xd800 + h))) (set (rng 0xdc00 0xe000))) else bmp) P Q /\ forall h' l', Q h' l' <-> h' < h).
    { destruct (N.ltb_spec 0xd800 (0xd800 + h)).
      - eexists. split; [apply fw_or_pairs; [exact SP|apply (utf16_full 0 h); lia]|]. cbn beta. lia.
      - exists (fun _ _ => False). split; [exact SP|lia]. }
    destruct X as (Q & SQ & HQ). eexists. split; [apply fw_or_pairs; [exact SQ|]|].
    + replace (0xd800 + h + 1) with (0xd800 + (h + 1)) by lia. apply (fw_pair h (h + 1) 0 l); lia.
    + split; [exact HP|]. intros h' l' Hh' Hl'. cbn beta. rewrite HQ. lia.
Qed.
Theorem utf16_exact b e : single C ok (utf16_range C rng b e) /\ ((forall w, lang C (utf16_range C rng b e) w <-> Enc16 b e w) <-> tidy16 b e).
Proof.
  unfold tidy16.
  assert (K : forall P Q, shape (utf16_range C rng b e) P Q ->
     (((forall x, P x <-> b <= x < e /\ x < 0x10000 /\ ~ (0xd800 <= x < 0xe000)) /\ forall h l, h < 1024 -> l < 1024 -> (Q h l <-> b <= 0x10000 + 1024 * h + l < e)) <-> tidy16 b e) ->
     single C ok (utf16_range C rng b e) /\ ((forall w, lang C (utf16_range C rng b e) w <-> Enc16 b e w) <-> tidy16 b e)).
  { intros P Q Sh H. split; [exact (proj1 Sh)|]. rewrite (shape_exact _ P Q b e Sh). exact H. }
  unfold tidy16 in K.
  destruct (N.leb_spec 0x110000 e) as [G1|G1].
  { assert (EQ : utf16_range C rng b e = nfa_empty C) by (unfold utf16_range; destruct (N.leb_spec 0x110000 e); [reflexivity|lia]).
    apply (K (fun _ => False) (fun _ _ => False)); [rewrite EQ; exact shape_empty|]. split.
    - intros (_ & H2). destruct (N.ltb_spec b 0x110000) as [J|J]; [|lia]. exfalso. apply (H2 1023 1023); lia.
    - intros [H|[H|H]]; (split; [|intros h l Hh Hl]; lia). }
  destruct (N.leb_spec 0x110000 b) as [G2|G2].
  { assert (EQ : utf16_range C rng b e = nfa_empty C) by (unfold utf16_range; destruct (N.leb_spec 0x110000 b); [rewrite orb_true_r; reflexivity|lia]).
    apply (K (fun _ => False) (fun _ _ => False)); [rewrite EQ; exact shape_empty|]. split; [lia|]. intros _. split; [lia|intros; lia]. }
  destruct (N.leb_spec e b) as [G3|G3].
  { assert (EQ : utf16_range C rng b e = nfa_empty C).
    { unfold utf16_range. destruct (N.leb_spec 0x110000 e); [lia|]. destruct (N.leb_spec 0x110000 b); [lia|]. cbn [orb]. destruct (N.leb_spec e b); [|lia].
      destruct (N.leb_spec 0x10000 b); destruct (N.leb_spec b 0xd800); destruct (N.ltb_spec e 0x10000); try reflexivity; try lia; destruct (N.leb_spec e (N.max b 0xe000)); try reflexivity; lia. }
    apply (K (fun _ => False) (fun _ _ => False)); [rewrite EQ; exact shape_empty|]. split; [lia|]. intros _. split; [lia|intros; lia]. }
  destruct (N.ltb_spec e 0x10000) as [G4|G4].
  { destruct (utf16_low b e) as (P & SP & HP); [lia|lia|]. apply (K P (fun _ _ => False) SP). split; [intros _; lia|]. intros _. split; [exact HP|]. intros; lia. }
  destruct (N.ltb_spec b 0x10000) as [G5|G5].
  { destruct (utf16_cross b e) as (P & Q & SP & HP & HQ); [lia|lia|lia|]. apply (K P Q SP). split; [intros _; lia|]. intros _. split; [exact HP|exact HQ]. }
  destruct (halves e G4 G1) as (h & l & He & Hh & Hl & E1 & E2 & E3 & E4). destruct (halves b G5 G2) as (h0 & l0 & Hb & Hh0 & Hl0 & B1 & B2 & B3 & B4).
  rewrite B3, B4, E3, E4. rewrite B3, B4, E3, E4 in K.
  assert (EQ : exists P Q, shape (utf16_range C rng b e) P Q /\ (l = 0 -> l0 = 0 -> (forall x, ~ P x) /\ forall h' l', Q h' l' <-> h0 <= h' < h) /\
     (l = 0 -> l0 <> 0 -> Q h 0) /\ (l <> 0 -> l0 = 0 -> ~ Q h0 0) /\ (l <> 0 -> l0 <> 0 -> h0 <> h -> ~ Q h 0) /\
     (l <> 0 -> l0 <> 0 -> h0 = h -> (forall x, ~ P x) /\ forall h' l', Q h' l' <-> h' = h /\ l0 <= l' < l)).
  { unfold utf16_range. destruct (N.leb_spec 0x110000 e); [lia|]. destruct (N.leb_spec 0x110000 b); [lia|]. cbn [orb]. destruct (N.ltb_spec e 0x10000); [lia|].
    destruct (N.leb_spec 0x10000 b); [|lia]. destruct (N.leb_spec e b); [lia|]. rewrite B1, B2, E1, E2. replace (0xd800 + h0 + 1) with (0xd800 + (h0 + 1)) by lia. replace (0xd800 + h + 1) with (0xd800 + (h + 1)) by lia.
    destruct (N.eqb_spec (0xdc00 + l) 0xdc00) as [Z|Z]; destruct (N.eqb_spec (0xdc00 + l0) 0xdc00) as [Z0|Z0].
    - eexists. eexists. split; [apply fw_only_pairs, utf16_full; lia|]. cbn beta. repeat split; try lia.
    - destruct (N.ltb_spec (0xd800 + h0) (0xd800 + h)); [|lia]. eexists. eexists. split; [apply fw_or_pairs; [apply fw_only_pairs, utf16_row; lia|apply utf16_full; lia]|]. cbn beta. repeat split; try lia.
    - eexists. eexists. split; [apply fw_only_ones, fw_one; lia|]. cbn beta. repeat split; try lia.
    - destruct (N.eqb_spec (0xd800 + h0) (0xd800 + h)) as [Y|Y]; cbn [negb].
      + eexists. eexists. split; [apply fw_only_pairs, fw_pair; lia|]. cbn beta. repeat split; try lia; tauto.
      + assert (F1 : exists Q, shape (nfa_concat C (set (rng (0xd800 + h0) (0xd800 + (h0 + 1)))) (set (rng (0xdc00 + l0) 0xe000))) (fun _ => False) Q /\ ~ Q h 0).
        { eexists. split; [apply fw_only_pairs, utf16_row; lia|]. cbn beta. lia. }
        destruct F1 as (Q1' & SQ1 & HQ1). set (first := nfa_concat C _ _) in *.
        assert (F2 : exists Q, shape (if negb (0xd800 + (h0 + 1) =? 0xd800 + h) then nfa_or C first (nfa_concat C (set (rng (0xd800 + (h0 + 1)) (0xd800 + h))) (set (rng (0xdc00 + l0) 0xe000))) else first) (fun _ => False) Q /\ ~ Q h 0).
        { destruct (N.eqb_spec (0xd800 + (h0 + 1)) (0xd800 + h)); cbn [negb]; [exists Q1'; auto|]. eexists. split; [apply fw_or_pairs; [exact SQ1|apply utf16_row; lia]|]. cbn beta. intros [X|X]; [exact (HQ1 X)|lia]. }
        destruct F2 as (Q2' & SQ2 & HQ2). eexists. eexists. split; [apply fw_or_pairs; [exact SQ2|apply fw_pair; lia]|]. cbn beta. repeat split; try lia. intros _ _ _ [X|X]; [exact (HQ2 X)|lia]. }
  destruct EQ as (P & Q & SP & C1 & C2 & C3 & C4 & C5). apply (K P Q SP). clear K SP.
  destruct (N.eq_dec l 0) as [Z|Z]; destruct (N.eq_dec l0 0) as [Z0|Z0].
  - destruct (C1 Z Z0) as (D1 & D2). split; [intros _; lia|]. intros _. split; [intros x; specialize (D1 x); split; [tauto|lia]|]. intros h' l' Hh' Hl'. rewrite D2. lia.
  - specialize (C2 Z Z0). split; [|lia]. intros (_ & H). exfalso. apply (H h 0) in C2; lia.
  - specialize (C3 Z Z0). split; [|lia]. intros (_ & H). exfalso. apply C3. apply H; lia.
  - destruct (N.eq_dec h0 h) as [Y|Y].
    + destruct (C5 Z Z0 Y) as (D1 & D2). split; [intros _; lia|]. intros _. split; [intros x; specialize (D1 x); split; [tauto|lia]|]. intros h' l' Hh' Hl'. rewrite D2. lia.
    + specialize (C4 Z Z0 Y). split; [|lia]. intros (_ & H). exfalso. apply C4. apply H; lia.
Qed.
End Utf16.
