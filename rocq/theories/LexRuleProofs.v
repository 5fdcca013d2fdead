(** Proofs about lexer rules with lookahead and barrier. *)
From Coq Require Import List NArith ZArith Lia Bool PeanoNat Permutation ZifyBool ZifyN ZifyNat.
From Verif Require Import Base AutomatonModel AutomatonSpec CsetLaws ThompsonProofs DfaOpsProofs NfaDiagModel NfaDiagProofs NfaBuiltProofs
  NfaMaxProofs RegexpProofs LexerModel LexerSpec LexRuleModel.
Import ListNotations.

Section R.
Variable C : cset.
Variable ok : car C -> Prop.
Variable L : cs_laws C ok.
Variable ord : list (list bool) -> list (list bool).
Hypothesis HP : forall l, Permutation (ord l) l.

(** All words have the positive length [n]. *)
Definition fixed (P : list N -> Prop) (n : nat) : Prop := 0 < n /\ forall w, P w -> length w = n.
(** Why a lookahead or barrier may be ignored. *)
Definition not_fixed (s : nfa C) : Prop :=
  lang C s [] \/ (exists u v, lang C s u /\ lang C s v /\ length u <> length v) \/ isUnbounded C s = Some true.

Lemma lengths f s mn mx : wf_nfa C ok s -> no_empty_edge C s -> layered C s -> minLength C s = Some mn -> maxLength C f s = Some mx ->
  if (mn =? 0)%Z then not_fixed s else if negb (mn =? mx)%Z then not_fixed s
  else forall w, lang C s w -> length w = Z.to_nat mn /\ 0 < length w.
Proof.
  intros W T Y E1 E2. destruct (minLength_ok C ok s W Y T) as [(M1 & M2)|(n & M1 & (w0 & M2 & M3) & M4)]; rewrite E1 in M1; injection M1 as ->.
  - change (-1 =? 0)%Z with false. cbv iota. destruct (Z.eqb_spec (-1) mx) as [Q|Q]; cbn [negb]; [intros w K; destruct (M2 w K)|].
    destruct (Z.eq_dec mx (-2)) as [Z|Z].
    + right. right. subst mx. unfold maxLength in E2. destruct (isUnbounded C s) as [[|]|]; [reflexivity| |discriminate E2]. exfalso.
      cbn [obind] in E2. destruct (isEmpty_ok C ok s W T) as (e & X1 & X2). rewrite X1 in E2. cbn [obind] in E2.
      replace e with true in E2 by (symmetry; apply X2; exact M2). discriminate E2.
    + destruct (maxLength_sound C ok s f mx W T E2 Z) as [(-> & _)|(m & -> & (w & K & _) & _)]; [congruence|]. destruct (M2 w K).
  - destruct (Z.eqb_spec (Z.of_nat n) 0) as [Q|Q]; [left; destruct w0; [exact M2|cbn in M3; lia]|].
    destruct (Z.eqb_spec (Z.of_nat n) mx) as [Q'|Q']; cbn [negb].
    + intros w K. subst mx. destruct (maxLength_sound C ok s f (Z.of_nat n) W T E2) as [(B1 & _)|(m & B1 & _ & B2)]; [lia|lia|].
      pose proof (M4 w K). pose proof (B2 w K). lia.
    + destruct (Z.eq_dec mx (-2)) as [Z|Z].
      * right. right. destruct (isUnbounded_ok C ok s W) as (b & B1 & B2). rewrite B1. destruct b; [reflexivity|]. exfalso. subst mx.
        unfold maxLength in E2. rewrite B1 in E2. cbn [obind] in E2. destruct (isEmpty_ok C ok s W T) as (e & X1 & X2). rewrite X1 in E2. cbn [obind] in E2.
        destruct e; [destruct (proj1 X2 eq_refl w0 M2)|].
        destruct (max_loop C f _ _ _ _ _) as [d|] eqn:ML; [|discriminate E2]. cbn [obind] in E2. injection E2 as E2.
        apply (max_loop_part C ok s W) in ML; [|apply (minv_init C ok s W)|reflexivity]. destruct ML as (_ & _ & ML). pose proof (ML 0). lia.
      * right. left. destruct (maxLength_sound C ok s f mx W T E2 Z) as [(B1 & B2)|(m & B1 & (w1 & B2 & B3) & _)]; [destruct (B2 w0 M2)|].
        exists w0, w1. split; [exact M2|]. split; [exact B2|]. lia.
Qed.

Lemma consumed_app u v : consumed (u ++ v) (length v) = u.
Proof. unfold consumed. rewrite app_length. replace (length u + length v - length v) with (length u) by lia. rewrite firstn_app, Nat.sub_diag, firstn_all. apply app_nil_r. Qed.
Lemma consumed_0 w : consumed w 0 = w.
Proof. unfold consumed. rewrite Nat.sub_0_r. apply firstn_all. Qed.

Theorem look_ok f a s fin l : single C ok a -> single C ok s -> no_empty_edge C s -> layered C s ->
  compile_rule C f ord (LLook a s fin) = Some l ->
  (exists a' n, l = [(a', MkAction n fin)] /\ single C ok a' /\ (forall v, lang C s v -> length v = n) /\
     forall w, lang C a' w <-> exists u v, w = u ++ v /\ lang C a u /\ lang C s v /\ consumed w n = u /\ 0 < length v) \/
  (l = [(a, MkAction 0 fin)] /\ not_fixed s).
Proof.
  intros Sa Ss T Y H. cbn [compile_rule] in H. destruct (minLength C s) as [mn|] eqn:E1; [|discriminate H]. cbn [obind] in H.
  destruct (maxLength C f s) as [mx|] eqn:E2; [|discriminate H]. cbn [obind] in H.
  pose proof (lengths f s mn mx (proj1 Ss) T Y E1 E2) as LN.
  destruct (Z.eqb mn 0); [injection H as <-; auto|]. destruct (negb (Z.eqb mn mx)); [injection H as <-; auto|]. injection H as <-.
  left. exists (nfa_concat C a s), (Z.to_nat mn). split; [reflexivity|]. split; [apply (concat_single C ok L); assumption|].
  split; [intros v K; apply (LN v K)|]. intros w. rewrite (concat_lang C ok L a s w Sa Ss). split.
  - intros (u & v & -> & H1 & H2). exists u, v. destruct (LN v H2) as (L1 & L2). rewrite <- L1, consumed_app. auto.
  - intros (u & v & -> & H1 & H2 & _). exists u, v. auto.
Qed.

Lemma anyChar_single : single C ok (anyChar C).
Proof. apply set_single. apply (l_full C ok L). Qed.
Lemma anyChar_lang w : lang C (anyChar C) w <-> exists x, w = [x] /\ (x < c_size C)%N.
Proof.
  destruct (l_full C ok L) as (F1 & F2 & F3). unfold anyChar. rewrite (set_lang C ok _ w F1 F2). split; intros (x & E & K); exists x; split; auto.
  - rewrite F3 in K. apply N.ltb_lt. exact K.
  - rewrite F3. apply N.ltb_lt. exact K.
Qed.
Lemma anything_single : single C ok (anything C).
Proof. apply (star_single C ok L), anyChar_single. Qed.
Lemma anything_lang w : lang C (anything C) w <-> in_codec C w.
Proof.
  unfold anything. rewrite (star_correct C ok L) by (try apply anyChar_single; apply no_in_rewinds, set_no_in). split.
  - induction 1 as [|u v H1 H2 IH]; [constructor|]. apply anyChar_lang in H1. destruct H1 as (x & -> & B). constructor; assumption.
  - induction 1 as [|x w B H IH]; [constructor|]. change (x :: w) with ([x] ++ w). apply star_app; [|exact IH]. apply anyChar_lang. eauto.
Qed.
Lemma in_codec_app u v : in_codec C (u ++ v) <-> in_codec C u /\ in_codec C v.
Proof. apply Forall_app. Qed.

Theorem barrier_ok f a b fin l : single C ok a -> single C ok b -> no_empty_edge C b -> layered C b ->
  compile_rule C f ord (LBarrier a b fin) = Some l ->
  (exists st cr n, l = [(st, MkAction 0 fin); (cr, MkAction n fin)] /\ single C ok st /\ single C ok cr /\ (forall v, lang C b v -> length v = n) /\
     (forall w, lang C st w <-> lang C a w /\ ~ inside (lang C b) w) /\
     (forall w, lang C cr w <-> exists u v, w = u ++ v /\ lang C a u /\ lang C b v /\ consumed w n = u /\ 0 < length v /\
        forall w' c, w = w' ++ [c] -> ~ inside (lang C b) w')) \/
  (l = [(a, MkAction 0 fin)] /\ not_fixed b).
Proof.
  intros Sa Sb T Y H. cbn [compile_rule] in H. destruct (minLength C b) as [mn|] eqn:E1; [|discriminate H]. cbn [obind] in H.
  destruct (maxLength C f b) as [mx|] eqn:E2; [|discriminate H]. cbn [obind] in H.
  pose proof (lengths f b mn mx (proj1 Sb) T Y E1 E2) as LN.
  destruct (Z.eqb mn 0); [injection H as <-; auto|]. destruct (negb (Z.eqb mn mx)); [injection H as <-; auto|].
  pose proof anything_single as Sy. pose proof anyChar_single as Sc.
  assert (S1 : single C ok (nfa_concat C (anything C) b)) by (apply (concat_single C ok L); assumption).
  assert (S2 : single C ok (nfa_concat C (nfa_concat C (anything C) b) (anything C))) by (apply (concat_single C ok L); assumption).
  assert (S3 : single C ok (nfa_concat C a b)) by (apply (concat_single C ok L); assumption).
  set (ex := nfa_concat C (nfa_concat C (anything C) b) (anything C)) in *.
  assert (S4 : single C ok (nfa_concat C ex (anyChar C))) by (apply (concat_single C ok L); assumption).
  assert (LE : forall w, lang C ex w <-> in_codec C w /\ inside (lang C b) w).
  { intros w. unfold ex. rewrite (concat_lang C ok L _ _ w S1 Sy). split.
    - intros (u & z & -> & H1 & H2). apply (concat_lang C ok L _ _ u Sy Sb) in H1. destruct H1 as (x & y & -> & X1 & X2).
      apply anything_lang in X1, H2. pose proof (lang_codec C ok L b y (proj1 Sb) X2) as X3.
      split; [apply in_codec_app; split; [apply in_codec_app; auto|exact H2]|]. exists x, y, z. rewrite <- app_assoc. auto.
    - intros (IC & x & y & z & -> & K). apply in_codec_app in IC. destruct IC as (I1 & I2). apply in_codec_app in I2. destruct I2 as (_ & I2).
      exists (x ++ y), z. rewrite app_assoc. split; [reflexivity|]. split; [|apply anything_lang; exact I2].
      apply (concat_lang C ok L _ _ _ Sy Sb). exists x, y. split; [reflexivity|]. split; [apply anything_lang; exact I1|exact K]. }
  destruct (nfa_but C f f ord a ex) as [st|] eqn:B1; [|discriminate H]. cbn [obind] in H.
  destruct (nfa_but C f f ord (nfa_concat C a b) (nfa_concat C ex (anyChar C))) as [cr|] eqn:B2; [|discriminate H]. cbn [obind] in H. injection H as <-.
  destruct (but_ok C ok L _ _ _ _ _ _ Sa S2 HP B1) as (R1 & R2). destruct (but_ok C ok L _ _ _ _ _ _ S3 S4 HP B2) as (R3 & R4).
  left. exists st, cr, (Z.to_nat mn). split; [reflexivity|]. split; [exact R1|]. split; [exact R3|]. split; [intros v K; apply (LN v K)|]. split.
  - intros w. rewrite R2, LE. split; intros (K1 & K2); (split; [exact K1|]); intros K; apply K2; [|apply K]. split; [apply (lang_codec C ok L a w (proj1 Sa) K1)|exact K].
  - intros w. rewrite R4. rewrite (concat_lang C ok L a b w Sa Sb). split.
    + intros ((u & v & -> & H1 & H2) & K2). exists u, v. destruct (LN v H2) as (L1 & L2). rewrite <- L1, consumed_app. repeat (split; [auto|]).
      intros w' c Ew K. apply K2. rewrite Ew. apply (concat_lang C ok L _ _ _ S2 Sc). exists w', [c]. split; [reflexivity|].
      assert (IC : in_codec C (w' ++ [c])).
      { rewrite <- Ew. apply in_codec_app. split; [apply (lang_codec C ok L a u (proj1 Sa) H1)|apply (lang_codec C ok L b v (proj1 Sb) H2)]. }
      apply in_codec_app in IC. destruct IC as (I1 & I2). split; [apply LE; auto|]. apply anyChar_lang. exists c. split; [reflexivity|].
      inversion I2; subst; assumption.
    + intros (u & v & -> & H1 & H2 & _ & _ & H5). split; [exists u, v; auto|]. intros K. apply (concat_lang C ok L _ _ _ S2 Sc) in K.
      destruct K as (w' & c & E & K1 & K2). apply anyChar_lang in K2. destruct K2 as (x & -> & _). apply (H5 w' x E). apply LE. exact K1.
Qed.
(** The text consumed by a rule with barrier never contains the barrier. *)
Corollary barrier_never_inside f a b fin l : single C ok a -> single C ok b -> no_empty_edge C b -> layered C b ->
  ~ not_fixed b -> compile_rule C f ord (LBarrier a b fin) = Some l ->
  forall a' act w, In (a', act) l -> lang C a' w -> lang C a (consumed w (a_back act)) /\ ~ inside (lang C b) (consumed w (a_back act)).
Proof.
  intros Sa Sb T Y NF H a' act w I K. destruct (barrier_ok f a b fin l Sa Sb T Y H) as [(st & cr & n & -> & _ & _ & _ & B1 & B2)|(_ & Z)]; [|destruct (NF Z)].
  destruct I as [I|[I|[]]]; injection I as <- <-; cbn [a_back].
  - rewrite consumed_0. apply (proj1 (B1 w)). exact K.
  - apply B2 in K. destruct K as (u & v & -> & K1 & K2 & -> & K4 & K5). split; [exact K1|]. intros (x & y & z & -> & K).
    destruct (exists_last (l := v)) as (v' & c & ->); [intros ->; cbn in K4; lia|].
    apply (K5 (x ++ y ++ z ++ v') c); [rewrite <- !app_assoc; reflexivity|]. exists x, y, (z ++ v'). auto.
Qed.
End R.
