(** Regular expressions denote their textbook language. *)
From Coq Require Import List NArith ZArith Lia Bool PeanoNat Permutation ZifyBool ZifyN ZifyNat.
From Verif Require Import Base AutomatonModel AutomatonSpec CsetLaws ThompsonProofs ReachProofs SubsetProofs DfaProofs DfaOpsProofs
  MinimizeProofs NfaDiagModel NfaDiagProofs NfaBuiltProofs RegexpModel RegexpSpec.
Import ListNotations.

Section R.
Variable C : cset.
Variable ok : car C -> Prop.
Variable L : cs_laws C ok.
Variable ord : list (list bool) -> list (list bool).
Hypothesis HP : forall l, Permutation (ord l) l.
Notation nedge := (AutomatonSpec.nedge C).
Notation path := (AutomatonSpec.path C).

Definition no_in (a : nfa C) : Prop := forall i c, ~ nedge a i c 0.
(** Words leading back to the start are iterations. *)
Definition rewinds (a : nfa C) : Prop := forall w, path (nedge a) 0 w 0 -> star (lang C a) w.

Lemma star_app' (P : list N -> Prop) u v : star P u -> star P v -> star P (u ++ v).
Proof. induction 1 as [|u1 u2 H1 H2 IH]; intros K; [exact K|]. rewrite <- app_assoc. apply star_app; [exact H1|apply IH; exact K]. Qed.
Lemma star_one (P : list N -> Prop) u : P u -> star P u.
Proof. intros H. rewrite <- (app_nil_r u). apply star_app; [exact H|constructor]. Qed.
Lemma star_mono (P Q : list N -> Prop) w : (forall u, P u -> star Q u) -> star P w -> star Q w.
Proof. intros H. induction 1 as [|u v H1 H2 IH]; [constructor|]. apply star_app'; [apply H; exact H1|exact IH]. Qed.
Lemma star_iff (P Q : list N -> Prop) w : (forall u, P u <-> Q u) -> (star P w <-> star Q w).
Proof. intros H. split; apply star_mono; intros u K; apply star_one, H, K. Qed.
Lemma cat_iff (P P' Q Q' : list N -> Prop) w : (forall u, P u <-> P' u) -> (forall u, Q u <-> Q' u) -> (cat P Q w <-> cat P' Q' w).
Proof. intros H1 H2. split; intros (u & v & -> & K1 & K2); exists u, v; split; auto; split; try apply H1; try apply H2; assumption. Qed.

Lemma no_in_rewinds a : no_in a -> rewinds a.
Proof. intros H w P. apply (no_return C) in P; [|exact H]. subst w. constructor. Qed.
Lemma star_correct a w : single C ok a -> rewinds a -> (lang C (nfa_star C a) w <-> star (lang C a) w).
Proof.
  intros Sa R. rewrite (star_lang_exact C ok L a w Sa). split.
  - intros (u & v & -> & S1 & S2). apply star_app'; [exact S1|apply R; exact S2].
  - intros S1. exists w, []. split; [symmetry; apply app_nil_r|]. split; [exact S1|constructor].
Qed.
(** Paths of the star automaton that return to its start. *)
Lemma star_back a w : single C ok a -> path (nedge (nfa_star C a)) 0 w 0 -> lang C (nfa_star C a) w.
Proof.
  intros Sa P. rewrite (single_lang C ok) by (apply (star_single C ok L); exact Sa).
  apply (path_snoc_eps C _ _ _ _ (c_epsset C) _ P); [|apply (eps_epsset C ok L)].
  apply (star_edge C ok a _ _ _ (proj1 Sa)). right. right. cbn. auto.
Qed.
Lemma star_rewinds a : single C ok a -> rewinds (nfa_star C a).
Proof. intros Sa w P. apply star_one. apply star_back; assumption. Qed.
(** In a concatenation, paths back to the start stay in the first part. *)
Lemma concat_back a o w : single C ok a -> single C ok o -> path (nedge (nfa_concat C a o)) 0 w 0 -> path (nedge a) 0 w 0.
Proof.
  intros (Wa & Sa) (Wo & So) P. pose proof Wa as (A1 & A2 & A3 & A4).
  assert (G : forall p w q, path (nedge (nfa_concat C a o)) p w q -> q < nst a -> p < nst a /\ path (nedge a) p w q).
  { clear P. induction 1 as [q|q c t w' r H1 H2 H3 IH|q c t x w' r H1 H2 H3 H4 IH]; intros B; [split; [exact B|constructor]| |];
      destruct (IH B) as (I1 & I2); apply (concat_edge C ok a o _ _ _ Wa Wo) in H1; destruct H1 as [H1|[(_ & _ & ->)|(K1 & K2 & _)]]; try lia;
      (split; [apply (wf_in C ok a _ _ _ Wa H1)|]).
    - eapply P_eps; eauto.
    - eapply P_chr; eauto. }
  apply (G 0 w 0 P A1).
Qed.
Lemma concat_no_in a o : single C ok a -> single C ok o -> no_in a -> no_in (nfa_concat C a o).
Proof.
  intros (Wa & Sa) (Wo & So) H i c K. pose proof Wa as (A1 & _). apply (concat_edge C ok a o _ _ _ Wa Wo) in K.
  destruct K as [K|[(_ & _ & K)|(_ & K & _)]]; [apply (H i c K)|lia|lia].
Qed.
Lemma or_no_in a o : single C ok a -> single C ok o -> no_in (nfa_or C a o).
Proof.
  intros (Wa & Sa) (Wo & So) i c K. apply (or_edge C ok a o _ _ _ Wa Wo) in K.
  destruct K as [(_ & _ & [K|K])|[(_ & K & _)|[(_ & K & _)|(_ & _ & K)]]]; lia.
Qed.
Lemma set_no_in s : no_in (nfa_set C s).
Proof. intros i c K. apply set_edge in K. lia. Qed.

Lemma word_nee s : in_codec C s -> no_empty_edge C (nfa_word C s) /\ layered C (nfa_word C s) /\ no_in (nfa_word C s).
Proof.
  unfold nfa_word.
  assert (G : forall s a, single C ok a -> no_empty_edge C a -> layered C a -> no_in a -> in_codec C s ->
    no_empty_edge C (fold_left (fun a x => nfa_concat C a (nfa_set C (c_char C x))) s a) /\
    layered C (fold_left (fun a x => nfa_concat C a (nfa_set C (c_char C x))) s a) /\
    no_in (fold_left (fun a x => nfa_concat C a (nfa_set C (c_char C x))) s a)).
  { induction s0 as [|x s0 IH]; intros a Sa Na La Ia IC; [auto|]. cbn [fold_left]. inversion IC as [|? ? X1 X2]; subst.
    destruct (l_char C ok L x X1) as (O1 & O2 & O3). pose proof (set_single C ok _ O1) as Ss.
    apply IH; [apply (concat_single C ok L); assumption| | |apply concat_no_in; assumption|exact X2].
    - apply (concat_nee C ok L); [apply Sa|apply Ss|exact Na|]. apply (set_nee C _ x). rewrite O3. apply N.eqb_refl.
    - apply (concat_layered C ok L); try assumption. apply set_layered. }
  intros IC. apply (G s (nfa_emptyWord C)); [apply emptyWord_single| |apply emptyWord_layered| |exact IC].
  - intros p c q E. exfalso. apply (no_edges C (nfa_emptyWord C) p c q); [right; reflexivity|exact E].
  - intros p c E. apply (no_edges C (nfa_emptyWord C) p c 0); [right; reflexivity|exact E].
Qed.

Record built (r : re C) (a : nfa C) : Prop := {
  b_single : single C ok a;
  b_nee : no_empty_edge C a;
  b_layered : layered C a;
  b_lang : forall w, lang C a w <-> re_lang C r w;
  b_fresh : fresh C r -> no_in a;
  b_rep : repeatable C r -> rewinds a
}.

Lemma cat_star_comm (P : list N -> Prop) w : cat (star P) P w <-> cat P (star P) w.
Proof.
  split.
  - intros (u & v & -> & H & K). revert v K. induction H as [|u1 u2 H1 H2 IH]; intros v K.
    + exists v, []. rewrite app_nil_r. split; [reflexivity|]. split; [exact K|constructor].
    + rewrite <- app_assoc. destruct (IH v K) as (x & y & E & X & Y). rewrite E. exists u1, (x ++ y). split; [reflexivity|].
      split; [exact H1|]. apply star_app; assumption.
  - intros (u & v & -> & H & K). revert u H. induction K as [|v1 v2 H1 H2 IH]; intros u H.
    + exists [], u. rewrite app_nil_r. split; [reflexivity|]. split; [constructor|exact H].
    + destruct (IH v1 H1) as (x & y & E & X & Y). rewrite E. exists (u ++ x), y. rewrite app_assoc. split; [reflexivity|].
      split; [|exact Y]. apply star_app; assumption.
Qed.

(** A minimised automaton has the language of the original. *)
Lemma named_ok fuel ff a d d' : single C ok a -> no_empty_edge C a -> dfa_of C fuel ff ord a = Some d -> minimize C d = Some d' ->
  (exists u v, ~ lang C a u /\ lang C a (u ++ v)) ->
  single C ok (nfa_of C d') /\ no_empty_edge C (nfa_of C d') /\ layered C (nfa_of C d') /\ forall w, lang C (nfa_of C d') w <-> lang C a w.
Proof.
  intros Sa T E M (u & v & U & V). pose proof Sa as (Wa & Aa). pose proof Wa as (A1 & _ & A3 & _).
  destruct (dfa_wf C ok L _ _ _ _ _ Wa HP E) as (Wd & Dd & Pd & Ad).
  assert (LA : forall w, lang C a w <-> dfa_accepts C d w <> 0).
  { intros w. pose proof (dfa_action C ok L _ _ _ _ _ w Wa HP E) as DA. destruct (dfa_accepts C d w) as [|k].
    - split; [intros (j & J); destruct (DA j J)|congruence].
    - split; [discriminate|]. intros _. exists k. apply DA. }
  assert (AC1 : dactions d = 1) by lia.
  assert (LE : forall w, dfa_accepts C d w <= 1).
  { intros w. unfold dfa_accepts. destruct (dfa_run C d 0 w) as [q|]; [|lia]. rewrite <- AC1. apply Wd. }
  destruct (trim_ok C ok d Wd Dd Pd) as (d2 & T2 & _).
  destruct (actions_occur C ok d d2 Wd Dd Pd T2) as (P2 & AA).
  { intros k K. exists (u ++ v). apply LA in V. pose proof (LE (u ++ v)). lia. }
  { exists u, v. split; [|apply LA; exact V]. destruct (dfa_accepts C d u) eqn:Z; [reflexivity|]. exfalso. apply U, LA. lia. }
  destruct (minimize_core C ok L d d2 Wd Dd Pd T2 P2 (or_introl AA)) as (d3 & M3 & W3 & D3 & A3' & _ & T3 & L3 & _).
  rewrite M in M3. injection M3 as <-.
  assert (LA' : forall w, lang C (nfa_of C d') w <-> lang C a w).
  { intros w. rewrite LA. change (dfa_accepts C d w) with (act C d 0 w). rewrite <- L3. unfold lang. split.
    - intros (k & K). apply (nfa_of_lang0 C ok L) in K; [|exact W3|exact D3]. rewrite act_accepts in K. lia.
    - intros K. exists (act C d' 0 w - 1). apply (nfa_of_lang0 C ok L); [exact W3|exact D3|]. rewrite act_accepts. lia. }
  split; [|split; [apply (nfa_of_nee C ok L); assumption|split; [apply (nfa_of_layered C ok L); exact W3|exact LA']]].
  destruct (Nat.eq_dec (dst d') 0) as [Z|Z].
  - unfold nfa_of. rewrite Z. cbn [Nat.eqb]. apply (empty_single C ok).
  - destruct (nfa_of_shape C d') as (S1 & S2 & S3 & S4 & S5); [lia|]. split; [apply (nfa_of_wf C ok L); try assumption; lia|].
    rewrite S4, S1; [lia|]. intros i. rewrite <- AC1, <- A3'. apply W3.
Qed.

Theorem build_ok fuel : forall r a, translatable C ok r -> build C fuel ord r = Some a -> built r a.
Proof.
  induction r as [| |s|s|r IHr s IHs|r IHr s IHs|r IHr s IHs|r IHr|r IHr|r IHr s IHs|r IHr s IHs|r IHr|r IHr|r IHr]; intros a T H; cbn [build] in H.
  - injection H as <-. constructor.
    + apply empty_single.
    + intros p c q E. exfalso. apply (no_edges C (nfa_empty C) p c q); [left; reflexivity|exact E].
    + apply empty_layered.
    + intros w. cbn. split; [apply (empty_lang C ok w)|intros []].
    + intros _ p c E. apply (no_edges C (nfa_empty C) p c 0); [left; reflexivity|exact E].
    + intros _. apply no_in_rewinds. intros p c E. apply (no_edges C (nfa_empty C) p c 0); [left; reflexivity|exact E].
  - injection H as <-.
    assert (NI : no_in (nfa_emptyWord C)) by (intros p c E; apply (no_edges C (nfa_emptyWord C) p c 0); [right; reflexivity|exact E]).
    constructor; auto.
    + apply emptyWord_single.
    + intros p c q E. exfalso. apply (no_edges C (nfa_emptyWord C) p c q); [right; reflexivity|exact E].
    + apply emptyWord_layered.
    + intros w. apply (emptyWord_lang C ok).
    + intros _. apply no_in_rewinds. exact NI.
  - injection H as <-. destruct T as (T1 & T2 & x & T3). constructor.
    + apply set_single. exact T1.
    + apply (set_nee C s x T3).
    + apply set_layered.
    + intros w. cbn [re_lang]. apply (set_lang C ok); assumption.
    + intros _. apply set_no_in.
    + intros _. apply no_in_rewinds, set_no_in.
  - injection H as <-. destruct (word_nee s T) as (N1 & N2 & N3). constructor; auto.
    + apply (word_single C ok L). exact T.
    + intros w. apply (word_lang C ok L). exact T.
    + intros _. apply no_in_rewinds. exact N3.
  - destruct T as (T1 & T2). destruct (build C fuel ord r) as [a1|]; [|discriminate H]. cbn [obind] in H.
    destruct (build C fuel ord s) as [a2|]; [|discriminate H]. cbn [obind] in H. injection H as <-.
    destruct (IHr a1 T1 eq_refl) as [P1 P2 P3 P4 P5 P6]. destruct (IHs a2 T2 eq_refl) as [Q1 Q2 Q3 Q4 Q5 Q6]. constructor.
    + apply (or_single C ok L); assumption.
    + apply (or_nee C ok L); try assumption; [apply P1|apply Q1].
    + apply (or_layered C ok L); assumption.
    + intros w. cbn [re_lang]. rewrite (or_lang C ok L a1 a2 w P1 Q1), P4, Q4. reflexivity.
    + intros _. apply or_no_in; assumption.
    + intros _. apply no_in_rewinds, or_no_in; assumption.
  - destruct T as (T1 & T2). destruct (build C fuel ord r) as [a1|]; [|discriminate H]. cbn [obind] in H.
    destruct (build C fuel ord s) as [a2|]; [|discriminate H]. cbn [obind] in H.
    destruct (IHr a1 T1 eq_refl) as [P1 P2 P3 P4 P5 P6]. destruct (IHs a2 T2 eq_refl) as [Q1 Q2 Q3 Q4 Q5 Q6].
    destruct (and_ok C ok L _ _ _ _ _ _ P1 Q1 HP H) as (R1 & R2).
    assert (X : no_empty_edge C a /\ layered C a).
    { unfold nfa_and in H. destruct (nfa_negate C fuel fuel ord a2) as [o1|] eqn:Eo; [|discriminate H]. cbn [obind] in H.
      destruct (nfa_negate C fuel fuel ord a1) as [a3|] eqn:Ea; [|discriminate H]. cbn [obind] in H.
      destruct (negate_ok C ok L _ _ _ _ _ Q1 HP Eo) as (So1 & _). destruct (negate_ok C ok L _ _ _ _ _ P1 HP Ea) as (Sa1 & _).
      destruct (negate_nee C ok L _ _ _ _ _ Q1 HP Q2 Eo) as (X1 & _). destruct (negate_nee C ok L _ _ _ _ _ P1 HP P2 Ea) as (X2 & _).
      apply (negate_nee C ok L fuel fuel ord (nfa_or C a3 o1)); [apply (or_single C ok L); assumption|exact HP| |exact H].
      apply (or_nee C ok L); [apply Sa1|apply So1|exact X2|exact X1]. }
    destruct X as (X1 & X2). constructor; auto.
    + intros w. rewrite R2, P4, Q4. reflexivity.
    + intros [].
    + intros [].
  - destruct T as (T1 & T2). destruct (build C fuel ord r) as [a1|]; [|discriminate H]. cbn [obind] in H.
    destruct (build C fuel ord s) as [a2|]; [|discriminate H]. cbn [obind] in H.
    destruct (IHr a1 T1 eq_refl) as [P1 P2 P3 P4 P5 P6]. destruct (IHs a2 T2 eq_refl) as [Q1 Q2 Q3 Q4 Q5 Q6].
    destruct (but_ok C ok L _ _ _ _ _ _ P1 Q1 HP H) as (R1 & R2).
    assert (X : no_empty_edge C a /\ layered C a).
    { unfold nfa_but in H. destruct (nfa_negate C fuel fuel ord a1) as [a3|] eqn:Ea; [|discriminate H]. cbn [obind] in H.
      destruct (negate_ok C ok L _ _ _ _ _ P1 HP Ea) as (Sa1 & _).
      destruct (negate_nee C ok L _ _ _ _ _ P1 HP P2 Ea) as (X2 & _).
      apply (negate_nee C ok L fuel fuel ord (nfa_or C a3 a2)); [apply (or_single C ok L); assumption|exact HP| |exact H].
      apply (or_nee C ok L); [apply Sa1|apply Q1|exact X2|exact Q2]. }
    destruct X as (X1 & X2). constructor; auto.
    + intros w. rewrite R2, P4, Q4. reflexivity.
    + intros [].
    + intros [].
  - destruct (build C fuel ord r) as [a1|]; [|discriminate H]. cbn [obind] in H.
    destruct (IHr a1 T eq_refl) as [P1 P2 P3 P4 P5 P6].
    destruct (negate_ok C ok L _ _ _ _ _ P1 HP H) as (R1 & R2). destruct (negate_nee C ok L _ _ _ _ _ P1 HP P2 H) as (X1 & X2).
    constructor; auto.
    + intros w. rewrite R2, P4. reflexivity.
    + intros [].
    + intros [].
  - destruct (build C fuel ord r) as [a1|]; [|discriminate H]. cbn [obind] in H. injection H as <-.
    destruct (IHr a1 T eq_refl) as [P1 P2 P3 P4 P5 P6]. pose proof (emptyWord_single C ok) as Se.
    constructor.
    + apply (or_single C ok L); assumption.
    + apply (or_nee C ok L); try assumption; [apply P1|apply Se|].
      intros p c q E. exfalso. apply (no_edges C (nfa_emptyWord C) p c q); [right; reflexivity|exact E].
    + apply (or_layered C ok L); try assumption. apply emptyWord_layered.
    + intros w. cbn [re_lang]. rewrite (or_lang C ok L a1 _ w P1 Se), P4, (emptyWord_lang C ok w). reflexivity.
    + intros _. apply or_no_in; assumption.
    + intros _. apply no_in_rewinds, or_no_in; assumption.
  - destruct T as (T1 & T2). destruct (build C fuel ord r) as [a1|]; [|discriminate H]. cbn [obind] in H.
    destruct (build C fuel ord s) as [a2|]; [|discriminate H]. cbn [obind] in H. injection H as <-.
    destruct (IHr a1 T1 eq_refl) as [P1 P2 P3 P4 P5 P6]. destruct (IHs a2 T2 eq_refl) as [Q1 Q2 Q3 Q4 Q5 Q6]. constructor.
    + apply (concat_single C ok L); assumption.
    + apply (concat_nee C ok L); try assumption; [apply P1|apply Q1].
    + apply (concat_layered C ok L); assumption.
    + intros w. cbn [re_lang]. rewrite (concat_lang C ok L a1 a2 w P1 Q1). apply cat_iff; assumption.
    + intros F. apply concat_no_in; auto.
    + intros F. apply no_in_rewinds, concat_no_in; auto.
  - destruct T as (T1 & T2 & T3). destruct (build C fuel ord r) as [a1|]; [|discriminate H]. cbn [obind] in H.
    destruct (build C fuel ord s) as [a2|]; [|discriminate H]. cbn [obind] in H. injection H as <-.
    destruct (IHr a1 T1 eq_refl) as [P1 P2 P3 P4 P5 P6]. destruct (IHs a2 T2 eq_refl) as [Q1 Q2 Q3 Q4 Q5 Q6].
    assert (S1 : single C ok (nfa_concat C a2 a1)) by (apply (concat_single C ok L); assumption).
    assert (S2 : single C ok (nfa_star C (nfa_concat C a2 a1))) by (apply (star_single C ok L); assumption).
    constructor.
    + apply (concat_single C ok L); assumption.
    + apply (concat_nee C ok L); try assumption; [apply P1|apply S2|]. apply (star_nee C ok L); [apply S1|].
      apply (concat_nee C ok L); try assumption; [apply Q1|apply P1].
    + apply (concat_layered C ok L); try assumption. apply (star_layered C ok L); [exact S1|]. apply (concat_layered C ok L); assumption.
    + intros w. cbn [re_lang]. rewrite (concat_lang C ok L a1 _ w P1 S2). apply cat_iff; [exact P4|]. intros u.
      rewrite star_correct; [|exact S1|apply no_in_rewinds, concat_no_in; auto]. apply star_iff. intros v.
      rewrite (concat_lang C ok L a2 a1 v Q1 P1). apply cat_iff; assumption.
    + intros F. apply concat_no_in; auto.
    + intros F. apply no_in_rewinds, concat_no_in; auto.
  - destruct T as (T1 & T2). destruct (build C fuel ord r) as [a1|]; [|discriminate H]. cbn [obind] in H. injection H as <-.
    destruct (IHr a1 T1 eq_refl) as [P1 P2 P3 P4 P5 P6]. constructor.
    + apply (star_single C ok L); assumption.
    + apply (star_nee C ok L); [apply P1|exact P2].
    + apply (star_layered C ok L); assumption.
    + intros w. cbn [re_lang]. rewrite star_correct by auto. apply star_iff. exact P4.
    + intros [].
    + intros _. apply star_rewinds. exact P1.
  - destruct T as (T1 & T2). destruct (build C fuel ord r) as [a1|]; [|discriminate H]. cbn [obind] in H. injection H as <-.
    destruct (IHr a1 T1 eq_refl) as [P1 P2 P3 P4 P5 P6].
    assert (S1 : single C ok (nfa_star C a1)) by (apply (star_single C ok L); assumption).
    assert (LG : forall w, lang C (nfa_concat C (nfa_star C a1) a1) w <-> cat (re_lang C r) (star (re_lang C r)) w).
    { intros w. rewrite (concat_lang C ok L _ a1 w S1 P1). rewrite <- cat_star_comm. apply cat_iff; [|exact P4]. intros u.
      rewrite star_correct by auto. apply star_iff. exact P4. }
    constructor.
    + apply (concat_single C ok L); assumption.
    + apply (concat_nee C ok L); try assumption; [apply S1|apply P1|]. apply (star_nee C ok L); [apply P1|exact P2].
    + apply (concat_layered C ok L); try assumption. apply (star_layered C ok L); assumption.
    + exact LG.
    + intros [].
    + intros _ w K. apply (concat_back _ _ _ S1 P1) in K. apply (star_back a1 w P1) in K.
      apply (star_correct a1 w P1 (P6 T2)) in K. revert K. apply star_mono. intros u K. apply star_one, LG.
      exists u, []. rewrite app_nil_r. split; [reflexivity|]. split; [apply P4; exact K|constructor].
  - destruct T as (T1 & u & v & T2 & T3). destruct (build C fuel ord r) as [a1|]; [|discriminate H]. cbn [obind] in H.
    destruct (dfa_of C fuel fuel ord a1) as [d|] eqn:E; [|discriminate H]. cbn [obind] in H.
    destruct (minimize C d) as [d'|] eqn:M; [|discriminate H]. cbn [obind] in H. injection H as <-.
    destruct (IHr a1 T1 eq_refl) as [P1 P2 P3 P4 P5 P6].
    destruct (named_ok fuel fuel a1 d d' P1 P2 E M) as (N1 & N2 & N3 & N4).
    { exists u, v. split; [intros K; apply T2, P4, K|apply P4; exact T3]. }
    constructor; auto.
    + intros w. rewrite N4. apply P4.
    + intros [].
    + intros [].
Qed.

(** Building ends, with the same automaton for any sufficient fuel. *)
Theorem build_ends : forall r, translatable C ok r -> exists a F, forall f, F <= f -> build C f ord r = Some a.
Proof.
  assert (OK : forall r a F, translatable C ok r -> (forall f, F <= f -> build C f ord r = Some a) -> single C ok a).
  { intros r a F T H. apply (b_single r a). apply (build_ok F r a T). apply H. lia. }
  induction r as [| |s|s|r IHr s IHs|r IHr s IHs|r IHr s IHs|r IHr|r IHr|r IHr s IHs|r IHr s IHs|r IHr|r IHr|r IHr]; intros T.
  1-4: eexists; exists 0; intros f _; reflexivity.
  - destruct T as (T1 & T2). destruct (IHr T1) as (a1 & F1 & B1). destruct (IHs T2) as (a2 & F2 & B2).
    eexists. exists (F1 + F2). intros f Hf. cbn [build]. rewrite B1, B2 by lia. reflexivity.
  - destruct T as (T1 & T2). destruct (IHr T1) as (a1 & F1 & B1). destruct (IHs T2) as (a2 & F2 & B2).
    destruct (and_ends C ok L a1 a2 ord (OK r a1 F1 T1 B1) (OK s a2 F2 T2 B2) HP) as (n & F3 & B3).
    exists n, (F1 + F2 + F3). intros f Hf. cbn [build]. rewrite B1, B2 by lia. cbn [obind]. apply B3; lia.
  - destruct T as (T1 & T2). destruct (IHr T1) as (a1 & F1 & B1). destruct (IHs T2) as (a2 & F2 & B2).
    destruct (but_ends C ok L a1 a2 ord (OK r a1 F1 T1 B1) (OK s a2 F2 T2 B2) HP) as (n & F3 & B3).
    exists n, (F1 + F2 + F3). intros f Hf. cbn [build]. rewrite B1, B2 by lia. cbn [obind]. apply B3; lia.
  - destruct (IHr T) as (a1 & F1 & B1). destruct (negate_ends C ok L a1 ord (OK r a1 F1 T B1) HP) as (n & F3 & B3).
    exists n, (F1 + F3). intros f Hf. cbn [build]. rewrite B1 by lia. cbn [obind]. apply B3; lia.
  - destruct (IHr T) as (a1 & F1 & B1). eexists. exists F1. intros f Hf. cbn [build]. rewrite B1 by lia. reflexivity.
  - destruct T as (T1 & T2). destruct (IHr T1) as (a1 & F1 & B1). destruct (IHs T2) as (a2 & F2 & B2).
    eexists. exists (F1 + F2). intros f Hf. cbn [build]. rewrite B1, B2 by lia. reflexivity.
  - destruct T as (T1 & T2 & _). destruct (IHr T1) as (a1 & F1 & B1). destruct (IHs T2) as (a2 & F2 & B2).
    eexists. exists (F1 + F2). intros f Hf. cbn [build]. rewrite B1, B2 by lia. reflexivity.
  - destruct T as (T & _). destruct (IHr T) as (a1 & F1 & B1). eexists. exists F1. intros f Hf. cbn [build]. rewrite B1 by lia. reflexivity.
  - destruct T as (T & _). destruct (IHr T) as (a1 & F1 & B1). eexists. exists F1. intros f Hf. cbn [build]. rewrite B1 by lia. reflexivity.
  - destruct T as (T & u & v & T2 & T3). destruct (IHr T) as (a1 & F1 & B1). pose proof (OK r a1 F1 T B1) as Sa. pose proof Sa as (Wa & _).
    destruct (dfa_of_ends C ok L a1 ord Wa) as (d & F2 & B2).
    pose proof (B2 F2 F2 (le_n _) (le_n _)) as E.
    destruct (dfa_wf C ok L _ _ _ _ _ Wa HP E) as (Wd & Dd & Pd & Ad).
    destruct (minimize C d) as [d'|] eqn:M.
    + exists (nfa_of C d'), (F1 + F2). intros f Hf. cbn [build]. rewrite B1 by lia. cbn [obind]. rewrite B2 by lia. cbn [obind]. rewrite M. reflexivity.
    + exfalso. pose proof (minimize_ends C ok L d Wd Dd Pd M (u ++ v)) as Z.
      pose proof (dfa_action C ok L _ _ _ _ _ (u ++ v) Wa HP E) as DA. rewrite Z in DA.
      pose proof (build_ok F1 r a1 T (B1 F1 (le_n _))) as B. apply (b_lang _ _ B) in T3. destruct T3 as (k & K). apply (DA k K).
Qed.
End R.
