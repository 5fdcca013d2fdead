(** The generated lexer takes the longest match and covers the input. *)
From Coq Require Import List NArith ZArith Lia Bool PeanoNat Permutation ZifyBool ZifyN ZifyNat.
From Verif Require Import Base AutomatonModel AutomatonSpec CsetLaws ThompsonProofs ReachProofs SubsetProofs DfaProofs DfaOpsProofs
  MinimizeProofs LexerModel LexerSpec.
Import ListNotations.

Section X.
Variable C : cset.
Variable ok : car C -> Prop.
Variable L : cs_laws C ok.
Variable nxt : nat -> option (N * nat).
Variable len : nat.
Hypothesis PI : proper_iter nxt len.
Hypothesis IC : forall p c p', nxt p = Some (c, p') -> (c < c_size C)%N.
Notation act := (DfaOpsProofs.act C).

Lemma nxt_step p c p' : nxt p = Some (c, p') -> p < p' <= len.
Proof.
  intros H. destruct PI as (P1 & P2). destruct (Nat.lt_ge_cases p len) as [B|B].
  - destruct (P1 p B) as (c' & p2 & E & R). rewrite H in E. injection E as <- <-. exact R.
  - rewrite P2 in H by exact B. discriminate H.
Qed.
Lemma reads_fun p w q1 : reads nxt p w q1 -> forall q2, reads nxt p w q2 -> q1 = q2.
Proof.
  induction 1 as [p|p c p' w q H1 H2 IH]; intros q2 K; inversion K as [|? ? ? ? ? X1 X2]; subst; [reflexivity|].
  apply IH. rewrite H1 in X1. injection X1 as <-. exact X2.
Qed.
Lemma reads_same_length p w1 q1 : reads nxt p w1 q1 -> forall w2 q2, reads nxt p w2 q2 -> length w1 = length w2 -> w1 = w2 /\ q1 = q2.
Proof.
  induction 1 as [p|p c p' w q H1 H2 IH]; intros w2 q2 K E; inversion K as [|? ? ? ? ? X1 X2]; subst; cbn in E; try lia; [auto|].
  rewrite H1 in X1. injection X1 as <- <-. destruct (IH _ _ X2) as (E1 & E2); [lia|]. subst. auto.
Qed.
Lemma reads_le p w q : reads nxt p w q -> p + length w <= q /\ (w = [] \/ q <= len).
Proof.
  induction 1 as [p|p c p' w q H1 H2 (IH1 & IH2)]; cbn [length]; [split; [lia|auto]|]. apply nxt_step in H1. split; [lia|]. right.
  destruct IH2 as [->|IH2]; [|exact IH2]. inversion H2; subst. lia.
Qed.

Lemma act_cons d q c w : act d q (c :: w) = match first_rule C (rowof C (drules d) q) c with Some t => act d t w | None => 0 end.
Proof. unfold DfaOpsProofs.act. cbn [dfa_run]. destruct (first_rule C (rowof C (drules d) q) c); reflexivity. Qed.

Section D.
Variable d : dfa C.
Hypothesis WD : wf_dfa C ok d.
Hypothesis DJ : disjoint_rows C d.

Lemma branch_first q c : (c < c_size C)%N -> c_branch C (rowof C (drules d) q) c = first_rule C (rowof C (drules d) q) c.
Proof.
  intros B. apply (l_branch C ok L); [|apply DJ|exact B]. apply Forall_forall. intros (s, t) H.
  destruct WD as (_ & _ & _ & W). apply (W q s t H).
Qed.

Definition best (q pos : nat) (w : list N) (lp ls : nat) : Prop :=
  reads nxt pos w lp /\ act d q w = ls /\ ls <> 0 /\ forall w' q', reads nxt pos w' q' -> act d q w' <> 0 -> length w' <= length w.
Lemma scan_ok : forall fuel q pos lpos lstate, len - pos < fuel ->
  exists lp ls, scan C nxt fuel d q pos lpos lstate = Some (lp, ls) /\
    ((exists w, best q pos w lp ls) \/ (lp = lpos /\ ls = lstate /\ forall w q', reads nxt pos w q' -> act d q w = 0)).
Proof.
  induction fuel as [|f IH]; intros q pos lpos lstate B; [lia|]. cbn [scan].
  set (a := nth q (daccept d) 0). assert (A0 : act d q [] = a) by reflexivity.
  set (lp1 := if negb (Nat.eqb a 0) then pos else lpos). set (ls1 := if negb (Nat.eqb a 0) then a else lstate).
  assert (STOP : (forall w' q', reads nxt pos w' q' -> w' <> [] -> act d q w' = 0) ->
    (exists w, best q pos w lp1 ls1) \/ (lp1 = lpos /\ ls1 = lstate /\ forall w q', reads nxt pos w q' -> act d q w = 0)).
  { intros H. unfold lp1, ls1. destruct (Nat.eqb_spec a 0) as [Z|Z]; cbn [negb].
    - right. split; [reflexivity|]. split; [reflexivity|]. intros w q' R. destruct w; [rewrite A0; exact Z|]. apply (H _ _ R). discriminate.
    - left. exists []. split; [constructor|]. split; [exact A0|]. split; [exact Z|]. intros w' q' R N. destruct w'; [cbn; lia|].
      exfalso. apply N, (H _ _ R). discriminate. }
  destruct (nxt pos) as [(c, pos')|] eqn:E.
  2:{ exists lp1, ls1. split; [reflexivity|]. apply STOP. intros w' q' R NE. inversion R; subst; [congruence|]. congruence. }
  pose proof (nxt_step _ _ _ E) as ST. rewrite (branch_first q c (IC _ _ _ E)).
  destruct (first_rule C (rowof C (drules d) q) c) as [t|] eqn:T.
  2:{ exists lp1, ls1. split; [reflexivity|]. apply STOP. intros w' q' R NE. inversion R; subst; [congruence|].
      rewrite E in H. injection H as <- <-. rewrite act_cons, T. reflexivity. }
  destruct (IH t pos' lp1 ls1) as (lp & ls & S1 & S2); [lia|]. exists lp, ls. split; [exact S1|].
  assert (LIFT : forall w' q', reads nxt pos w' q' -> w' = [] \/ exists w2, w' = c :: w2 /\ reads nxt pos' w2 q').
  { intros w' q' R. inversion R; subst; [auto|]. right. rewrite E in H. injection H as <- <-. eauto. }
  destruct S2 as [(w & R & A & N & M)|(-> & -> & Z)].
  - left. exists (c :: w). split; [econstructor; eassumption|]. split; [rewrite act_cons, T; exact A|]. split; [exact N|].
    intros w' q' R' N'. destruct (LIFT _ _ R') as [->|(w2 & -> & R2)]; [cbn; lia|]. cbn [length]. rewrite act_cons, T in N'.
    specialize (M _ _ R2 N'). lia.
  - apply STOP. intros w' q' R' NE. destruct (LIFT _ _ R') as [->|(w2 & -> & R2)]; [congruence|]. rewrite act_cons, T. eapply Z, R2.
Qed.

(** nextAction finds the same. *)
Lemma next_action_scan : forall fuel q pos lpos lstate,
  next_action C nxt fuel d q pos lpos (if Nat.eqb lstate 0 then None else Some lstate) =
  match scan C nxt fuel d q pos lpos lstate with
  | Some (lp, ls) => Some (lp, if Nat.eqb ls 0 then None else Some ls)
  | None => None
  end.
Proof.
  induction fuel as [|f IH]; intros q pos lpos lstate; [reflexivity|]. cbn [scan next_action].
  set (a := nth q (daccept d) 0). set (lp1 := if negb (Nat.eqb a 0) then pos else lpos). set (ls1 := if negb (Nat.eqb a 0) then a else lstate).
  assert (Q : (if negb (a =? 0) then Some a else if lstate =? 0 then None else Some lstate) = (if ls1 =? 0 then None else Some ls1)).
  { unfold ls1. destruct (Nat.eqb_spec a 0) as [Z|Z]; cbn [negb]; [reflexivity|]. destruct (Nat.eqb_spec a 0); [contradiction|reflexivity]. }
  rewrite Q. destruct (nxt pos) as [(c, pos')|] eqn:E; [|reflexivity]. rewrite (branch_first q c (IC _ _ _ E)).
  destruct (first_rule C (rowof C (drules d) q) c) as [t|]; [apply IH|reflexivity].
Qed.
End D.

(** ** The automaton of a rule set *)
Variable ord : list (list bool) -> list (list bool).
Hypothesis HP : forall l, Permutation (ord l) l.
Definition langs (rules : list (nfa C)) : list (list N -> Prop) := map (lang C) rules.
Lemma matches_langs rules k w : rules <> [] -> Forall (single C ok) rules ->
  (matches (langs rules) k w <-> laccepts C (nfa_list C rules) k w).
Proof.
  intros NE SI. rewrite (list_lang C ok L rules k w NE SI). unfold matches, langs. rewrite nth_error_map. split.
  - intros (P & E & H). destruct (nth_error rules k) as [a|]; [|discriminate E]. injection E as <-. eauto.
  - intros (a & -> & H). cbn. eauto.
Qed.
Lemma sizes_sum rules : rules <> [] -> nst (nfa_list C rules) - naccept (nfa_list C rules) = length rules.
Proof. destruct rules as [|a l]; [congruence|]. intros _. unfold nfa_list. cbn [nst naccept]. lia. Qed.

(** What the automaton of the rules computes. *)
Definition first_match (ls : list (list N -> Prop)) (w : list N) (k : nat) : Prop :=
  match k with 0 => forall j, ~ matches ls j w | S k => matches ls k w /\ forall j, j < k -> ~ matches ls j w end.
Lemma first_match_fun ls w k k' : first_match ls w k -> first_match ls w k' -> k = k'.
Proof.
  destruct k as [|k], k' as [|k']; cbn; intros H K; [reflexivity| | |].
  - destruct (H k' (proj1 K)).
  - destruct (K k (proj1 H)).
  - destruct H as (H1 & H2), K as (K1 & K2). destruct (lt_eq_lt_dec k k') as [[B|B]|B]; [destruct (K2 _ B H1)|congruence|destruct (H2 _ B K1)].
Qed.
Lemma lexer_minimize fuel rules d0 : rules <> [] -> Forall (single C ok) rules -> used (langs rules) ->
  dfa_of C fuel fuel ord (nfa_list C rules) = Some d0 -> exists d, minimize C d0 = Some d /\
  wf_dfa C ok d /\ disjoint_rows C d /\ dactions d = length rules /\ forall w, first_match (langs rules) w (act d 0 w).
Proof.
  intros NE SI (U1 & u & v & j & U2 & U3) E.
  pose proof (list_wf C ok L rules NE SI) as WN.
  destruct (dfa_wf C ok L _ _ _ _ _ WN HP E) as (W0 & D0 & P0 & A0). rewrite sizes_sum in A0 by exact NE.
  assert (FM : forall w, first_match (langs rules) w (dfa_accepts C d0 w)).
  { intros w. pose proof (dfa_action C ok L _ _ _ _ _ w WN HP E) as DA. destruct (dfa_accepts C d0 w) as [|k]; cbn.
    - intros i K. apply (DA i). apply matches_langs; assumption.
    - destruct DA as (DA1 & DA2). split; [apply matches_langs; assumption|]. intros i B K. apply (DA2 i B). apply matches_langs; assumption. }
  destruct (trim_ok C ok d0 W0 D0 P0) as (d2 & T2 & _).
  destruct (actions_occur C ok d0 d2 W0 D0 P0 T2) as (P2 & AA).
  { intros k K. rewrite A0 in K. destruct (U1 (k - 1)) as (w & X1 & X2); [unfold langs; rewrite map_length; lia|]. exists w.
    apply (first_match_fun (langs rules) w); [apply FM|]. destruct k as [|k]; [lia|]. cbn. replace (S k - 1) with k in * by lia. auto. }
  { exists u, v. split.
    - apply (first_match_fun (langs rules) u); [apply FM|exact U2].
    - intros Z. pose proof (FM (u ++ v)) as F. rewrite Z in F. apply (F j U3). }
  destruct (minimize_core C ok L d0 d2 W0 D0 P0 T2 P2 (or_introl AA)) as (d3 & M3 & W3 & D3 & A3' & J3 & T3 & L3 & _).
  exists d3. split; [exact M3|]. split; [exact W3|]. split; [exact J3|]. split; [lia|]. intros w. rewrite L3. apply FM.
Qed.
Theorem lexer_dfa_ok fuel rules d : rules <> [] -> Forall (single C ok) rules -> used (langs rules) ->
  lexer_dfa C fuel ord rules = Some d ->
  wf_dfa C ok d /\ disjoint_rows C d /\ dactions d = length rules /\ forall w, first_match (langs rules) w (act d 0 w).
Proof.
  intros NE SI U H. unfold lexer_dfa in H. destruct (dfa_of C fuel fuel ord (nfa_list C rules)) as [d0|] eqn:E; [|discriminate H]. cbn [obind] in H.
  destruct (lexer_minimize fuel rules d0 NE SI U E) as (d3 & M3 & R). rewrite H in M3. injection M3 as <-. exact R.
Qed.
Theorem lexer_dfa_ends rules : rules <> [] -> Forall (single C ok) rules -> used (langs rules) ->
  exists F d, forall f, F <= f -> lexer_dfa C f ord rules = Some d.
Proof.
  intros NE SI U. destruct (dfa_of_ends C ok L (nfa_list C rules) ord (list_wf C ok L rules NE SI)) as (d0 & F & H).
  destruct (lexer_minimize F rules d0 NE SI U (H F F (le_n F) (le_n F))) as (d & M & _). exists F, d. intros f B. unfold lexer_dfa. rewrite (H f f B B). exact M.
Qed.

Lemma best_longest rules d p w q k : (forall w, first_match (langs rules) w (act d 0 w)) ->
  best d 0 p w q (S k) -> longest nxt (langs rules) p k w q.
Proof.
  intros FM (R & A & _ & M). pose proof (FM w) as F. rewrite A in F. destruct F as (F1 & F2). split; [exact R|]. split; [exact F1|].
  split; [exact F2|]. intros j w' q' R' K. apply (M w' q' R'). intros Z. pose proof (FM w') as F. rewrite Z in F. apply (F j K).
Qed.
Theorem scan_longest fuel f rules d p : rules <> [] -> Forall (single C ok) rules -> used (langs rules) ->
  lexer_dfa C f ord rules = Some d -> len - p < fuel ->
  exists q k, scan C nxt fuel d 0 p p 0 = Some (q, k) /\
    match k with 0 => q = p /\ no_match nxt (langs rules) p | S k => k < length rules /\ exists w, longest nxt (langs rules) p k w q end.
Proof.
  intros NE SI U H B. destruct (lexer_dfa_ok _ _ _ NE SI U H) as (W & J & A & FM).
  destruct (scan_ok d W J fuel 0 p p 0 B) as (q & k & E & K). exists q, k. split; [exact E|].
  destruct K as [(w & K)|(-> & -> & K)].
  - destruct k as [|k]; [destruct K as (_ & _ & K & _); congruence|]. pose proof (best_longest rules d p w q k FM K) as LO. split; [|eauto].
    destruct LO as (_ & (P & X & _) & _). assert (Y : nth_error (langs rules) k <> None) by congruence. apply nth_error_Some in Y; unfold langs in Y; rewrite map_length in Y; exact Y.
  - split; [reflexivity|]. intros j w q' R X. pose proof (FM w) as F. rewrite (K w q' R) in F. apply (F j X).
Qed.

(** ** Whole tokens *)
Variable rules : list (nfa C).
Variable acts : list action.
Hypothesis NE : rules <> [].
Hypothesis SI : Forall (single C ok) rules.
Hypothesis US : used (langs rules).
Hypothesis LA : length acts = length rules.
(** Every match is longer than the part given back. *)
Definition advances : Prop := forall k w p q a, nth_error acts k = Some a -> matches (langs rules) k w -> reads nxt p w q -> p < q - a_back a.
Hypothesis AD : advances.
Notation NT := (next_token nxt (langs rules) acts).

Definition lstart (l : lexer) : nat := if l_cont l then l_spos l else l_pos l.
Theorem read_ok f d : lexer_dfa C f ord rules = Some d -> forall fuel l, l_pos l <= len -> len - l_pos l + 1 < fuel ->
  exists l' t, read C nxt fuel d acts l = Some l' /\ l_tokens l' = l_tokens l ++ [t] /\ NT (lstart l) (l_pos l) t (l_pos l') /\
    l_pos l' <= len /\ (l_cont l' = true -> nxt (l_pos l') = None).
Proof.
  intros HD. induction fuel as [|fu IH]; intros l PL B; [lia|]. cbn [read].
  destruct (nxt (l_pos l)) as [(c, p1)|] eqn:E.
  2:{ eexists _, _. split; [reflexivity|]. cbn [l_tokens l_pos l_cont]. split; [reflexivity|]. split; [constructor; exact E|auto]. }
  assert (NN : nxt (l_pos l) <> None) by congruence.
  destruct (scan_longest fu f rules d (l_pos l) NE SI US HD) as (q & k & S1 & S2); [lia|]. rewrite S1. cbn [obind].
  destruct k as [|k].
  - destruct S2 as (-> & S2). eexists _, _. split; [reflexivity|]. cbn [l_tokens l_pos l_cont]. split; [reflexivity|].
    split; [apply NT_fail; assumption|]. split; [exact PL|discriminate].
  - destruct S2 as (KL & w & LO). destruct (nth_error acts k) as [[n fin]|] eqn:EA.
    2:{ apply nth_error_None in EA. lia. }
    cbn [obind a_back a_finish]. pose proof LO as (R & MA & _). pose proof (AD k w _ _ _ EA MA R) as AV. cbn [a_back] in AV.
    assert (QL : q - n <= len).
    { destruct (reads_le _ _ _ R) as (_ & [->|Q]); [inversion R; subst; lia|lia]. }
    destruct fin as [kind| |].
    + eexists _, _. split; [reflexivity|]. cbn [l_tokens l_pos l_cont]. split; [reflexivity|]. split; [|split; [exact QL|discriminate]].
      change (if l_cont l then l_spos l else l_pos l) with (lstart l). eapply NT_return; eassumption.
    + destruct (IH (MkLexer (q - n) (if l_cont l then l_spos l else l_pos l) false (l_tokens l))) as (l' & t & R1 & R2 & R3 & R4 & R5); cbn [l_pos]; [exact QL|lia|].
      exists l', t. split; [exact R1|]. split; [exact R2|]. split; [|auto]. eapply NT_skip; eassumption.
    + destruct (IH (MkLexer (q - n) (if l_cont l then l_spos l else l_pos l) true (l_tokens l))) as (l' & t & R1 & R2 & R3 & R4 & R5); cbn [l_pos]; [exact QL|lia|].
      exists l', t. split; [exact R1|]. split; [exact R2|]. split; [|auto]. eapply NT_continue; eassumption.
Qed.

Lemma longest_fun p k w q k' w' q' : longest nxt (langs rules) p k w q -> longest nxt (langs rules) p k' w' q' -> k = k' /\ w = w' /\ q = q'.
Proof.
  intros (R1 & M1 & F1 & X1) (R2 & M2 & F2 & X2). pose proof (X1 _ _ _ R2 M2). pose proof (X2 _ _ _ R1 M1).
  destruct (reads_same_length _ _ _ R1 _ _ R2) as (-> & ->); [lia|]. split; [|auto].
  destruct (lt_eq_lt_dec k k') as [[B|B]|B]; [destruct (F2 _ B M1)|exact B|destruct (F1 _ B M2)].
Qed.
Lemma longest_match p k w q : longest nxt (langs rules) p k w q -> ~ no_match nxt (langs rules) p.
Proof. intros (R & M & _) H. apply (H _ _ _ R M). Qed.
(** The specification leaves no choice. *)
Theorem next_token_fun s p t q : NT s p t q -> forall t' q', NT s p t' q' -> t = t' /\ q = q'.
Proof.
  induction 1 as [s p H|s p H1 H2|s p k w q n kind H1 H2 H3|s p k w q n t r H1 H2 H3 H4 IH|s p k w q n t r H1 H2 H3 H4 IH]; intros t' q' K.
  - inversion K; subst; try congruence; auto.
  - inversion K; subst; try congruence; auto; exfalso; eapply longest_match; eassumption.
  - inversion K; subst; try congruence; try (exfalso; eapply longest_match; eassumption);
      match goal with H : longest _ _ p _ _ _, H' : longest _ _ p _ _ _ |- _ => destruct (longest_fun _ _ _ _ _ _ _ H H') as (-> & -> & ->) end; split; congruence.
  - inversion K; subst; try congruence; try (exfalso; eapply longest_match; eassumption);
      match goal with H : longest _ _ p _ _ _, H' : longest _ _ p _ _ _ |- _ => destruct (longest_fun _ _ _ _ _ _ _ H H') as (-> & -> & ->) end; try congruence.
    apply IH. replace n with n0 by congruence. assumption.
  - inversion K; subst; try congruence; try (exfalso; eapply longest_match; eassumption);
      match goal with H : longest _ _ p _ _ _, H' : longest _ _ p _ _ _ |- _ => destruct (longest_fun _ _ _ _ _ _ _ H H') as (-> & -> & ->) end; try congruence.
    apply IH. replace n with n0 by congruence. assumption.
Qed.

Definition stuck (p : nat) : Prop := nxt p = None \/ no_match nxt (langs rules) p.
Lemma next_token_pieces s p t q : NT s p t q -> s <= p -> exists ps, pieces s ps q /\
  (tokens_of ps = [t] \/ (tokens_of ps = [] /\ t = eof_at q /\ stuck q)).
Proof.
  assert (LOST : forall s p, s <= p -> exists ps, pieces s ps p /\ tokens_of ps = []).
  { clear. intros s p B. destruct (Nat.eq_dec s p) as [->|N]; [exists []; split; [constructor|reflexivity]|].
    exists [(s, p, None)]. split; [constructor; [lia|constructor]|reflexivity]. }
  induction 1 as [s p H|s p H1 H2|s p k w q n kind H1 H2 H3|s p k w q n t r H1 H2 H3 H4 IH|s p k w q n t r H1 H2 H3 H4 IH]; intros B.
  - destruct (LOST s p B) as (ps & P1 & P2). exists ps. split; [exact P1|]. right. unfold stuck. auto.
  - destruct (LOST s p B) as (ps & P1 & P2). exists ps. split; [exact P1|]. right. unfold stuck. auto.
  - destruct H2 as (R & M & _). pose proof (AD _ _ _ _ _ H3 M R) as A. cbn [a_back] in A. exists [(s, q - n, Some kind)].
    split; [constructor; [lia|constructor]|]. left. reflexivity.
  - destruct H2 as (R & M & _). pose proof (AD _ _ _ _ _ H3 M R) as A. cbn [a_back] in A. destruct (IH (le_n _)) as (ps & P1 & P2).
    exists ((s, q - n, None) :: ps). split; [constructor; [lia|exact P1]|exact P2].
  - destruct H2 as (R & M & _). pose proof (AD _ _ _ _ _ H3 M R) as A. cbn [a_back] in A. apply IH. lia.
Qed.
Lemma pieces_app p l q : pieces p l q -> forall l' r, pieces q l' r -> pieces p (l ++ l') r.
Proof. induction 1 as [p|p e k l q H1 H2 IH]; intros l' r K; [exact K|]. cbn. constructor; auto. Qed.
Lemma tokens_app l l' : tokens_of (l ++ l') = tokens_of l ++ tokens_of l'.
Proof. induction l as [|((b, e), [k|]) l IH]; cbn; [reflexivity|rewrite IH; reflexivity|exact IH]. Qed.
Lemma pieces_length p l q : pieces p l q -> p + length (tokens_of l) <= q.
Proof. induction 1 as [p|p e k l q H1 H2 IH]; cbn; [lia|]. destruct k; cbn; lia. Qed.
Lemma stuck_token s p t q : stuck p -> NT s p t q -> t = eof_at p /\ q = p.
Proof.
  intros ST K. destruct ST as [ST|ST]; inversion K; subst; auto; try congruence; exfalso; eapply longest_match; eassumption.
Qed.

Definition covered (n : nat) (l : lexer) : Prop :=
  exists ps m, pieces 0 ps (l_pos l) /\ l_tokens l = tokens_of ps ++ repeat (eof_at (l_pos l)) m /\
    length (l_tokens l) = n /\ l_pos l <= len /\ (0 < m -> stuck (l_pos l)).
Theorem reads_cover f d : lexer_dfa C f ord rules = Some d -> forall n fuel, len + 1 < fuel ->
  exists l, reads_n C nxt n fuel d acts start = Some l /\ covered n l.
Proof.
  intros HD n fuel BF.
  assert (G : forall n k l, covered k l -> (l_cont l = true -> nxt (l_pos l) = None) ->
    exists l', reads_n C nxt n fuel d acts l = Some l' /\ covered (k + n) l').
  { clear n. induction n as [|n IH]; intros k l CV CT.
    - exists l. split; [reflexivity|]. rewrite Nat.add_0_r. exact CV.
    - cbn [reads_n]. pose proof CV as (ps & m & C1 & C2 & C3 & C4 & C5).
      destruct (read_ok f d HD fuel l C4) as (l' & t & R1 & R2 & R3 & R4 & R5); [lia|]. rewrite R1. cbn [obind].
      replace (k + S n) with (S k + n) by lia. apply IH; [|exact R5].
      assert (R3' : NT (l_pos l) (l_pos l) t (l_pos l')).
      { unfold lstart in R3. destruct (l_cont l); [|exact R3]. specialize (CT eq_refl). inversion R3; subst; try congruence. apply NT_eof. congruence. }
      destruct (Nat.eq_dec m 0) as [->|Nm].
      + destruct (next_token_pieces _ _ _ _ R3' (le_n _)) as (ps2 & Q1 & Q2). cbn [repeat] in C2. rewrite app_nil_r in C2.
        destruct Q2 as [Q2|(Q2 & -> & Q3)].
        * exists (ps ++ ps2), 0. split; [eapply pieces_app; eassumption|]. cbn [repeat]. rewrite app_nil_r, tokens_app, Q2, <- C2. split; [exact R2|].
          split; [rewrite R2, app_length; cbn; lia|]. split; [exact R4|lia].
        * exists (ps ++ ps2), 1. split; [eapply pieces_app; eassumption|]. rewrite tokens_app, Q2, app_nil_r, <- C2. split; [exact R2|].
          split; [rewrite R2, app_length; cbn; lia|]. split; [exact R4|auto].
      + destruct (stuck_token _ _ _ _ (C5 ltac:(lia)) R3') as (-> & Q). exists ps, (S m). rewrite Q. split; [exact C1|].
        split; [rewrite R2, C2, <- app_assoc; f_equal; change [eof_at (l_pos l)] with (repeat (eof_at (l_pos l)) 1); rewrite <- repeat_app; f_equal; lia|].
        split; [rewrite R2, app_length; cbn; lia|]. split; [exact C4|]. intros _. apply C5. lia. }
  destruct (G n 0 start) as (l & L1 & L2); [|discriminate|].
  - exists [], 0. cbn. split; [constructor|]. split; [reflexivity|]. split; [reflexivity|]. lia.
  - exists l. auto.
Qed.
(** After enough reads the end (or an error) has been reported. *)
Lemma covered_end n l : covered n l -> len < n -> stuck (l_pos l) /\ exists ps m, pieces 0 ps (l_pos l) /\ 0 < m /\
  l_tokens l = tokens_of ps ++ repeat (eof_at (l_pos l)) m.
Proof.
  intros (ps & m & C1 & C2 & C3 & C4 & C5) B. pose proof (pieces_length _ _ _ C1). rewrite C2, app_length, repeat_length in C3.
  split; [apply C5; lia|]. exists ps, m. split; [exact C1|]. split; [lia|exact C2].
Qed.
End X.

(** Iterators with one unit per character. *)
Lemma unit_proper buf : proper_iter (unit_iter buf) (length buf).
Proof.
  unfold proper_iter, unit_iter. split.
  - intros p B. destruct (nth_error buf p) as [c|] eqn:E; [|apply nth_error_None in E; lia]. exists c, (S p). split; [reflexivity|lia].
  - intros p B. apply nth_error_None in B. rewrite B. reflexivity.
Qed.
Lemma unit_reads buf : forall w p q, reads (unit_iter buf) p w q <-> (q = p + length w /\ firstn (length w) (skipn p buf) = w).
Proof.
  unfold unit_iter. induction w as [|c w IH]; intros p q; split.
  - intros H. inversion H; subst. cbn. split; [lia|reflexivity].
  - intros (-> & _). cbn. replace (p + 0) with p by lia. constructor.
  - intros H. inversion H as [|? ? ? ? ? X1 X2]; subst. destruct (nth_error buf p) as [c'|] eqn:E; [|discriminate X1]. injection X1 as <- <-.
    apply IH in X2. destruct X2 as (-> & X2). cbn [length]. split; [lia|].
    apply nth_error_split in E. destruct E as (l1 & l2 & -> & <-). rewrite skipn_app, skipn_all, Nat.sub_diag. cbn [skipn app firstn]. f_equal.
    rewrite <- X2 at 2. replace (S (length l1)) with (length (l1 ++ [c'])) by (rewrite app_length; cbn; lia).
    replace (l1 ++ c' :: l2) with ((l1 ++ [c']) ++ l2) by (rewrite <- app_assoc; reflexivity). rewrite skipn_app, skipn_all, Nat.sub_diag. reflexivity.
  - intros (-> & H). cbn [length] in H. destruct (skipn p buf) as [|c' l2] eqn:E; [discriminate H|]. cbn [firstn] in H. injection H as -> H.
    assert (B : p < length buf) by (pose proof (skipn_length p buf) as SL; rewrite E in SL; cbn in SL; lia).
    assert (S1 : skipn (S p) buf = l2).
    { rewrite <- (firstn_skipn p buf) at 1. rewrite E. rewrite skipn_app. rewrite firstn_length_le by lia. rewrite skipn_all2 by (rewrite firstn_length_le; lia).
      replace (S p - p) with 1 by lia. reflexivity. }
    apply reads_cons with (p' := S p).
    + replace (nth_error buf p) with (Some c); [reflexivity|]. rewrite <- (firstn_skipn p buf), E, nth_error_app2; rewrite firstn_length_le by lia; [|lia].
      rewrite Nat.sub_diag. reflexivity.
    + apply IH. split; [cbn [length]; lia|]. rewrite S1. exact H.
Qed.
