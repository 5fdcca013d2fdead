(** Rule sets of the generated lexer. *)
From Coq Require Import List NArith ZArith Lia Bool PeanoNat Permutation.
From Verif Require Import Base AutomatonModel AutomatonSpec CsetLaws UtfModel LexerModel LexerSpec LexerProofs IterModel IterSpec.
Import ListNotations.
Local Open Scope nat_scope.

Lemma switch_is cur ss r log : switch cur ss (r, log) = (after r ss, log ++ calls cur ss).
Proof.
  revert r log. induction ss as [|x ss IH]; intros r log; [unfold switch, after, calls; cbn; rewrite app_nil_r; reflexivity|].
  unfold switch in *. cbn [fold_left fst snd]. rewrite IH. unfold after, calls. cbn [flat_map]. f_equal.
  - destruct ss; [reflexivity|]. cbn [last]. clear IH. revert n. induction ss as [|y ss IH]; intros n; [reflexivity|]. exact (IH y).
  - rewrite <- app_assoc. reflexivity.
Qed.

Lemma same_lengths {A B} (P : A -> B -> Prop) l l' : Forall2 P l l' -> length l = length l'.
Proof. induction 1; cbn; congruence. Qed.
Section R.
Variable C : cset.
Variable ok : car C -> Prop.
Variable L : cs_laws C ok.
Variable ord : list (list bool) -> list (list bool).
Hypothesis HP : forall l, Permutation (ord l) l.
Variable text : list N.
Hypothesis TX : Forall (fun c => c < c_size C)%N text.
Notation len := (length text).
Notation U := (unit_iterator text).
Notation nxt := (unit_iter text).

Lemma unit_is_proper : proper_iter nxt len.
Proof.
  split.
  - intros p B. unfold unit_iter. destruct (nth_error text p) as [c|] eqn:E; [|apply nth_error_None in E; lia]. exists c, (S p). split; [reflexivity|lia].
  - intros p B. unfold unit_iter. apply nth_error_None in B. rewrite B. reflexivity.
Qed.
Lemma unit_in_size p c p' : nxt p = Some (c, p') -> (c < c_size C)%N.
Proof.
  unfold unit_iter. destruct (nth_error text p) as [x|] eqn:E; [|discriminate]. intros H. injection H as <- _. exact (proj1 (Forall_forall _ _) TX x (nth_error_In _ _ E)).
Qed.
Lemma run_scan d : forall fuel q i lp ls, i <= len ->
  match scan C nxt fuel d q i lp ls with
  | Some r => exists i', run C U fuel d q i lp ls = Done (i', r)
  | None => run C U fuel d q i lp ls = Unfinished
  end.
Proof.
  induction fuel as [|f IH]; intros q i lp ls B; [reflexivity|]. cbn [scan run]. change (it_pos U i) with i. change (it_more U i) with (more_at text i).
  set (lp1 := if negb (nth q (daccept d) 0 =? 0) then i else lp). set (ls1 := if negb (nth q (daccept d) 0 =? 0) then nth q (daccept d) 0 else ls).
  unfold more_at. destruct (Nat.eqb_spec i len) as [->|N]; cbn [negb].
  - unfold unit_iter at 1. replace (nth_error text len) with (@None N) by (symmetry; apply nth_error_None; lia). eauto.
  - unfold unit_iter at 1. destruct (nth_error text i) as [c|] eqn:E; [|apply nth_error_None in E; lia].
    assert (N1 : it_next U i = Ok (c, S i)).
    { cbn [unit_iterator it_next]. unfold rd. replace (Nat.leb i len) with true by (symmetry; apply Nat.leb_le; lia). rewrite (nth_error_nth _ _ _ E). reflexivity. }
    rewrite N1. destruct (c_branch C (rowof C (drules d) q) c) as [t|]; [|eauto]. apply IH. lia.
Qed.

Variable defs : list (list (nfa C)).
Variable sets : list (rule_set C).
Variable f : nat.
(** The sets come from the rules. *)
Definition built (rules : list (nfa C)) (rs : rule_set C) : Prop :=
  rules <> [] /\ Forall (single C ok) rules /\ used (map (lang C) rules) /\ lexer_dfa C f ord rules = Some (s_dfa rs) /\ length (s_rules rs) = length rules.
Hypothesis BU : Forall2 built defs sets.
Definition declared (ss : list nat) : Prop := Forall (fun x => x < length sets) ss.
Hypothesis DE : Forall (fun rs => (forall ss, s_fail rs = Some ss -> declared ss) /\ Forall (fun a => declared (r_sets a)) (s_rules rs)) sets.
(** No match is given back whole. *)
Definition keeps (rules : list (nfa C)) (rs : rule_set C) : Prop :=
  forall k w a, nth_error (s_rules rs) k = Some a -> matches (map (lang C) rules) k w -> r_back a < length w.
Hypothesis KE : Forall2 keeps defs sets.
Notation langs := (map (map (lang C)) defs).
Notation acts := (map s_rules sets).
Notation fails := (map s_fail sets).
Notation NI := (next_in text langs acts fails).
Notation ST := (stuck_in text langs acts fails).

Lemma at_set r rs : nth_error sets r = Some rs -> exists rules, nth_error defs r = Some rules /\ built rules rs /\ keeps rules rs /\
  in_set langs r = map (lang C) rules /\ in_set acts r = s_rules rs /\ nth_error fails r = Some (s_fail rs).
Proof.
  intros E. assert (B : r < length defs) by (rewrite (same_lengths _ _ _ BU); apply nth_error_Some; congruence).
  destruct (nth_error defs r) as [rules|] eqn:D; [|apply nth_error_None in D; lia]. exists rules. split; [reflexivity|].
  assert (X : forall P, Forall2 P defs sets -> P rules rs).
  { intros P F. clear -F D E. revert r D E. induction F as [|x y l l' H F IH]; intros r D E; [destruct r; discriminate D|].
    destruct r as [|r]; cbn in D, E; [congruence|eapply IH; eassumption]. }
  split; [apply X; exact BU|]. split; [apply X; exact KE|]. unfold in_set. split; [|split].
  - rewrite (nth_indep _ [] (map (lang C) [])) by (rewrite map_length; exact B). rewrite map_nth. rewrite (nth_error_nth _ _ _ D). reflexivity.
  - apply nth_error_nth. rewrite nth_error_map, E. reflexivity.
  - rewrite nth_error_map, E. reflexivity.
Qed.
Lemma after_declared r ss : r < length sets -> declared ss -> after r ss < length sets.
Proof.
  intros R D. unfold after. destruct ss as [|x ss]; [exact R|]. unfold declared in D. rewrite Forall_forall in D. apply D.
  clear. revert x. induction ss as [|y ss IH]; intros x; [left; reflexivity|]. right. exact (IH y).
Qed.

Definition lexeme (l : lexing U) : nat := if x_cont l then x_spos l else x_it l.
Theorem lex_next : forall fuel (l : lexing U), x_it l <= len -> x_set l < length sets -> len - x_it l + 1 < fuel ->
  (exists (l' : lexing U) t ev, lex C U fuel sets l = Done l' /\ x_tokens l' = x_tokens l ++ [t] /\ x_log l' = x_log l ++ ev /\
     NI (x_set l) (lexeme l) (x_it l) t (x_it l') (x_set l') ev /\ x_it l' <= len /\ x_set l' < length sets) \/
  (lex C U fuel sets l = Exits /\ ST (x_set l) (x_it l)).
Proof.
  induction fuel as [|fu IH]; intros l B R F; [lia|]. cbn [lex].
  destruct (nth_error sets (x_set l)) as [rs|] eqn:RS; [|apply nth_error_None in RS; lia].
  destruct (at_set _ _ RS) as (rules & _ & (NE & SI & US & HD & LA) & KP & IL & IA & IF).
  pose proof (proj1 (Forall_forall _ _) DE rs (nth_error_In _ _ RS)) as (DF & DA).
  change (it_pos U (x_it l)) with (x_it l). change (it_more U (x_it l)) with (more_at text (x_it l)). unfold more_at.
  destruct (Nat.eqb_spec (x_it l) len) as [E|E]; cbn [negb].
  { left. eexists _, (eof_at (x_it l)), []. split; [reflexivity|]. cbn [x_it x_set x_tokens x_log]. split; [reflexivity|]. split; [rewrite app_nil_r; reflexivity|].
    split; [constructor; lia|]. auto. }
  assert (LT : x_it l < len) by lia.
  destruct (scan_longest C ok L nxt len unit_is_proper unit_in_size ord HP fu f rules (s_dfa rs) (x_it l) NE SI US HD) as (q & k & S1 & S2); [lia|].
  pose proof (run_scan (s_dfa rs) fu 0 (x_it l) (x_it l) 0 B) as RS2. rewrite S1 in RS2. destruct RS2 as (i' & ->).
  destruct k as [|k].
  - destruct S2 as (-> & NM). change (LexerProofs.langs C rules) with (map (lang C) rules) in NM. rewrite <- IL in NM.
    destruct (s_fail rs) as [ss|] eqn:SF.
    + left. rewrite switch_is. eexists _, (eof_at (x_it l)), (calls (x_set l) ss). split; [reflexivity|]. cbn [x_it x_set x_tokens x_log]. split; [reflexivity|]. split; [reflexivity|].
      split; [apply NI_fail; auto|]. split; [exact B|]. apply after_declared; [exact R|apply DF; reflexivity].
    + right. split; [reflexivity|]. apply SI_here; auto.
  - destruct S2 as (BK & w & LO). change (LexerProofs.langs C rules) with (map (lang C) rules) in LO.
    destruct (nth_error (s_rules rs) k) as [a|] eqn:A; [|apply nth_error_None in A; lia].
    assert (LW : r_back a < length w) by (apply (KP k w a A); apply LO).
    assert (RW : x_it l + length w <= q /\ q <= len).
    { destruct LO as (RD & _). pose proof (reads_le C nxt len unit_is_proper unit_in_size _ _ _ RD) as (X1 & X2). split; [lia|]. destruct X2 as [->|X2]; [cbn in LW; lia|exact X2]. }
    rewrite <- IL in LO. destruct (Nat.ltb_spec q (r_back a)) as [X|_]; [lia|]. change (it_put U (q - r_back a) i') with (q - r_back a).
    rewrite switch_is. pose proof (proj1 (Forall_forall _ _) DA a (nth_error_In _ _ A)) as DD. cbn beta in DD.
    pose proof (after_declared (x_set l) (r_sets a) R DD) as R2. rewrite <- IA in A. destruct a as [n ss fin]. cbn [r_back r_sets r_finish] in *.
    destruct fin as [kind| |].
    + left. eexists _, _, (calls (x_set l) ss). split; [reflexivity|]. cbn [x_it x_set x_tokens x_log]. split; [reflexivity|]. split; [reflexivity|].
      split; [eapply NI_return; eassumption|]. split; [lia|exact R2].
    + match goal with |- context [lex C U fu sets ?m] => set (l2 := m) in * end.
      destruct (IH l2) as [(l' & t & ev & K1 & K2 & K3 & K4 & K5)|(K1 & K2)]; [cbn; lia|exact R2|cbn; lia| |].
      * left. exists l', t, (calls (x_set l) ss ++ ev). split; [exact K1|]. split; [exact K2|]. split; [rewrite K3; cbn [l2 x_log]; rewrite app_assoc; reflexivity|].
        split; [eapply NI_skip; eassumption|exact K5].
      * right. split; [exact K1|]. eapply SI_later; try eassumption. auto.
    + match goal with |- context [lex C U fu sets ?m] => set (l2 := m) in * end.
      destruct (IH l2) as [(l' & t & ev & K1 & K2 & K3 & K4 & K5)|(K1 & K2)]; [cbn; lia|exact R2|cbn; lia| |].
      * left. exists l', t, (calls (x_set l) ss ++ ev). split; [exact K1|]. split; [exact K2|]. split; [rewrite K3; cbn [l2 x_log]; rewrite app_assoc; reflexivity|].
        split; [|exact K5]. eapply NI_continue; try eassumption.
      * right. split; [exact K1|]. eapply SI_later; try eassumption. auto.
Qed.
End R.

(** ** Calls of the code of the rule sets *)
Lemma turn_app r l x : in_turn r l x -> forall l' y, in_turn x l' y -> in_turn r (l ++ l') y.
Proof. induction 1 as [r|r z l x H IH]; intros l' y K; [exact K|]. cbn [app]. constructor. apply IH. exact K. Qed.
Section T.
Variable C : cset.
Variable I : iterator.
Variable sets : list (rule_set C).
Definition once (rs : rule_set C) : Prop := (forall ss, s_fail rs = Some ss -> length ss <= 1) /\ Forall (fun a => length (r_sets a) <= 1) (s_rules rs).
Hypothesis ON : Forall once sets.
Lemma switch_turn cur ss log r0 r log' : length ss <= 1 -> in_turn r0 log cur -> switch cur ss (cur, log) = (r, log') -> in_turn r0 log' r.
Proof.
  intros B T. rewrite switch_is. intros E. injection E as <- <-. destruct ss as [|x [|y ss]]; cbn in B; [| |lia].
  - cbn. rewrite app_nil_r. exact T.
  - apply (turn_app _ _ _ T). cbn. constructor. constructor.
Qed.
Theorem lex_turn r0 : forall fuel l l', in_turn r0 (x_log l) (x_set l) -> lex C I fuel sets l = Done l' -> in_turn r0 (x_log l') (x_set l').
Proof.
  induction fuel as [|fu IH]; intros l l' T H; [discriminate H|]. cbn [lex] in H.
  destruct (nth_error sets (x_set l)) as [rs|] eqn:RS; [|discriminate H].
  pose proof (proj1 (Forall_forall _ _) ON rs (nth_error_In _ _ RS)) as (O1 & O2).
  destruct (it_more I (x_it l)); [|injection H as <-; exact T].
  destruct (run C I fu (s_dfa rs) 0 (x_it l) (it_pos I (x_it l)) 0) as [(it, (lp, [|k]))| | |]; try discriminate H.
  - destruct (s_fail rs) as [ss|] eqn:SF; [|discriminate H]. destruct (switch (x_set l) ss (x_set l, x_log l)) as (r, log) eqn:SW. injection H as <-. cbn [x_log x_set].
    eapply switch_turn; [apply O1; reflexivity|exact T|exact SW].
  - destruct (nth_error (s_rules rs) k) as [a|] eqn:A; [|discriminate H]. destruct (lp <? r_back a); [discriminate H|].
    destruct (switch (x_set l) (r_sets a) (x_set l, x_log l)) as (r, log) eqn:SW.
    assert (T2 : in_turn r0 log r) by (eapply switch_turn; [exact (proj1 (Forall_forall _ _) O2 a (nth_error_In _ _ A))|exact T|exact SW]).
    destruct (r_finish a) as [kind| |].
    + injection H as <-. exact T2.
    + refine (IH _ _ _ H). exact T2.
    + refine (IH _ _ _ H). exact T2.
Qed.
Theorem lex_n_turn r0 : forall n fuel l l', in_turn r0 (x_log l) (x_set l) -> lex_n C I n fuel sets l = Done l' -> in_turn r0 (x_log l') (x_set l').
Proof.
  induction n as [|n IH]; intros fuel l l' T H; [injection H as <-; exact T|]. cbn [lex_n] in H. destruct (lex C I fuel sets l) as [l1| | |] eqn:E; try discriminate H.
  refine (IH fuel l1 l' _ H). eapply lex_turn; eassumption.
Qed.
End T.

(** ** The specification leaves no choice *)
Section F.
Variable text : list N.
Variable langs : list (list (list N -> Prop)).
Variable acts : list (list rule_action).
Variable fails : list (option (list nat)).
Lemma longest_once ls p k w q k' w' q' : longest (unit_iter text) ls p k w q -> longest (unit_iter text) ls p k' w' q' -> k = k' /\ w = w' /\ q = q'.
Proof.
  intros (R1 & M1 & F1 & X1) (R2 & M2 & F2 & X2). pose proof (X1 _ _ _ R2 M2) as B1. pose proof (X2 _ _ _ R1 M1) as B2.
  apply unit_reads in R1. apply unit_reads in R2. destruct R1 as (-> & R1), R2 as (-> & R2). assert (E : length w' = length w) by lia. rewrite E, R1 in R2. subst w'.
  split; [|auto]. destruct (lt_eq_lt_dec k k') as [[B|B]|B]; [destruct (F2 _ B M1)|exact B|destruct (F1 _ B M2)].
Qed.
Lemma longest_not ls p k w q : longest (unit_iter text) ls p k w q -> no_match (unit_iter text) ls p -> False.
Proof. intros (R & M & _) H. exact (H _ _ _ R M). Qed.
Ltac clash := match goal with
  | H : longest _ _ _ _ _ _, K : no_match _ _ _ |- _ => destruct (longest_not _ _ _ _ _ H K)
  | H : longest _ _ ?p _ _ _, K : longest _ _ ?p _ _ _ |- _ => destruct (longest_once _ _ _ _ _ _ _ _ H K) as (? & ? & ?); subst; clear K
  end.
Theorem next_in_once r s p t p' r' ev : next_in text langs acts fails r s p t p' r' ev ->
  (forall t2 p2 r2 ev2, next_in text langs acts fails r s p t2 p2 r2 ev2 -> t2 = t /\ p2 = p' /\ r2 = r' /\ ev2 = ev) /\ ~ stuck_in text langs acts fails r p.
Proof.
  induction 1 as [r s p H|r s p ss H N E|r s p k w q n ss kind H LO E|r s p k w q n ss t p' r' ev H LO E K (IH1 & IH2)|r s p k w q n ss t p' r' ev H LO E K (IH1 & IH2)];
    (split; [intros t2 p2 r2 ev2 X; inversion X; subst; try lia; try clash|intros X; inversion X; subst; try lia; try clash]);
    repeat match goal with A : nth_error ?l ?k = Some ?x, B : nth_error ?l ?k = Some ?y |- _ => assert (x = y) by congruence; clear B end;
    repeat match goal with A : Some _ = Some _ |- _ => injection A as A; subst | A : MkRule _ _ _ = MkRule _ _ _ |- _ => injection A; clear A; intros; subst end; try discriminate; auto;
    try match goal with J : _ = Skip \/ _ = Continue |- _ => destruct J as [J | J]; discriminate J end.
  - match goal with J : next_in _ _ _ _ _ _ _ t2 _ _ _ |- _ => apply IH1 in J; destruct J as (-> & -> & -> & ->) end. auto.
  - match goal with J : next_in _ _ _ _ _ _ _ t2 _ _ _ |- _ => apply IH1 in J; destruct J as (-> & -> & -> & ->) end. auto.
Qed.
End F.
