(** Lexing encoded text is lexing its characters. *)
From Coq Require Import List NArith ZArith Lia Bool PeanoNat.
From Verif Require Import Base AutomatonModel UtfModel UtfSpec UtfProofs LexerModel LexerSpec IterModel IterSpec.
Import ListNotations.
Local Open Scope nat_scope.

Lemma leads_snoc {C} (d : dfa C) q w t c t' : leads d q w t -> c_branch C (rowof C (drules d) t) c = Some t' -> leads d q (w ++ [c]) t'.
Proof. induction 1 as [|q c0 t0 w q' H1 H2 IH]; intros K; cbn [app]; econstructor; eauto. constructor. Qed.

Section Sim.
Variable C : cset.
Variable text : list N.
Variable I : iterator.
Variable st : nat -> it_state I.
Variable off : nat -> nat.
Variable one : N -> Prop.
Notation len := (length text).
Notation U := (unit_iterator text).
Hypothesis H_more : forall i, i <= len -> it_more I (st i) = Nat.ltb i len.
Hypothesis H_next : forall i c, nth_error text i = Some c -> it_next I (st i) = Ok (c, st (S i)).
Hypothesis H_pos : forall i, i <= len -> it_pos I (st i) = off i.
Hypothesis H_put : forall i j, i <= len -> j <= len -> it_put I (off i) (st j) = st i.
Hypothesis H_one : forall i c, nth_error text i = Some c -> one c -> off (S i) = S (off i).

Lemma off_back n : forall i, n <= i -> i <= len -> (forall j c, i - n <= j < i -> nth_error text j = Some c -> one c) -> off i = off (i - n) + n.
Proof.
  induction n as [|n IH]; intros i B1 B2 H; [rewrite Nat.sub_0_r; lia|].
  destruct i as [|i]; [lia|]. destruct (nth_error text i) as [c|] eqn:E; [|apply nth_error_None in E; lia].
  rewrite (H_one i c E) by (apply (H i c); [lia|exact E]). rewrite (IH i) by (try lia; intros j c' B; apply H; lia).
  replace (S i - S n) with (i - n) by lia. lia.
Qed.

(** The text from [i0] to [i] is [w]. *)
Definition piece_at (i0 i : nat) (w : list N) : Prop := i = i0 + length w /\ i <= len /\ forall j, j < length w -> nth_error text (i0 + j) = nth_error w j.
Definition seen (d : dfa C) (i0 lp ls : nat) : Prop :=
  match ls with 0 => lp = i0 | S k => exists w q, leads d 0 w q /\ nth q (daccept d) 0 = S k /\ piece_at i0 lp w end.

Lemma piece_snoc i0 i w c : piece_at i0 i w -> nth_error text i = Some c -> piece_at i0 (S i) (w ++ [c]).
Proof.
  intros (-> & B & H) E. assert (i0 + length w < len) by (apply nth_error_Some; congruence). split; [rewrite app_length; cbn; lia|]. split; [lia|].
  intros j J. rewrite app_length in J. cbn in J. destruct (Nat.eq_dec j (length w)) as [->|N].
  - rewrite E, nth_error_app2, Nat.sub_diag by lia. reflexivity.
  - rewrite nth_error_app1 by lia. apply H. lia.
Qed.

Definition run_same (d : dfa C) (i0 : nat) (o : out (nat * (nat * nat))) (o' : out (it_state I * (nat * nat))) : Prop :=
  match o, o' with
  | Done (i, (lp, ls)), Done (it, (lp', ls')) => i <= len /\ it = st i /\ lp' = off lp /\ ls' = ls /\ lp <= len /\ seen d i0 lp ls
  | Undefined, Undefined | Exits, Exits | Unfinished, Unfinished => True
  | _, _ => False
  end.
Lemma run_sim d i0 : i0 <= len -> forall fuel q w i lp ls, leads d 0 w q -> piece_at i0 i w -> seen d i0 lp ls -> lp <= len ->
  run_same d i0 (run C U fuel d q i lp ls) (run C I fuel d q (st i) (off lp) ls).
Proof.
  intros B0. induction fuel as [|f IH]; intros q w i lp ls LE PI SE LB; [exact Logic.I|]. cbn [run].
  pose proof PI as (EI & BI & _). rewrite (H_more i BI), (H_pos i BI).
  change (it_pos U i) with i. change (it_more U i) with (more_at text i).
  set (here := negb (nth q (daccept d) 0 =? 0)).
  assert (OF : (if here then off i else off lp) = off (if here then i else lp)) by (destruct here; reflexivity). rewrite OF.
  set (lp1 := if here then i else lp). set (ls1 := if here then nth q (daccept d) 0 else ls).
  assert (SE1 : seen d i0 lp1 ls1).
  { unfold lp1, ls1, here. destruct (nth q (daccept d) 0) as [|k] eqn:A; cbn [Nat.eqb negb]; [exact SE|]. exists w, q. auto. }
  assert (LB1 : lp1 <= len) by (unfold lp1; destruct here; lia).
  unfold more_at. destruct (Nat.ltb_spec i len) as [B|B].
  2:{ assert (i = len) as -> by lia. rewrite Nat.eqb_refl. cbn [negb run_same]. auto 10. }
  destruct (Nat.eqb_spec i len) as [X|_]; [lia|]. cbn [negb].
  destruct (nth_error text i) as [c|] eqn:E; [|apply nth_error_None in E; lia].
  rewrite (H_next i c E). assert (N1 : it_next U i = Ok (c, S i)).
  { cbn [unit_iterator it_next]. unfold rd. replace (Nat.leb i len) with true by (symmetry; apply Nat.leb_le; lia). rewrite (nth_error_nth _ _ _ E). reflexivity. }
  rewrite N1. destruct (c_branch C (rowof C (drules d) q) c) as [t|] eqn:T.
  - apply (IH t (w ++ [c])); [eapply leads_snoc; eassumption|apply piece_snoc; assumption|exact SE1|exact LB1].
  - cbn [run_same]. split; [lia|]. auto 10.
Qed.

Variable sets : list (rule_set C).
Hypothesis GB : Forall (gives_back one) sets.

Definition same_lexing (l : lexing U) (l' : lexing I) : Prop :=
  x_it l' = st (x_it l) /\ x_it l <= len /\ x_spos l' = off (x_spos l) /\ x_cont l' = x_cont l /\ x_set l' = x_set l /\
  Forall2 (same_token off) (x_tokens l) (x_tokens l') /\ x_log l' = x_log l.
Definition lex_same (o : out (lexing U)) (o' : out (lexing I)) : Prop :=
  match o, o' with
  | Done l, Done l' => same_lexing l l'
  | Undefined, Undefined | Exits, Exits | Unfinished, Unfinished => True
  | _, _ => False
  end.
Lemma push_same tl tl' t t' : Forall2 (same_token off) tl tl' -> same_token off t t' -> Forall2 (same_token off) (tl ++ [t]) (tl' ++ [t']).
Proof. intros H K. apply Forall2_app; [exact H|]. constructor; [exact K|constructor]. Qed.

Lemma lex_sim : forall fuel l l', same_lexing l l' -> lex_same (lex C U fuel sets l) (lex C I fuel sets l').
Proof.
  induction fuel as [|f IH]; intros l l' (E1 & B & E2 & E3 & E4 & E5 & E6); [exact Logic.I|]. cbn [lex]. rewrite E4.
  destruct (nth_error sets (x_set l)) as [rs|] eqn:RS; [|exact Logic.I].
  rewrite E1, (H_more _ B), (H_pos _ B). change (it_pos U (x_it l)) with (x_it l). change (it_more U (x_it l)) with (more_at text (x_it l)). unfold more_at.
  destruct (Nat.ltb_spec (x_it l) len) as [L|L].
  2:{ assert (X : x_it l = len) by lia. rewrite X, Nat.eqb_refl. cbn [negb lex_same]. unfold same_lexing. cbn [x_it x_spos x_cont x_set x_tokens x_log].
      split; [rewrite X in E1; first [exact E1|congruence]|]. split; [lia|]. split; [exact E2|]. split; [exact E3|]. split; [congruence|]. split; [|exact E6]. apply push_same; [exact E5|constructor]. }
  destruct (Nat.eqb_spec (x_it l) len) as [X|_]; [lia|]. cbn [negb].
  pose proof (run_sim (s_dfa rs) (x_it l) B f 0 [] (x_it l) (x_it l) 0 (leads_nil _ _)) as RU.
  specialize (RU ltac:(split; [cbn; lia|]; split; [exact B|]; cbn; lia) eq_refl B).
  destruct (run C U f (s_dfa rs) 0 (x_it l) (x_it l) 0) as [(i, (lp, ls))| | |], (run C I f (s_dfa rs) 0 (st (x_it l)) (off (x_it l)) 0) as [(it, (lp', ls'))| | |];
    cbn [run_same] in RU; try contradiction; [|exact Logic.I..].
  destruct RU as (BI & -> & -> & -> & LB & SE).
  assert (SP : (if x_cont l' then x_spos l' else off (x_it l)) = off (if x_cont l then x_spos l else x_it l)) by (rewrite E3, E2; destruct (x_cont l); reflexivity).
  rewrite SP. set (sp := if x_cont l then x_spos l else x_it l). rewrite E6.
  destruct ls as [|k].
  - destruct (s_fail rs) as [ss|]; [|exact Logic.I]. destruct (switch (x_set l) ss (x_set l, x_log l)) as (r, log). cbn [lex_same]. unfold same_lexing. cbn [x_it x_spos x_cont x_set x_tokens x_log].
    change (it_put U lp i) with lp. split; [apply H_put; assumption|]. split; [exact LB|]. split; [reflexivity|]. split; [reflexivity|]. split; [reflexivity|]. split; [|reflexivity].
    apply push_same; [exact E5|constructor].
  - destruct (nth_error (s_rules rs) k) as [a|] eqn:A; [|exact Logic.I].
    destruct SE as (w & q & LE & AC & (PL & _ & PA)). pose proof (proj1 (Forall_forall _ _) GB rs (nth_error_In _ _ RS) k a w q A LE AC) as (G1 & G2).
    assert (OB : off lp = off (lp - r_back a) + r_back a).
    { apply off_back; [lia|lia|]. intros j c J EJ. rewrite Forall_forall in G2. apply G2.
      pose proof (PA (j - x_it l) ltac:(lia)) as Q. replace (x_it l + (j - x_it l)) with j in Q by lia. rewrite EJ in Q. symmetry in Q.
      rewrite <- (firstn_skipn (length w - r_back a) w) in Q. rewrite nth_error_app2 in Q by (rewrite firstn_length; lia). exact (nth_error_In _ _ Q). }
    destruct (Nat.ltb_spec lp (r_back a)) as [X|_]; [lia|]. destruct (Nat.ltb_spec (off lp) (r_back a)) as [X|_]; [lia|].
    replace (off lp - r_back a) with (off (lp - r_back a)) by lia. rewrite (H_put (lp - r_back a) i) by lia. change (it_put U (lp - r_back a) i) with (lp - r_back a).
    destruct (switch (x_set l) (r_sets a) (x_set l, x_log l)) as (r, log).
    destruct (r_finish a) as [kind| |].
    + cbn [lex_same]. unfold same_lexing. cbn [x_it x_spos x_cont x_set x_tokens x_log]. split; [reflexivity|]. split; [lia|]. split; [reflexivity|]. split; [reflexivity|]. split; [reflexivity|]. split; [|reflexivity].
      apply push_same; [exact E5|constructor].
    + apply IH. unfold same_lexing. cbn [x_it x_spos x_cont x_set x_tokens x_log]. split; [reflexivity|]. split; [lia|]. auto 10.
    + apply IH. unfold same_lexing. cbn [x_it x_spos x_cont x_set x_tokens x_log]. split; [reflexivity|]. split; [lia|]. auto 10.
Qed.
Lemma lex_n_sim : forall n fuel l l', same_lexing l l' -> lex_same (lex_n C U n fuel sets l) (lex_n C I n fuel sets l').
Proof.
  induction n as [|n IH]; intros fuel l l' H; [exact H|]. cbn [lex_n]. pose proof (lex_sim fuel l l' H) as K.
  destruct (lex C U fuel sets l), (lex C I fuel sets l'); cbn [lex_same] in K; try contradiction; [apply IH; exact K|exact Logic.I..].
Qed.
Theorem lexing_same n fuel r : off 0 = 0 -> same_out off (lex_n C U n fuel sets (begin_at U 0 r)) (lex_n C I n fuel sets (begin_at I (st 0) r)).
Proof.
  intros Z. pose proof (lex_n_sim n fuel (begin_at U 0 r) (begin_at I (st 0) r)) as K.
  specialize (K ltac:(unfold begin_at, same_lexing; cbn [x_it x_spos x_cont x_set x_tokens x_log]; split; [reflexivity|]; split; [lia|]; split; [symmetry; exact Z|]; split; [reflexivity|]; split; [reflexivity|]; split; [constructor|reflexivity])).
  destruct (lex_n C U n fuel sets (begin_at U 0 r)) as [l| | |], (lex_n C I n fuel sets (begin_at I (st 0) r)) as [l'| | |]; cbn [lex_same same_out] in *; try contradiction; try exact Logic.I.
  destruct K as (E1 & B & E2 & E3 & E4 & E5 & E6). change (it_pos U (x_it l)) with (x_it l). split; [exact E5|]. split; [rewrite E1; apply H_pos; exact B|]. auto.
Qed.
End Sim.

(** ** The iterators *)
Section Enc.
Variable enc : N -> list N.
Lemma offset_S text i c : nth_error text i = Some c -> offset enc text (S i) = offset enc text i + length (enc c).
Proof.
  intros E. unfold offset. pose proof (nth_error_split text i E) as (a & b & -> & <-).
  rewrite firstn_app, firstn_all2, firstn_app, firstn_all by lia. replace (S (length a) - length a) with 1 by lia. rewrite Nat.sub_diag. cbn [firstn]. rewrite app_nil_r.
  rewrite flat_map_app, app_length. cbn [flat_map]. rewrite app_nil_r. reflexivity.
Qed.
Lemma offset_all text i : length text <= i -> offset enc text i = length (flat_map enc text).
Proof. intros H. unfold offset. rewrite firstn_all2 by exact H. reflexivity. Qed.
Lemma offset_lt text : Forall (fun c => enc c <> []) text -> forall i, i < length text -> offset enc text i < length (flat_map enc text).
Proof.
  intros H i B. unfold offset. rewrite <- (firstn_skipn i text) at 2. rewrite flat_map_app, app_length.
  destruct (nth_error text i) as [c|] eqn:E; [|apply nth_error_None in E; lia]. destruct (nth_error_split text i E) as (a & b & -> & <-).
  rewrite skipn_app, skipn_all, Nat.sub_diag. cbn [app skipn flat_map]. rewrite app_length. apply Forall_app in H. destruct H as (_ & H).
  inversion H as [|? ? X _]. destruct (enc c); [congruence|cbn; lia].
Qed.
Lemma offset_more text i : Forall (fun c => enc c <> []) text -> i <= length text -> more_at (flat_map enc text) (offset enc text i) = Nat.ltb i (length text).
Proof.
  intros H B. unfold more_at. destruct (Nat.ltb_spec i (length text)) as [L|L].
  - pose proof (offset_lt text H i L). destruct (Nat.eqb_spec (offset enc text i) (length (flat_map enc text))); [lia|reflexivity].
  - rewrite offset_all by exact L. rewrite Nat.eqb_refl. reflexivity.
Qed.
(** The buffer around character [i]. *)
Lemma offset_split text i c : nth_error text i = Some c -> exists pre post, flat_map enc text = pre ++ enc c ++ post /\ length pre = offset enc text i.
Proof.
  intros E. destruct (nth_error_split text i E) as (a & b & -> & <-). exists (flat_map enc a), (flat_map enc b). rewrite flat_map_app. split; [reflexivity|].
  unfold offset. rewrite firstn_app, firstn_all, Nat.sub_diag. cbn [firstn]. rewrite app_nil_r. reflexivity.
Qed.
End Enc.

Lemma utf8_nonempty c : utf8_char c <> [].
Proof. unfold utf8_char. repeat match goal with |- context [if ?b then _ else _] => destruct b end; discriminate. Qed.
Lemma utf16_nonempty c : utf16_char c <> [].
Proof. unfold utf16_char. destruct (c <? 65536)%N; discriminate. Qed.

Lemma gen_char {X} (em : piece -> option X) pre c post x fuel : (c < 0x200000)%N -> em (piece_of (utf8_char c)) = Some x ->
  gen em (S fuel) (pre ++ utf8_char c ++ post) (length pre) = Ok (x, length pre + length (utf8_char c)).
Proof.
  intros B E. destruct (utf8_char_len c B) as (b & r & EQ & LR & BY). rewrite EQ in *. cbn [gen].
  pose proof (round_ok pre b r post ltac:(inversion BY; assumption) LR) as R. change ((b :: r) ++ post) with (b :: r ++ post). rewrite R. cbn [rbind]. rewrite E.
  f_equal. f_equal. cbn [length]. lia.
Qed.

Section Texts.
Variable C : cset.
Variable sets : list (rule_set C).
Variable text : list N.
Variable n fuel r : nat.
Notation plain_out := (lex_n C (unit_iterator text) n fuel sets (begin_at (unit_iterator text) 0 r)).

Theorem utf8_same keep : Forall (fun c => c < 0x200000 /\ kept8 keep c = true)%N text -> Forall (gives_back (fun c => c < 0x80)%N) sets ->
  same_out (offset utf8_char text) plain_out (lex_n C (utf8_iterator keep (utf8 text)) n fuel sets (begin_at (utf8_iterator keep (utf8 text)) 0 r)).
Proof.
  intros H G. assert (NE : Forall (fun c => utf8_char c <> []) text) by (apply Forall_forall; intros; apply utf8_nonempty).
  refine (lexing_same C text (utf8_iterator keep (utf8 text)) (offset utf8_char text) (offset utf8_char text) (fun c => c < 0x80)%N _ _ _ _ _ sets G n fuel r _).
  - intros i B. apply (offset_more utf8_char text i NE B).
  - intros i c E. cbn [utf8_iterator it_next]. pose proof (proj1 (Forall_forall _ _) H c (nth_error_In _ _ E)) as (B & K).
    destruct (offset_split utf8_char text i c E) as (pre & post & E1 & E2). unfold utf8. rewrite next8_gen, E1, <- E2. unfold rounds.
    rewrite (gen_char (em8 keep) pre c post c) by (try assumption; rewrite em8_char, K by assumption; reflexivity).
    rewrite (offset_S utf8_char text i c E), E2. reflexivity.
  - reflexivity.
  - reflexivity.
  - intros i c E B. rewrite (offset_S utf8_char text i c E). unfold utf8_char. replace (c <? 128)%N with true by (symmetry; apply N.ltb_lt; exact B). cbn. lia.
  - reflexivity.
Qed.

(** UTF-8 to UTF-16, no character outside the basic plane. *)
Theorem utf8_16_same : Forall (fun c => c < 0x10000 /\ kept16 c = true)%N text -> Forall (gives_back (fun c => c < 0x80)%N) sets ->
  same_out (offset utf8_char text) plain_out (lex_n C (utf8_16_iterator (utf8 text)) n fuel sets (begin_at (utf8_16_iterator (utf8 text)) (0, 0%N) r)).
Proof.
  intros H G. assert (NE : Forall (fun c => utf8_char c <> []) text) by (apply Forall_forall; intros; apply utf8_nonempty).
  refine (lexing_same C text (utf8_16_iterator (utf8 text)) (fun i => (offset utf8_char text i, 0%N)) (offset utf8_char text) (fun c => c < 0x80)%N _ _ _ _ _ sets G n fuel r _).
  - intros i B. apply (offset_more utf8_char text i NE B).
  - intros i c E. cbn [utf8_16_iterator it_next]. pose proof (proj1 (Forall_forall _ _) H c (nth_error_In _ _ E)) as (B & K).
    destruct (offset_split utf8_char text i c E) as (pre & post & E1 & E2). unfold next8_16. change (negb (0 =? 0)%N) with false. unfold utf8. rewrite next8_16_gen, E1, <- E2. unfold rounds.
    rewrite (gen_char em16 pre c post (halves c)) by (try lia; rewrite em16_char, K by lia; reflexivity).
    cbn [rbind]. unfold halves. replace (c <? 0x10000)%N with true by (symmetry; apply N.ltb_lt; exact B).
    rewrite (offset_S utf8_char text i c E), E2. reflexivity.
  - reflexivity.
  - reflexivity.
  - intros i c E B. rewrite (offset_S utf8_char text i c E). unfold utf8_char. replace (c <? 128)%N with true by (symmetry; apply N.ltb_lt; exact B). cbn. lia.
  - reflexivity.
Qed.

Theorem utf16_same : Forall (fun c => code_point c /\ ~ high_half c) text -> Forall (gives_back (fun c => c < 0x10000)%N) sets ->
  same_out (offset utf16_char text) plain_out (lex_n C (utf16_iterator (utf16 text)) n fuel sets (begin_at (utf16_iterator (utf16 text)) 0 r)).
Proof.
  intros H G. assert (NE : Forall (fun c => utf16_char c <> []) text) by (apply Forall_forall; intros; apply utf16_nonempty).
  refine (lexing_same C text (utf16_iterator (utf16 text)) (offset utf16_char text) (offset utf16_char text) (fun c => c < 0x10000)%N _ _ _ _ _ sets G n fuel r _).
  - intros i B. apply (offset_more utf16_char text i NE B).
  - intros i c E. cbn [utf16_iterator it_next]. pose proof (proj1 (Forall_forall _ _) H c (nth_error_In _ _ E)) as (B & K).
    destruct (offset_split utf16_char text i c E) as (pre & post & E1 & E2). unfold utf16. rewrite E1, (offset_S utf16_char text i c E), <- E2. unfold next16. unfold code_point in B.
    unfold utf16_char. destruct (N.ltb_spec c 0x10000) as [L|L].
    + assert (R0 : rd (pre ++ [c] ++ post) (length pre) = Ok c) by (apply (rd_at pre ([c] ++ post) 0); cbn; lia). rewrite R0. cbn [rbind].
      replace (is_high c) with false by (destruct (is_high c) eqn:Q; [apply is_high_iff in Q; [contradiction|exact L]|reflexivity]). change (length [c]) with 1. rewrite Nat.add_1_r. reflexivity.
    + set (h := (0xd800 + (c - 0x10000) / 1024)%N). set (d := (0xdc00 + (c - 0x10000) mod 1024)%N).
      assert (X1 : ((c - 0x10000) / 1024 < 1024)%N) by (apply N.div_lt_upper_bound; lia). pose proof (N.mod_lt (c - 0x10000) 1024 ltac:(discriminate)) as X2.
      pose proof (N.div_mod (c - 0x10000) 1024 ltac:(discriminate)) as X3.
      assert (R0 : rd (pre ++ [h; d] ++ post) (length pre) = Ok h) by (apply (rd_at pre ([h; d] ++ post) 0); cbn; lia). rewrite R0. cbn [rbind].
      assert (HH : high_half h) by (unfold high_half, h; lia).
      replace (is_high h) with true by (symmetry; apply is_high_iff; [unfold high_half in HH; lia|exact HH]).
      assert (R1 : rd (pre ++ [h; d] ++ post) (1 + length pre) = Ok d) by (apply (rd_at pre ([h; d] ++ post) 1); cbn; lia). rewrite R1. cbn [rbind].
      rewrite surrogate_value by (try exact HH; unfold d; lia). replace (0x10000 + (h - 0xd800) * 1024 + d - 0xdc00)%N with c by (unfold h, d; lia). change (length [h; d]) with 2. rewrite (Nat.add_comm (length pre)). reflexivity.
  - reflexivity.
  - reflexivity.
  - intros i c E B. rewrite (offset_S utf16_char text i c E). unfold utf16_char. replace (c <? 65536)%N with true by (symmetry; apply N.ltb_lt; exact B). cbn. lia.
  - reflexivity.
Qed.
End Texts.
