(** Property theorems C14-C19 (character sets and generated branch code). *)
From Coq Require Import List NArith Lia Bool PeanoNat Sorted ZifyBool ZifyN ZifyNat.
From Verif Require Import Base CharSetModel CharSetSpec CharSetProofs.
Import ListNotations.
Local Open Scope N_scope.

Lemma accepts_mem sz d e x : canonical sz d -> seq_accepts (MkSeq d e) x = Some (mem d x).
Proof.
  intros H. apply seq_accepts_ok. cbn. apply (weak_mono d 0 sz). apply canonical_weak in H. apply H.
Qed.

(** C14: the algebra is exact and keeps sets canonical; [accepts] is
    membership. *)
Theorem C14_accepts_exact : forall sz s x, canonical sz (sdata s) ->
  exists b, seq_accepts s x = Some b /\ (b = true <-> inside (sdata s) x).
Proof.
  intros sz [d e] x H. exists (mem d x). split; [apply (accepts_mem sz); exact H|]. apply mem_inside.
Qed.
Print Assumptions C14_accepts_exact.

Theorem C14_algebra_exact : forall sz a b, canonical sz (sdata a) -> canonical sz (sdata b) ->
  exists u i d, seq_union a b = Some u /\ seq_intersection a b = Some i /\ seq_difference a b = Some d /\
    canonical sz (sdata u) /\ canonical sz (sdata i) /\ canonical sz (sdata d) /\
    forall x, (inside (sdata u) x <-> inside (sdata a) x \/ inside (sdata b) x) /\
              (inside (sdata i) x <-> inside (sdata a) x /\ inside (sdata b) x) /\
              (inside (sdata d) x <-> inside (sdata a) x /\ ~ inside (sdata b) x).
Proof.
  intros sz a b CA CB. apply canonical_weak in CA. apply canonical_weak in CB.
  destruct CA as (WA & SA), CB as (WB & SB).
  destruct (seq_union_ok sz a b WA WB) as (u & U1 & _ & U2 & U3 & U4).
  destruct (seq_intersection_ok sz a b WA WB) as (i & I1 & _ & I2 & I3 & I4).
  destruct (seq_difference_ok sz a b WA WB) as (d & D1 & _ & D2 & D3 & D4).
  exists u, i, d. do 3 (split; [assumption|]).
  split; [apply canonical_weak; auto|]. split; [apply canonical_weak; auto|]. split; [apply canonical_weak; auto|].
  intros x. rewrite <- !mem_inside, U4, I4, D4.
  destruct (mem (sdata a) x), (mem (sdata b) x); cbn; intuition congruence.
Qed.
Print Assumptions C14_algebra_exact.

(** The string constructor accepts exactly the characters of the (sorted)
    string, and is canonical when no character is repeated. *)
Theorem C14_string_exact : forall l x, StronglySorted N.le l ->
  exists b, seq_accepts (seq_chars l) x = Some b /\ (b = true <-> In x l).
Proof.
  intros l x H. exists (existsb (N.eqb x) l). split; [apply seq_chars_ok; exact H|].
  rewrite existsb_exists. split.
  - intros (y & H1 & H2). apply N.eqb_eq in H2. subst y. exact H1.
  - intros H1. exists x. split; [exact H1|apply N.eqb_refl].
Qed.
Print Assumptions C14_string_exact.

Theorem C14_string_canonical : forall sz l, StronglySorted N.lt l -> Forall (fun x => x < sz) l ->
  canonical sz (sdata (seq_chars l)).
Proof.
  intros sz [|x l] HS HF; [exact I|]. cbn [seq_chars sdata].
  inversion HS as [|? ? S1 S2]; subst. inversion HF as [|? ? F1 F2]; subst.
  apply of_sorted_canonical; try lia; [exact S1|].
  rewrite Forall_forall in *. intros z Hz. specialize (S2 z Hz). specialize (F2 z Hz). lia.
Qed.
Print Assumptions C14_string_canonical.

(** A repeated character yields a non-canonical set: the same character set
    written "aa" and "a" compares different. *)
Theorem C14_string_repeat_refuted :
  seq_eqb (seq_chars [97; 97]) (seq_chars [97]) = false /\
  (forall x, seq_accepts (seq_chars [97; 97]) x = seq_accepts (seq_chars [97]) x).
Proof.
  split; [vm_compute; reflexivity|]. intros x. rewrite !seq_chars_ok.
  - f_equal. cbn. destruct (x =? 97); reflexivity.
  - repeat constructor.
  - repeat constructor; lia.
Qed.
Print Assumptions C14_string_repeat_refuted.

Example C14_case : exists u i d,
  canonical 256 [(0, 10); (20, 30); (40, 256)] /\ canonical 256 [(5, 20); (25, 41); (50, 60)] /\
  seq_union (MkSeq [(0, 10); (20, 30); (40, 256)] false) (MkSeq [(5, 20); (25, 41); (50, 60)] false) = Some u /\
  seq_intersection (MkSeq [(0, 10); (20, 30); (40, 256)] false) (MkSeq [(5, 20); (25, 41); (50, 60)] false) = Some i /\
  seq_difference (MkSeq [(0, 10); (20, 30); (40, 256)] false) (MkSeq [(5, 20); (25, 41); (50, 60)] false) = Some d /\
  sdata u = [(0, 256)] /\ sdata i = [(5, 10); (25, 30); (40, 41); (50, 60)] /\
  sdata d = [(0, 5); (20, 25); (41, 50); (60, 256)].
Proof.
  do 3 eexists. split; [cbn; lia|]. split; [cbn; lia|].
  do 3 (split; [vm_compute; reflexivity|]). repeat split; reflexivity.
Qed.

(** C15: complement. *)
Theorem C15_negate_exact : forall sz a x, 0 < sz -> canonical sz (sdata a) -> seps a = false -> x < sz ->
  exists b, seq_accepts (seq_negate sz a) x = Some b /\ (b = true <-> ~ inside (sdata a) x).
Proof.
  intros sz a x Hs CA E Hx. apply canonical_weak in CA. destruct CA as (WA & _).
  destruct (seq_negate_ok sz a Hs WA E) as (_ & W & M).
  exists (mem (sdata (seq_negate sz a)) x). split.
  - apply seq_accepts_ok. apply (weak_mono _ 0 sz). exact W.
  - rewrite M by exact Hx. rewrite <- mem_inside. destruct (mem (sdata a) x); cbn; intuition congruence.
Qed.
Print Assumptions C15_negate_exact.

Example C15_case : canonical 256 [(5, 10); (20, 256)] /\
  sdata (seq_negate 256 (MkSeq [(5, 10); (20, 256)] false)) = [(0, 5); (10, 20); (256, 256)] /\
  seq_accepts (seq_negate 256 (MkSeq [(5, 10); (20, 256)] false)) 15 = Some true.
Proof. split; [cbn; lia|]. split; vm_compute; reflexivity. Qed.

(** The complement is not canonical when the set reaches the top of the codec
    and does not contain 0: it differs from the equal set built directly. *)
Theorem C15_negate_canonical_refuted :
  seq_eqb (seq_negate 256 (seq_range 5 256)) (seq_range 0 5) = false /\
  (forall x, seq_accepts (seq_negate 256 (seq_range 5 256)) x = seq_accepts (seq_range 0 5) x).
Proof.
  split; [vm_compute; reflexivity|]. intros x.
  change (seq_negate 256 (seq_range 5 256)) with (MkSeq [(0, 5); (256, 256)] false).
  change (seq_range 0 5) with (MkSeq [(0, 5)] false).
  rewrite !seq_accepts_ok.
  - cbn [sdata]. rewrite !mem_cons. change (mem [] x) with false. f_equal. lia.
  - apply (weak_mono _ 0 5). cbn. lia.
  - apply (weak_mono _ 0 256). cbn. lia.
Qed.
Print Assumptions C15_negate_canonical_refuted.

(** C16: set expressions evaluated with either representation. *)
Fixpoint eval_seq (sz : N) (e : sexp) : option seqset :=
  match e with
  | SRange b e => Some (seq_range b e)
  | SFull => Some (seq_full sz)
  | SEmpty => Some seq_empty
  | SUnion x y => do a <- eval_seq sz x; do b <- eval_seq sz y; seq_union a b
  | SInter x y => do a <- eval_seq sz x; do b <- eval_seq sz y; seq_intersection a b
  | SDiff x y => do a <- eval_seq sz x; do b <- eval_seq sz y; seq_difference a b
  | SNeg x => do a <- eval_seq sz x; Some (seq_negate sz a)
  end.
Fixpoint eval_tab (sz : N) (e : sexp) : option tabset :=
  match e with
  | SRange b e => tab_range sz b e
  | SFull => Some tab_full
  | SEmpty => Some tab_empty
  | SUnion x y => do a <- eval_tab sz x; do b <- eval_tab sz y; Some (tab_union a b)
  | SInter x y => do a <- eval_tab sz x; do b <- eval_tab sz y; Some (tab_intersection a b)
  | SDiff x y => do a <- eval_tab sz x; do b <- eval_tab sz y; Some (tab_difference a b)
  | SNeg x => do a <- eval_tab sz x; Some (tab_negate a)
  end.

Lemma eval_seq_ok sz e : 0 < sz -> ranges_ok sz e ->
  exists s, eval_seq sz e = Some s /\ seps s = false /\ weak_from 0 sz (sdata s) /\
    forall x, x < sz -> mem (sdata s) x = denote e x.
Proof.
  intros Hs. induction e as [b e| | |a IHa b IHb|a IHa b IHb|a IHa b IHb|a IHa]; cbn [ranges_ok eval_seq denote].
  - intros He. eexists; split; [reflexivity|]. split; [reflexivity|].
    unfold seq_range. cbn [sdata]. destruct (b <? e) eqn:C.
    + split; [cbn; repeat split; lia|]. intros x _. rewrite mem_cons. change (mem [] x) with false. apply orb_false_r.
    + split; [exact I|]. intros x _. change (mem [] x) with false. lia.
  - intros _. eexists; split; [reflexivity|]. split; [reflexivity|]. split; [cbn; repeat split; lia|].
    intros x Hx. cbn [sdata seq_full]. rewrite mem_cons. change (mem [] x) with false. lia.
  - intros _. eexists; split; [reflexivity|]. split; [reflexivity|]. split; [exact I|]. reflexivity.
  - intros (Ha & Hb). destruct (IHa Ha) as (s & E1 & P1 & W1 & M1). destruct (IHb Hb) as (t & E2 & P2 & W2 & M2).
    rewrite E1, E2. cbn [obind]. destruct (seq_union_ok sz s t W1 W2) as (r & R1 & R2 & R3 & _ & R4).
    exists r. do 3 (split; [assumption|]). intros x Hx. rewrite R4, M1, M2 by exact Hx. reflexivity.
  - intros (Ha & Hb). destruct (IHa Ha) as (s & E1 & P1 & W1 & M1). destruct (IHb Hb) as (t & E2 & P2 & W2 & M2).
    rewrite E1, E2. cbn [obind]. destruct (seq_intersection_ok sz s t W1 W2) as (r & R1 & R2 & R3 & _ & R4).
    exists r. do 3 (split; [assumption|]). intros x Hx. rewrite R4, M1, M2 by exact Hx. reflexivity.
  - intros (Ha & Hb). destruct (IHa Ha) as (s & E1 & P1 & W1 & M1). destruct (IHb Hb) as (t & E2 & P2 & W2 & M2).
    rewrite E1, E2. cbn [obind]. destruct (seq_difference_ok sz s t W1 W2) as (r & R1 & R2 & R3 & _ & R4).
    exists r. do 3 (split; [assumption|]). intros x Hx. rewrite R4, M1, M2 by exact Hx. reflexivity.
  - intros Ha. destruct (IHa Ha) as (s & E1 & P1 & W1 & M1). rewrite E1. cbn [obind].
    destruct (seq_negate_ok sz s Hs W1 P1) as (R1 & R2 & R3).
    eexists; split; [reflexivity|]. do 2 (split; [assumption|]). intros x Hx. rewrite R3, M1 by exact Hx. reflexivity.
Qed.

Lemma eval_tab_ok sz e : ranges_ok sz e ->
  exists s, eval_tab sz e = Some s /\ teps s = false /\ forall x, x < sz -> tdata s x = denote e x.
Proof.
  induction e as [b e| | |a IHa b IHb|a IHa b IHb|a IHa b IHb|a IHa]; cbn [ranges_ok eval_tab denote].
  - intros He. unfold tab_range. destruct (b <? e) eqn:C.
    + replace (e <=? sz) with true by lia. eexists; split; [reflexivity|]. split; [reflexivity|]. reflexivity.
    + eexists; split; [reflexivity|]. split; [reflexivity|]. intros x _. cbn [tab_empty tdata]. lia.
  - intros _. eexists; split; [reflexivity|]. split; reflexivity.
  - intros _. eexists; split; [reflexivity|]. split; reflexivity.
  - intros (Ha & Hb). destruct (IHa Ha) as (s & E1 & P1 & M1). destruct (IHb Hb) as (t & E2 & P2 & M2).
    rewrite E1, E2. cbn [obind]. eexists; split; [reflexivity|]. split; [exact P1|].
    intros x Hx. cbn [tab_union tdata]. rewrite M1, M2 by exact Hx. reflexivity.
  - intros (Ha & Hb). destruct (IHa Ha) as (s & E1 & P1 & M1). destruct (IHb Hb) as (t & E2 & P2 & M2).
    rewrite E1, E2. cbn [obind]. eexists; split; [reflexivity|]. split; [exact P1|].
    intros x Hx. cbn [tab_intersection tdata]. rewrite M1, M2 by exact Hx. reflexivity.
  - intros (Ha & Hb). destruct (IHa Ha) as (s & E1 & P1 & M1). destruct (IHb Hb) as (t & E2 & P2 & M2).
    rewrite E1, E2. cbn [obind]. eexists; split; [reflexivity|]. split; [exact P2|].
    intros x Hx. cbn [tab_difference tdata]. rewrite M1, M2 by exact Hx. apply andb_comm.
  - intros Ha. destruct (IHa Ha) as (s & E1 & P1 & M1). rewrite E1. cbn [obind].
    eexists; split; [reflexivity|]. split; [exact P1|]. intros x Hx. cbn [tab_negate tdata]. rewrite M1 by exact Hx. reflexivity.
Qed.

Theorem C16_representations_agree : forall sz e x, 0 < sz -> ranges_ok sz e -> x < sz ->
  exists s t, eval_seq sz e = Some s /\ eval_tab sz e = Some t /\
    seq_accepts s x = Some (denote e x) /\ tab_accepts sz t x = Some (denote e x).
Proof.
  intros sz e x Hs Hr Hx. destruct (eval_seq_ok sz e Hs Hr) as (s & E1 & _ & W & M1).
  destruct (eval_tab_ok sz e Hr) as (t & E2 & _ & M2). exists s, t. do 2 (split; [assumption|]). split.
  - rewrite seq_accepts_ok by (apply (weak_mono _ 0 sz); exact W). rewrite M1 by exact Hx. reflexivity.
  - unfold tab_accepts. replace (x <? sz) with true by lia. rewrite M2 by exact Hx. reflexivity.
Qed.
Print Assumptions C16_representations_agree.

Example C16_case :
  let e := SDiff (SNeg (SUnion (SRange 3 9) (SRange 100 128))) (SInter (SRange 0 5) (SNeg (SRange 2 4))) in
  ranges_ok 128 e /\ option_map sdata (eval_seq 128 e) = Some [(2, 3); (9, 100); (128, 128)] /\
  option_map (fun t => map (tdata t) [1; 2; 3; 50; 127]) (eval_tab 128 e) = Some [false; true; false; true; false].
Proof. split; [cbn; lia|]. split; vm_compute; reflexivity. Qed.

(** The epsilon flag is treated differently by the two representations:
    difference with an epsilon set yields epsilon for tables only. *)
Theorem C16_epsilon_flag_refuted :
  option_map seps (seq_difference (seq_range 1 2) seq_epsilon) = Some false /\
  option_map (fun a => teps (tab_difference a tab_epsilon)) (tab_range 128 1 2) = Some true.
Proof. split; reflexivity. Qed.
Print Assumptions C16_epsilon_flag_refuted.

(** C17: equality is extensional. *)
Theorem C17_seq_equality : forall sz a b, canonical sz (sdata a) -> canonical sz (sdata b) ->
  (seq_eqb a b = true <->
   seps a = seps b /\ forall x, inside (sdata a) x <-> inside (sdata b) x).
Proof.
  intros sz a b CA CB. unfold seq_eqb. rewrite andb_true_iff, eqb_true_iff, ranges_eqb_iff. split.
  - intros (H1 & H2). split; [exact H1|]. rewrite H2. tauto.
  - intros (H1 & H2). split; [exact H1|]. apply (canonical_ext _ _ 0 sz CA CB).
    intros x. specialize (H2 x). rewrite <- !mem_inside in H2. apply eq_true_iff_eq. exact H2.
Qed.
Print Assumptions C17_seq_equality.

Theorem C17_table_equality : forall sz a b,
  tab_eqb sz a b = true <->
  teps a = teps b /\ forall x, x < sz -> tab_accepts sz a x = tab_accepts sz b x.
Proof.
  intros sz a b. rewrite tab_eqb_iff. unfold tab_accepts.
  split; intros (H1 & H2); (split; [exact H1|]); intros x Hx; specialize (H2 x Hx);
    replace (x <? sz) with true in * by lia; congruence.
Qed.
Print Assumptions C17_table_equality.

Example C17_case : exists u, canonical 128 [(3, 9)] /\
  seq_union (seq_range 3 5) (seq_range 5 9) = Some u /\ seq_eqb u (seq_range 3 9) = true /\
  seq_eqb u (seq_range 3 8) = false.
Proof. eexists. split; [cbn; lia|]. split; [vm_compute; reflexivity|]. split; vm_compute; reflexivity. Qed.

(** C18: generated if-tree. *)
Theorem C18_branches_follow_transitions : forall sz tr chr, chr < sz ->
  Forall (fun p => canonical sz (sdata (fst p))) tr ->
  ForallOrdPairs (fun a b => forall x, ~ (inside (sdata (fst a)) x /\ inside (sdata (fst b)) x)) tr ->
  exists c, seq_condition sz tr = Some c /\
    (forall s t, In (s, t) tr -> inside (sdata s) chr -> exec chr c = Some t) /\
    ((forall s t, In (s, t) tr -> ~ inside (sdata s) chr) -> exec chr c = None).
Proof. exact seq_condition_ok. Qed.
Print Assumptions C18_branches_follow_transitions.

Example C18_case :
  let tr := [(MkSeq [(0, 10); (97, 123)] false, 3%nat); (MkSeq [(10, 12); (48, 58); (200, 256)] false, 7%nat); (MkSeq [(95, 96)] false, 1%nat)] in
  Forall (fun p => canonical 256 (sdata (fst p))) tr /\
  option_map (fun c => map (fun x => exec x c) [0; 11; 12; 50; 95; 96; 97; 122; 123; 255]) (seq_condition 256 tr)
  = Some [Some 3%nat; Some 7%nat; None; Some 7%nat; Some 1%nat; None; Some 3%nat; Some 3%nat; None; Some 7%nat].
Proof. split; [repeat constructor; cbn; lia|vm_compute; reflexivity]. Qed.

(** Outside the codec the dropped comparisons show: a character >= sz takes
    the branch of a range that ends at sz (ASCII lexer reading byte 200). *)
Theorem C18_outside_codec_refuted : exists tr c,
  Forall (fun p => canonical 128 (sdata (fst p))) tr /\ seq_condition 128 tr = Some c /\
  (forall s t, In (s, t) tr -> ~ inside (sdata s) 200) /\ exec 200 c = Some 4%nat.
Proof.
  exists [(MkSeq [(97, 128)] false, 4%nat)]. eexists. split; [repeat constructor; cbn; lia|].
  split; [vm_compute; reflexivity|]. split; [|vm_compute; reflexivity].
  intros s t [H|[]] (a & b & H1 & H2). injection H as <- <-. destruct H1 as [H1|[]]. injection H1 as <- <-. lia.
Qed.
Print Assumptions C18_outside_codec_refuted.

(** C19: generated switch. *)
Theorem C19_switch_follows_transitions : forall sz tr,
  ForallOrdPairs (fun a b => forall x, x < sz -> ~ (tdata (fst a) x = true /\ tdata (fst b) x = true)) tr ->
  NoDup (labels (tab_condition sz tr)) /\
  forall chr, chr < sz ->
    (forall s t, In (s, t) tr -> tab_accepts sz s chr = Some true -> exec_switch chr (tab_condition sz tr) = Some t) /\
    ((forall s t, In (s, t) tr -> tab_accepts sz s chr = Some false) -> exec_switch chr (tab_condition sz tr) = None).
Proof.
  intros sz tr H. destruct (tab_condition_ok sz tr H) as (H1 & H2). split; [exact H1|].
  intros chr Hc. destruct (H2 chr Hc) as (H3 & H4). unfold tab_accepts. replace (chr <? sz) with true by lia.
  split.
  - intros s t Hin Ht. apply (H3 s t Hin). congruence.
  - intros Hno. apply H4. intros s t Hin. specialize (Hno s t Hin). congruence.
Qed.
Print Assumptions C19_switch_follows_transitions.

Example C19_case :
  let tr := [(MkTab (fun x => x =? 3) false, 2%nat); (MkTab (fun _ => false) false, 9%nat); (MkTab (fun x => 100 <=? x) false, 5%nat)] in
  map (fun c => exec_switch c (tab_condition 128 tr)) [3; 4; 99; 100; 127] = [Some 2%nat; None; None; Some 5%nat; Some 5%nat] /\
  length (labels (tab_condition 128 tr)) = 29%nat.
Proof. split; vm_compute; reflexivity. Qed.

(** Overlapping transitions give a duplicate case label, which is why
    disjointness is required. *)
Theorem C19_overlap_refuted : ~ NoDup (labels (tab_condition 8
  [(MkTab (fun x => x =? 3) false, 2%nat); (MkTab (fun x => x <? 5) false, 1%nat)])).
Proof.
  intros H. change (NoDup [3; 0; 1; 2; 3; 4]) in H. inversion H as [|? ? H1 H2]. apply H1.
  right. right. right. left. reflexivity.
Qed.
Print Assumptions C19_overlap_refuted.
