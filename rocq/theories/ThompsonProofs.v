(** Languages of the automata built by |=, <<=, *, word and the list
    constructor. *)
From Coq Require Import List NArith Lia Bool PeanoNat ZifyBool ZifyN ZifyNat.
From Verif Require Import Base AutomatonModel AutomatonSpec CsetLaws.
Import ListNotations.

Section T.
Variable C : cset.
Variable ok : car C -> Prop.
Hypothesis L : cs_laws C ok.
Notation cs := (car C).
Notation edge := (cs * nat)%type.
Notation row := (list edge).
Notation path := (path C).

(** ** Rows *)
Lemma upd_nth {A} : forall (l : list A) i f j d,
  nth j (upd l i f) d = if Nat.eqb j i && Nat.ltb i (length l) then f (nth j l d) else nth j l d.
Proof.
  induction l as [|x l IH]; intros [|i] f [|j] d; cbn [upd nth length]; try reflexivity.
  - cbn. destruct (j =? i); reflexivity.
  - rewrite IH. cbn. reflexivity.
Qed.
Lemma upd_length {A} : forall (l : list A) i f, length (upd l i f) = length l.
Proof. induction l as [|x l IH]; intros [|i] f; cbn; auto. Qed.

Lemma row_push i e (l : list row) j :
  nth j (push C i e l) [] = if Nat.eqb j i && Nat.ltb i (length l) then nth j l [] ++ [e] else nth j l [].
Proof. unfold push. rewrite upd_nth. reflexivity. Qed.
Lemma push_length i e (l : list row) : length (push C i e l) = length l.
Proof. apply upd_length. Qed.
Lemma resize_length n (l : list row) : length (resize_rows C n l) = n.
Proof. unfold resize_rows. rewrite app_length, firstn_length, repeat_length. lia. Qed.
Lemma nth_repeat_nil {A} n j : nth j (repeat (@nil A) n) [] = [].
Proof. revert j; induction n as [|n IH]; intros [|j]; cbn; auto. Qed.
Lemma nth_firstn {A} : forall n (l : list A) j d, nth j (firstn n l) d = if Nat.ltb j n then nth j l d else d.
Proof.
  induction n as [|n IH]; intros l j d; [destruct j; reflexivity|].
  destruct l as [|x l]; [destruct (j <? S n); destruct j; reflexivity|].
  destruct j as [|j]; [reflexivity|]. cbn [firstn nth]. rewrite IH. reflexivity.
Qed.
Lemma nth_skipn {A} : forall n (l : list A) j d, nth j (skipn n l) d = nth (n + j) l d.
Proof.
  induction n as [|n IH]; intros l j d; [reflexivity|].
  destruct l as [|x l]; [destruct j; reflexivity|]. apply IH.
Qed.
Lemma row_resize n (l : list row) j : nth j (resize_rows C n l) [] = if Nat.ltb j n then nth j l [] else [].
Proof.
  unfold resize_rows. destruct (Nat.ltb_spec j n) as [H|H].
  - destruct (Nat.lt_ge_cases j (length l)) as [H1|H1].
    + rewrite app_nth1 by (rewrite firstn_length; lia). rewrite nth_firstn. destruct (Nat.ltb_spec j n); [reflexivity|lia].
    + rewrite app_nth2 by (rewrite firstn_length; lia). rewrite nth_repeat_nil. symmetry. apply nth_overflow. exact H1.
  - apply nth_overflow. rewrite app_length, firstn_length, repeat_length. lia.
Qed.
Lemma row_block n (m r0 : list row) j : n + length m <= length r0 ->
  nth j (firstn n r0 ++ m ++ skipn (n + length m) r0) [] =
  if Nat.ltb j n then nth j r0 [] else if Nat.ltb j (n + length m) then nth (j - n) m [] else nth j r0 [].
Proof.
  intros H. destruct (Nat.ltb_spec j n) as [H1|H1].
  - rewrite app_nth1 by (rewrite firstn_length; lia). rewrite nth_firstn. destruct (Nat.ltb_spec j n); [reflexivity|lia].
  - rewrite app_nth2 by (rewrite firstn_length; lia). rewrite firstn_length. replace (min n (length r0)) with n by lia.
    destruct (Nat.ltb_spec j (n + length m)) as [H2|H2].
    + apply app_nth1. lia.
    + rewrite app_nth2 by lia. rewrite nth_skipn. f_equal. lia.
Qed.
Lemma block_length n (m r0 : list row) : n + length m <= length r0 ->
  length (firstn n r0 ++ m ++ skipn (n + length m) r0) = length r0.
Proof. intros H. rewrite !app_length, firstn_length, skipn_length. lia. Qed.
Lemma row_shift k (l : list row) j : nth j (map (shift C k) l) [] = shift C k (nth j l []).
Proof. change (@nil edge) with (shift C k []) at 1. apply map_nth. Qed.
Lemma In_shift k (r : row) c t : In (c, t) (shift C k r) <-> k <= t /\ In (c, t - k) r.
Proof.
  unfold shift. rewrite in_map_iff. split.
  - intros ([c' t'] & H1 & H2). cbn in H1. injection H1 as -> <-. split; [lia|].
    replace (t' + k - k) with t' by lia. exact H2.
  - intros (H1 & H2). exists (c, t - k). split; [cbn; f_equal; lia|exact H2].
Qed.
Lemma nth_repeat_app k (l : list row) j : nth j (repeat [] k ++ l) [] = if Nat.ltb j k then [] else nth (j - k) l [].
Proof.
  destruct (Nat.ltb_spec j k) as [H|H].
  - rewrite app_nth1 by (rewrite repeat_length; lia). apply nth_repeat_nil.
  - rewrite app_nth2 by (rewrite repeat_length; lia). rewrite repeat_length. reflexivity.
Qed.

Lemma eps_epsset : c_eps C (c_epsset C) = true.
Proof. apply (l_epsset _ _ L). Qed.
Lemma ok_epsset : ok (c_epsset C).
Proof. apply (l_epsset _ _ L). Qed.

(** ** Paths *)
Definition edges := nat -> cs -> nat -> Prop.
Lemma path_app (E : edges) : forall q u r, path E q u r -> forall v s, path E r v s -> path E q (u ++ v) s.
Proof.
  induction 1 as [q|q c t w r H1 H2 H3 IH|q c t x w r H1 H2 H3 H4 IH]; intros v s H; cbn.
  - exact H.
  - eapply P_eps; eauto.
  - eapply P_chr; eauto.
Qed.
Lemma path_snoc_eps (E : edges) q u r c t : path E q u r -> E r c t -> c_eps C c = true -> path E q u t.
Proof.
  intros H1 H2 H3. rewrite <- (app_nil_r u). eapply path_app; [exact H1|]. eapply P_eps; [exact H2|exact H3|apply P_nil].
Qed.
Lemma path_map (E F : edges) (f : nat -> nat) : (forall i c t, E i c t -> F (f i) c (f t)) ->
  forall q u r, path E q u r -> path F (f q) u (f r).
Proof.
  intros H. induction 1 as [q|q c t w r H1 H2 H3 IH|q c t x w r H1 H2 H3 H4 IH].
  - apply P_nil.
  - eapply P_eps; eauto.
  - eapply P_chr; eauto.
Qed.
Lemma path_stuck (E : edges) q u r : (forall c t, ~ E q c t) -> path E q u r -> u = [] /\ r = q.
Proof. intros H P. destruct P as [q|q c t w r H1 H2 H3|q c t x w r H1 H2 H3 H4]; [auto|destruct (H _ _ H1)|destruct (H _ _ H1)]. Qed.

(** ** Edges of the combined automata *)
Notation nedge := (nedge C).
Notation wf := (wf_nfa C ok).

Ltac ltbs := repeat match goal with
  | |- context [Nat.ltb ?a ?b] => destruct (Nat.ltb_spec a b)
  | |- context [Nat.eqb ?a ?b] => destruct (Nat.eqb_spec a b)
  end.

Lemma wf_in a i c t : wf a -> nedge a i c t -> i < nst a /\ t < nst a /\ ok c.
Proof. intros (_ & _ & _ & H). apply H. Qed.
Lemma wf_out a i : wf a -> nst a <= i -> nth i (nrules a) [] = [].
Proof.
  intros H Hi. destruct (nth i (nrules a) []) as [|[c t] r] eqn:E; [reflexivity|].
  assert (K : nedge a i c t) by (unfold AutomatonSpec.nedge; rewrite E; left; reflexivity).
  apply (wf_in _ _ _ _ H) in K. lia.
Qed.

Lemma adjust_row k a j : wf a -> nth j (nrules (adjust C k a)) [] = if Nat.ltb j k then [] else shift C k (nth (j - k) (nrules a) []).
Proof.
  intros H. cbn [adjust nrules]. rewrite nth_repeat_app. destruct (Nat.ltb_spec j k); [reflexivity|].
  rewrite row_shift, nth_firstn, row_resize. f_equal.
  destruct (Nat.ltb_spec (j - k) (nst a)); [reflexivity|]. symmetry. apply wf_out; [exact H|lia].
Qed.
Lemma adjust_length k a : wf a -> length (nrules (adjust C k a)) = nst a + k.
Proof.
  intros H. cbn [adjust nrules]. rewrite app_length, repeat_length, map_length, firstn_length, resize_length. lia.
Qed.

(** |= *)
Lemma or_row a o j : wf a -> wf o ->
  nth j (nrules (nfa_or C a o)) [] =
  let n := S (nst a) in let m := n + nst o in
  if Nat.eqb j 0 then [eps_edge C 1; eps_edge C n]
  else if Nat.ltb j n then shift C 1 (nth (j - 1) (nrules a) []) ++ (if Nat.eqb j (S (naccept a)) then [eps_edge C m] else [])
  else if Nat.ltb j m then shift C n (nth (j - n) (nrules o) []) ++ (if Nat.eqb j (m - 1) then [eps_edge C m] else [])
  else [].
Proof.
  intros Wa Wo. pose proof Wa as (A1 & A2 & A3 & A4). pose proof Wo as (O1 & O2 & O3 & O4).
  unfold nfa_or. cbn [nrules].
  assert (En : nst (adjust C 1 a) = S (nst a)) by (cbn; lia).
  assert (Ea : naccept (adjust C 1 a) = S (naccept a)) by (cbn; lia).
  rewrite !En, !Ea.
  set (n := S (nst a)). set (r0 := resize_rows C (nst o + n + 2) (nrules (adjust C 1 a))).
  assert (Lr0 : length r0 = nst o + n + 2) by apply resize_length.
  set (m := map (shift C n) (firstn (nst o) (nrules o))).
  assert (Lm : length m = nst o) by (unfold m; rewrite map_length, firstn_length; lia).
  replace (n + nst o) with (n + length m) by lia.
  set (r1 := firstn n r0 ++ m ++ skipn (n + length m) r0).
  assert (Lr1 : length r1 = nst o + n + 2) by (unfold r1; rewrite block_length; lia).
  assert (R1 : forall j, nth j r1 [] = if Nat.ltb j n then nth j r0 [] else if Nat.ltb j (n + length m) then nth (j - n) m [] else nth j r0 [])
    by (intros; apply row_block; lia).
  rewrite !row_push, !push_length, Lr1, R1. rewrite Lm.
  assert (R0 : forall j, nth j r0 [] = if Nat.ltb j (nst o + n + 2) then if Nat.ltb j 1 then [] else shift C 1 (nth (j - 1) (nrules a) []) else []).
  { intros j'. unfold r0. rewrite row_resize, adjust_row by exact Wa. reflexivity. }
  assert (M : nth (j - n) m [] = shift C n (nth (j - n) (nrules o) [])).
  { unfold m. rewrite row_shift, nth_firstn. f_equal. destruct (Nat.ltb_spec (j - n) (nst o)); [reflexivity|].
    symmetry. apply wf_out; [exact Wo|lia]. }
  rewrite !R0, M. clear M R0 R1 Lr1 r1 Lm m Lr0 r0. subst n. cbn zeta.
  rewrite (Nat.add_comm (S (nst a)) (nst o)).
  ltbs; cbn [andb]; try lia; subst; try reflexivity; rewrite ?app_nil_r; try reflexivity.
  all: rewrite wf_out by (try assumption; lia); reflexivity.
Qed.

Lemma or_edge a o i c t : wf a -> wf o ->
  (nedge (nfa_or C a o) i c t <->
   (i = 0 /\ c = c_epsset C /\ (t = 1 \/ t = S (nst a))) \/
   (1 <= i /\ 1 <= t /\ nedge a (i - 1) c (t - 1)) \/
   (S (nst a) <= i /\ S (nst a) <= t /\ nedge o (i - S (nst a)) c (t - S (nst a))) \/
   ((i = S (naccept a) \/ i = nst a + nst o) /\ c = c_epsset C /\ t = S (nst a + nst o))).
Proof.
  intros Wa Wo. unfold AutomatonSpec.nedge at 1. rewrite or_row by assumption. cbn zeta.
  pose proof Wa as (A1 & A2 & A3 & A4). pose proof Wo as (O1 & O2 & O3 & O4).
  destruct (Nat.eqb_spec i 0) as [->|Hi].
  { cbn. unfold eps_edge. split.
    - intros [H|[H|[]]]; injection H as <- <-; left; auto.
    - intros [(_ & -> & [-> | ->])|[(H & _)|[(H & _)|([H|H] & _)]]]; auto; lia. }
  destruct (Nat.ltb_spec i (S (nst a))) as [H1|H1].
  { rewrite in_app_iff, In_shift. split.
    - intros [(H2 & H3)|H2].
      + right. left. split; [lia|]. split; [exact H2|exact H3].
      + destruct (Nat.eqb_spec i (S (naccept a))) as [->|]; [|destruct H2]. destruct H2 as [H2|[]].
        injection H2 as <- <-. right. right. right. split; [left; reflexivity|]. split; reflexivity.
    - intros [(H & _)|[(H2 & H3 & H4)|[(H & _)|([H|H] & -> & ->)]]]; try lia.
      + left. split; [exact H3|exact H4].
      + right. destruct (Nat.eqb_spec i (S (naccept a))); [left; reflexivity|lia]. }
  destruct (Nat.ltb_spec i (S (nst a) + nst o)) as [H2|H2].
  { rewrite in_app_iff, In_shift. split.
    - intros [(H3 & H4)|H3].
      + right. right. left. split; [lia|]. split; [exact H3|exact H4].
      + destruct (Nat.eqb_spec i (S (nst a) + nst o - 1)) as [->|]; [|destruct H3]. destruct H3 as [H3|[]].
        injection H3 as <- <-. right. right. right. split; [right; lia|]. split; reflexivity.
    - intros [(H & _)|[(H3 & H4 & H5)|[(_ & H3 & H4)|([H|H] & -> & ->)]]]; try lia.
      + apply (wf_in _ _ _ _ Wa) in H5. lia.
      + left. split; [exact H3|exact H4].
      + right. destruct (Nat.eqb_spec i (S (nst a) + nst o - 1)); [left; reflexivity|lia]. }
  split; [intros []|].
  intros [(H & _)|[(H3 & H4 & H5)|[(_ & H3 & H4)|([H|H] & -> & ->)]]]; try lia.
  - apply (wf_in _ _ _ _ Wa) in H5. lia.
  - apply (wf_in _ _ _ _ Wo) in H4. lia.
Qed.

Lemma or_length a o : wf a -> wf o -> length (nrules (nfa_or C a o)) = nst a + nst o + 3.
Proof.
  intros Wa Wo. pose proof Wo as (O1 & O2 & O3 & O4).
  unfold nfa_or. cbn [nrules]. rewrite !push_length.
  rewrite !app_length, map_length, skipn_length, !firstn_length, resize_length. cbn [nst adjust]. lia.
Qed.

Lemma or_single a o : single C ok a -> single C ok o -> single C ok (nfa_or C a o).
Proof.
  intros (Wa & Sa) (Wo & So). pose proof Wa as (A1 & A2 & A3 & A4). pose proof Wo as (O1 & O2 & O3 & O4).
  assert (N : nst (nfa_or C a o) = S (S (nst a + nst o))) by (cbn; lia).
  assert (NA : naccept (nfa_or C a o) = S (nst a + nst o)) by (cbn; lia).
  split; [|lia]. split; [lia|]. split; [rewrite or_length by assumption; lia|]. split; [lia|].
  intros i c t H. apply or_edge in H; [|assumption|assumption]. rewrite N.
  destruct H as [(-> & -> & [-> | ->])|[(H1 & H2 & H3)|[(H1 & H2 & H3)|([H1|H1] & -> & ->)]]];
    try (apply wf_in in H3; [|assumption]); (split; [|split]); try lia; try apply ok_epsset; tauto.
Qed.

Lemma single_lang a w : single C ok a -> (lang C a w <-> path (nedge a) 0 w (naccept a)).
Proof.
  intros ((H1 & H2 & H3 & H4) & H5). split.
  - intros (k & K1 & K2). replace (naccept a) with (naccept a + k) by lia. exact K2.
  - intros H. exists 0. split; [lia|]. rewrite Nat.add_0_r. exact H.
Qed.

Theorem or_lang a o w : single C ok a -> single C ok o ->
  (lang C (nfa_or C a o) w <-> lang C a w \/ lang C o w).
Proof.
  intros Sa So. rewrite !single_lang by (try assumption; apply or_single; assumption).
  pose proof Sa as (Wa & Sa'). pose proof So as (Wo & So').
  pose proof Wa as (A1 & A2 & A3 & A4). pose proof Wo as (O1 & O2 & O3 & O4).
  assert (NA : naccept (nfa_or C a o) = S (nst a + nst o)) by (cbn; lia). rewrite NA.
  pose proof (fun i c t => or_edge a o i c t Wa Wo) as E.
  set (U := nedge (nfa_or C a o)) in *.
  assert (STUCK : forall c t, ~ U (S (nst a + nst o)) c t).
  { intros c t H. apply E in H. destruct H as [(H & _)|[(_ & _ & H)|[(_ & _ & H)|([H|H] & _)]]]; try lia;
    apply wf_in in H; try assumption; lia. }
  split.
  - intros P.
    assert (DA : forall q w r, path U q w r -> r = S (nst a + nst o) -> 1 <= q < S (nst a) -> path (nedge a) (q - 1) w (naccept a)).
    { clear P. induction 1 as [q|q c t w' r H1 H2 H3 IH|q c t x w' r H1 H2 H3 H4 IH]; intros Hr Hq.
      - lia.
      - apply E in H1. destruct H1 as [(H & _)|[(_ & K1 & K2)|[(H & _)|([K1|K1] & -> & ->)]]]; try lia.
        + pose proof (wf_in _ _ _ _ Wa K2) as B. eapply P_eps; [exact K2|exact H2|apply IH; [exact Hr|lia]].
        + subst q. destruct (path_stuck _ _ _ _ STUCK H3) as (-> & _). cbn. rewrite Nat.sub_0_r. apply P_nil.
      - apply E in H1. destruct H1 as [(H & _)|[(_ & K1 & K2)|[(H & _)|([K1|K1] & -> & ->)]]]; try lia.
        + pose proof (wf_in _ _ _ _ Wa K2) as B. eapply P_chr; [exact K2|exact H2|exact H3|apply IH; [exact Hr|lia]].
        + rewrite eps_epsset in H2. discriminate H2. }
    assert (DO : forall q w r, path U q w r -> r = S (nst a + nst o) -> S (nst a) <= q < S (nst a + nst o) ->
                 path (nedge o) (q - S (nst a)) w (naccept o)).
    { clear P. induction 1 as [q|q c t w' r H1 H2 H3 IH|q c t x w' r H1 H2 H3 H4 IH]; intros Hr Hq.
      - lia.
      - apply E in H1. destruct H1 as [(H & _)|[(_ & K1 & K2)|[(H & K1 & K2)|([K1|K1] & -> & ->)]]]; try lia.
        + apply (wf_in _ _ _ _ Wa) in K2. lia.
        + pose proof (wf_in _ _ _ _ Wo K2) as B. eapply P_eps; [exact K2|exact H2|apply IH; [exact Hr|lia]].
        + subst q. destruct (path_stuck _ _ _ _ STUCK H3) as (-> & _).
          replace (nst a + nst o - S (nst a)) with (naccept o) by lia. apply P_nil.
      - apply E in H1. destruct H1 as [(H & _)|[(_ & K1 & K2)|[(H & K1 & K2)|([K1|K1] & -> & ->)]]]; try lia.
        + apply (wf_in _ _ _ _ Wa) in K2. lia.
        + pose proof (wf_in _ _ _ _ Wo K2) as B. eapply P_chr; [exact K2|exact H2|exact H3|apply IH; [exact Hr|lia]].
        + rewrite eps_epsset in H2. discriminate H2. }
    remember 0 as q eqn:Eq. remember (S (nst a + nst o)) as r eqn:Er.
    destruct P as [q|q c t w r H1 H2 H3|q c t x w r H1 H2 H3 H4].
    + lia.
    + subst q. apply E in H1. destruct H1 as [(_ & -> & [-> | ->])|[(H & _)|[(H & _)|([H|H] & _)]]]; try lia.
      * left. replace 0 with (1 - 1) by lia. apply (DA _ _ _ H3 eq_refl). lia.
      * right. replace 0 with (S (nst a) - S (nst a)) by lia. apply (DO _ _ _ H3 eq_refl). lia.
    + subst q. apply E in H1. destruct H1 as [(_ & -> & _)|[(H & _)|[(H & _)|([H|H] & _)]]]; try lia.
      rewrite eps_epsset in H2. discriminate H2.
  - intros [P|P].
    + eapply P_eps; [apply E; left; split; [reflexivity|]; split; [reflexivity|left; reflexivity]|apply eps_epsset|].
      eapply path_snoc_eps.
      * apply (path_map (nedge a) U S) in P; [exact P|].
        intros i c t H. apply E. right. left. split; [lia|]. split; [lia|]. cbn. rewrite !Nat.sub_0_r. exact H.
      * apply E. right. right. right. split; [left; reflexivity|]. split; reflexivity.
      * apply eps_epsset.
    + eapply P_eps; [apply E; left; split; [reflexivity|]; split; [reflexivity|right; reflexivity]|apply eps_epsset|].
      eapply path_snoc_eps.
      * apply (path_map (nedge o) U (fun i => i + S (nst a))) in P; [exact P|].
        intros i c t H. apply E. right. right. left. split; [lia|]. split; [lia|]. rewrite !Nat.add_sub. exact H.
      * apply E. right. right. right. split; [right; lia|]. split; reflexivity.
      * apply eps_epsset.
Qed.

(** <<= *)
Lemma concat_row a o j : wf a -> wf o ->
  nth j (nrules (nfa_concat C a o)) [] =
  if Nat.ltb j (nst a) then nth j (nrules a) [] ++ (if Nat.eqb j (naccept a) then [eps_edge C (nst a)] else [])
  else shift C (nst a) (nth (j - nst a) (nrules o) []).
Proof.
  intros Wa Wo. pose proof Wa as (A1 & A2 & A3 & A4). pose proof Wo as (O1 & O2 & O3 & O4).
  unfold nfa_concat. cbn [nrules].
  set (m := map (shift C (nst a)) (firstn (nst o) (nrules o))).
  assert (Lm : length m = nst o) by (unfold m; rewrite map_length, firstn_length; lia).
  replace (nst a + nst o) with (nst a + length m) by lia.
  rewrite row_block by (rewrite push_length, resize_length; lia).
  rewrite !row_push, resize_length, !row_resize.
  assert (M : nth (j - nst a) m [] = shift C (nst a) (nth (j - nst a) (nrules o) [])).
  { unfold m. rewrite row_shift, nth_firstn. f_equal. destruct (Nat.ltb_spec (j - nst a) (nst o)); [reflexivity|].
    symmetry. apply wf_out; [exact Wo|lia]. }
  rewrite M, Lm. clear M Lm m.
  ltbs; cbn [andb]; try lia; subst; rewrite ?app_nil_r; try reflexivity;
  rewrite ?(wf_out o) by (try assumption; lia); rewrite ?(wf_out a) by (try assumption; lia); reflexivity.
Qed.

Lemma concat_edge a o i c t : wf a -> wf o ->
  (nedge (nfa_concat C a o) i c t <->
   nedge a i c t \/ (i = naccept a /\ c = c_epsset C /\ t = nst a) \/
   (nst a <= i /\ nst a <= t /\ nedge o (i - nst a) c (t - nst a))).
Proof.
  intros Wa Wo. unfold AutomatonSpec.nedge at 1. rewrite concat_row by assumption.
  pose proof Wa as (A1 & A2 & A3 & A4). pose proof Wo as (O1 & O2 & O3 & O4).
  destruct (Nat.ltb_spec i (nst a)) as [H|H].
  - rewrite in_app_iff. split.
    + intros [H1|H1]; [left; exact H1|]. destruct (Nat.eqb_spec i (naccept a)) as [->|]; [|destruct H1].
      destruct H1 as [H1|[]]. injection H1 as <- <-. right. left. auto.
    + intros [H1|[(-> & -> & ->)|(H1 & _)]]; [left; exact H1| |lia]. right.
      rewrite Nat.eqb_refl. left. reflexivity.
  - rewrite In_shift. split.
    + intros (H1 & H2). right. right. auto.
    + intros [H1|[(H1 & _)|(H1 & H2 & H3)]]; [apply (wf_in _ _ _ _ Wa) in H1; lia|lia|auto].
Qed.

Lemma concat_single a o : single C ok a -> single C ok o -> single C ok (nfa_concat C a o).
Proof.
  intros (Wa & Sa) (Wo & So). pose proof Wa as (A1 & A2 & A3 & A4). pose proof Wo as (O1 & O2 & O3 & O4).
  assert (N : nst (nfa_concat C a o) = nst a + nst o) by reflexivity.
  assert (NA : naccept (nfa_concat C a o) = naccept o + nst a) by reflexivity.
  split; [|lia]. split; [lia|]. split.
  { cbn [nst nrules nfa_concat]. rewrite !app_length, map_length, skipn_length, !firstn_length, push_length, resize_length. lia. }
  split; [lia|].
  intros i c t H. apply concat_edge in H; [|assumption|assumption]. rewrite N.
  destruct H as [H|[(-> & -> & ->)|(H1 & H2 & H)]]; try (apply wf_in in H; [|assumption]);
    (split; [|split]); try lia; try apply ok_epsset; tauto.
Qed.

Theorem concat_lang a o w : single C ok a -> single C ok o ->
  (lang C (nfa_concat C a o) w <-> cat (lang C a) (lang C o) w).
Proof.
  intros Sa So. unfold cat. rewrite single_lang by (apply concat_single; assumption).
  pose proof Sa as (Wa & Sa'). pose proof So as (Wo & So').
  pose proof Wa as (A1 & A2 & A3 & A4). pose proof Wo as (O1 & O2 & O3 & O4).
  assert (NA : naccept (nfa_concat C a o) = naccept o + nst a) by reflexivity. rewrite NA.
  pose proof (fun i c t => concat_edge a o i c t Wa Wo) as E.
  set (U := nedge (nfa_concat C a o)) in *. split.
  - intros P.
    assert (DO : forall q w r, path U q w r -> r = naccept o + nst a -> nst a <= q -> path (nedge o) (q - nst a) w (naccept o)).
    { clear P. induction 1 as [q|q c t w' r H1 H2 H3 IH|q c t x w' r H1 H2 H3 H4 IH]; intros Hr Hq.
      - replace (q - nst a) with (naccept o) by lia. apply P_nil.
      - apply E in H1. destruct H1 as [H|[(H & _)|(_ & H & H')]]; [apply (wf_in _ _ _ _ Wa) in H; lia|lia|].
        eapply P_eps; [exact H'|exact H2|apply IH; [exact Hr|exact H]].
      - apply E in H1. destruct H1 as [H|[(H & _)|(_ & H & H')]]; [apply (wf_in _ _ _ _ Wa) in H; lia|lia|].
        eapply P_chr; [exact H'|exact H2|exact H3|apply IH; [exact Hr|exact H]]. }
    assert (DA : forall q w r, path U q w r -> r = naccept o + nst a -> q < nst a ->
                 exists u v, w = u ++ v /\ path (nedge a) q u (naccept a) /\ path (nedge o) 0 v (naccept o)).
    { clear P. induction 1 as [q|q c t w' r H1 H2 H3 IH|q c t x w' r H1 H2 H3 H4 IH]; intros Hr Hq.
      - lia.
      - apply E in H1. destruct H1 as [H|[(-> & -> & ->)|(H & _)]]; [| |lia].
        + destruct (IH Hr) as (u & v & -> & P1 & P2); [apply (wf_in _ _ _ _ Wa) in H; lia|].
          exists u, v. split; [reflexivity|]. split; [eapply P_eps; eauto|exact P2].
        + exists [], w'. split; [reflexivity|]. split; [apply P_nil|].
          replace 0 with (nst a - nst a) by lia. apply (DO _ _ _ H3 Hr). lia.
      - apply E in H1. destruct H1 as [H|[(-> & -> & ->)|(H & _)]]; [| |lia].
        + destruct (IH Hr) as (u & v & -> & P1 & P2); [apply (wf_in _ _ _ _ Wa) in H; lia|].
          exists (x :: u), v. split; [reflexivity|]. split; [eapply P_chr; eauto|exact P2].
        + rewrite eps_epsset in H2. discriminate H2. }
    destruct (DA _ _ _ P eq_refl A1) as (u & v & -> & P1 & P2). exists u, v. split; [reflexivity|].
    split; apply single_lang; assumption.
  - intros (u & v & -> & P1 & P2). apply single_lang in P1; [|exact Sa]. apply single_lang in P2; [|exact So].
    eapply path_app.
    + eapply path_snoc_eps.
      * apply (path_map (nedge a) U (fun i => i)) in P1; [exact P1|]. intros i c t H. apply E. left. exact H.
      * apply E. right. left. auto.
      * apply eps_epsset.
    + apply (path_map (nedge o) U (fun i => i + nst a)) in P2; [exact P2|].
      intros i c t H. apply E. right. right. split; [lia|]. split; [lia|]. rewrite !Nat.add_sub. exact H.
Qed.

(** operator* *)
Lemma star_edge a i c t : wf a ->
  (nedge (nfa_star C a) i c t <->
   nedge a i c t \/ (i = naccept a /\ c = c_epsset C /\ t = 0) \/ (i = 0 /\ c = c_epsset C /\ t = nst a)).
Proof.
  intros Wa. pose proof Wa as (A1 & A2 & A3 & A4).
  unfold AutomatonSpec.nedge at 1. cbn [nfa_star nrules].
  rewrite row_resize, !row_push, !push_length.
  replace (0 <? length (nrules a)) with true by (symmetry; apply Nat.ltb_lt; lia).
  replace (naccept a <? length (nrules a)) with true by (symmetry; apply Nat.ltb_lt; lia).
  rewrite !andb_true_r. destruct (Nat.ltb_spec i (S (nst a))) as [H|H].
  - destruct (Nat.eqb_spec i 0) as [E0|E0]; destruct (Nat.eqb_spec i (naccept a)) as [E1|E1];
      rewrite ?in_app_iff; cbn [In eps_edge]; unfold eps_edge; unfold AutomatonSpec.nedge; split; intros K.
    + destruct K as [[K|[K|[]]]|[K|[]]]; [auto|injection K as <- <-; auto|injection K as <- <-; auto].
    + destruct K as [K|[(K1 & -> & ->)|(K1 & -> & ->)]]; auto.
    + destruct K as [K|[K|[]]]; [auto|injection K as <- <-; auto].
    + destruct K as [K|[(K1 & -> & ->)|(K1 & -> & ->)]]; auto; lia.
    + destruct K as [K|[K|[]]]; [auto|injection K as <- <-; auto].
    + destruct K as [K|[(K1 & -> & ->)|(K1 & -> & ->)]]; auto; lia.
    + auto.
    + destruct K as [K|[(K1 & -> & ->)|(K1 & -> & ->)]]; auto; lia.
  - cbn [In]. split; [intros []|]. intros [K|[(K & _)|(K & _)]]; [apply (wf_in _ _ _ _ Wa) in K; lia|lia|lia].
Qed.

Lemma star_single a : single C ok a -> single C ok (nfa_star C a).
Proof.
  intros (Wa & Sa). pose proof Wa as (A1 & A2 & A3 & A4).
  assert (N : nst (nfa_star C a) = S (nst a)) by reflexivity.
  assert (NA : naccept (nfa_star C a) = nst a) by reflexivity.
  split; [|lia]. split; [lia|]. split; [cbn [nst nrules nfa_star]; rewrite resize_length; lia|]. split; [lia|].
  intros i c t H. apply star_edge in H; [|assumption]. rewrite N.
  destruct H as [H|[(-> & -> & ->)|(-> & -> & ->)]]; try (apply wf_in in H; [|assumption]);
    (split; [|split]); try lia; try apply ok_epsset; tauto.
Qed.

(** What the star automaton accepts: repetitions followed by a word that
    leads from the start state back to the start state. *)
Theorem star_lang_exact a w : single C ok a ->
  (lang C (nfa_star C a) w <-> cat (star (lang C a)) (fun v => path (nedge a) 0 v 0) w).
Proof.
  intros Sa. rewrite single_lang by (apply star_single; assumption).
  pose proof Sa as (Wa & Sa'). pose proof Wa as (A1 & A2 & A3 & A4).
  assert (NA : naccept (nfa_star C a) = nst a) by reflexivity. rewrite NA.
  pose proof (fun i c t => star_edge a i c t Wa) as E.
  set (U := nedge (nfa_star C a)) in *.
  assert (STUCK : forall c t, ~ U (nst a) c t).
  { intros c t H. apply E in H. destruct H as [H|[(H & _)|(H & _)]]; [apply (wf_in _ _ _ _ Wa) in H; lia|lia|lia]. }
  split.
  - intros P.
    assert (D : forall q w r, path U q w r -> r = nst a -> q < nst a ->
      path (fun i c t => nedge a i c t) q w 0 \/
      exists u v, w = u ++ v /\ path (nedge a) q u (naccept a) /\ cat (star (lang C a)) (fun v => path (nedge a) 0 v 0) v).
    { clear P. induction 1 as [q|q c t w' r H1 H2 H3 IH|q c t x w' r H1 H2 H3 H4 IH]; intros Hr Hq.
      - lia.
      - apply E in H1. destruct H1 as [H|[(-> & -> & ->)|(-> & -> & ->)]].
        + assert (B : t < nst a) by (apply (wf_in _ _ _ _ Wa) in H; lia).
          destruct (IH Hr B) as [K|(u & v & -> & K1 & K2)].
          * left. eapply P_eps; eauto.
          * right. exists u, v. split; [reflexivity|]. split; [eapply P_eps; eauto|exact K2].
        + right. exists [], w'. split; [reflexivity|]. split; [apply P_nil|].
          destruct (IH Hr A1) as [K|(u & v & -> & K1 & (u' & v' & -> & S1 & S2))].
          * exists [], w'. split; [reflexivity|]. split; [apply star_nil|exact K].
          * exists (u ++ u'), v'. rewrite app_assoc. split; [reflexivity|]. split; [|exact S2].
            apply star_app; [apply single_lang; assumption|exact S1].
        + destruct (path_stuck _ _ _ _ STUCK H3) as (-> & _). left. apply P_nil.
      - apply E in H1. destruct H1 as [H|[(-> & -> & ->)|(-> & -> & ->)]].
        + assert (B : t < nst a) by (apply (wf_in _ _ _ _ Wa) in H; lia).
          destruct (IH Hr B) as [K|(u & v & -> & K1 & K2)].
          * left. eapply P_chr; eauto.
          * right. exists (x :: u), v. split; [reflexivity|]. split; [eapply P_chr; eauto|exact K2].
        + rewrite eps_epsset in H2. discriminate H2.
        + rewrite eps_epsset in H2. discriminate H2. }
    destruct (D _ _ _ P eq_refl A1) as [K|(u & v & -> & K1 & (u' & v' & -> & S1 & S2))].
    + exists [], w. split; [reflexivity|]. split; [apply star_nil|exact K].
    + exists (u ++ u'), v'. rewrite app_assoc. split; [reflexivity|]. split; [|exact S2].
      apply star_app; [apply single_lang; assumption|exact S1].
  - intros (u & v & -> & S1 & S2).
    assert (F : path U 0 v (nst a)).
    { eapply path_snoc_eps.
      - apply (path_map (nedge a) U (fun i => i)) in S2; [exact S2|]. intros i c t H. apply E. left. exact H.
      - apply E. right. right. auto.
      - apply eps_epsset. }
    clear S2. induction S1 as [|u u' H1 H2 IH]; [exact F|].
    rewrite <- app_assoc. eapply path_app; [|exact IH].
    apply single_lang in H1; [|exact Sa]. eapply path_snoc_eps.
    + apply (path_map (nedge a) U (fun i => i)) in H1; [exact H1|]. intros i c t H. apply E. left. exact H.
    + apply E. right. left. auto.
    + apply eps_epsset.
Qed.

Lemma no_return a v : (forall i c, ~ nedge a i c 0) -> path (nedge a) 0 v 0 -> v = [].
Proof.
  intros H. assert (K : forall q w r, path (nedge a) q w r -> r = 0 -> w = [] /\ q = 0).
  { induction 1 as [q|q c t w r H1 H2 H3 IH|q c t x w r H1 H2 H3 H4 IH]; intros Hr; [auto| |];
      destruct (IH Hr) as (_ & ->); destruct (H _ _ H1). }
  intros P. apply (K _ _ _ P eq_refl).
Qed.

Theorem star_lang a w : single C ok a -> (forall i c, ~ nedge a i c 0) ->
  (lang C (nfa_star C a) w <-> star (lang C a) w).
Proof.
  intros Sa H. rewrite star_lang_exact by exact Sa. split.
  - intros (u & v & -> & S1 & S2). apply no_return in S2; [|exact H]. subst v. rewrite app_nil_r. exact S1.
  - intros S. exists w, []. split; [symmetry; apply app_nil_r|]. split; [exact S|apply P_nil].
Qed.

(** Basic automata *)
Lemma empty_single : single C ok (nfa_empty C).
Proof. split; [|reflexivity]. split; [cbn; lia|]. split; [cbn; lia|]. split; [cbn; lia|]. intros [|[|[|i]]] c t []. Qed.
Lemma emptyWord_single : single C ok (nfa_emptyWord C).
Proof. split; [|reflexivity]. split; [cbn; lia|]. split; [cbn; lia|]. split; [cbn; lia|]. intros [|[|i]] c t []. Qed.
Lemma set_single s : ok s -> single C ok (nfa_set C s).
Proof.
  intros K. split; [|reflexivity]. split; [cbn; lia|]. split; [cbn; lia|]. split; [cbn; lia|].
  intros [|[|[|i]]] c t H; cbn in H; [|destruct H..]. destruct H as [H|[]].
  injection H as <- <-. split; [|split]; [cbn; lia|cbn; lia|exact K].
Qed.
Lemma empty_lang w : ~ lang C (nfa_empty C) w.
Proof.
  intros H. apply single_lang in H; [|apply empty_single]. cbn in H.
  apply path_stuck in H; [lia|]. intros c t [].
Qed.
Lemma emptyWord_lang w : lang C (nfa_emptyWord C) w <-> w = [].
Proof.
  rewrite single_lang by apply emptyWord_single. cbn. split.
  - intros H. apply path_stuck in H; [tauto|]. intros c t [].
  - intros ->. apply P_nil.
Qed.
Lemma set_lang s w : ok s -> c_eps C s = false ->
  (lang C (nfa_set C s) w <-> exists x, w = [x] /\ c_acc C s x = true).
Proof.
  intros K Es. rewrite single_lang by (apply set_single; exact K). cbn [naccept nfa_set]. split.
  - intros H. inversion H as [|q c t w' r' H1 H2 H3|q c t x w' r' H1 H2 H3 H4]; subst.
    + destruct H1 as [H1|[]]. injection H1 as <- <-. congruence.
    + destruct H1 as [H1|[]]. injection H1 as <- <-. apply path_stuck in H4; [|intros c t []].
      destruct H4 as (-> & _). exists x. auto.
  - intros (x & -> & H). eapply P_chr; [left; reflexivity|exact Es|exact H|apply P_nil].
Qed.

Lemma word_single_lang : forall s a L0, single C ok a -> (forall w, lang C a w <-> L0 w) -> in_codec C s ->
  let r := fold_left (fun a x => nfa_concat C a (nfa_set C (c_char C x))) s a in
  single C ok r /\ forall w, lang C r w <-> exists u, w = u ++ s /\ L0 u.
Proof.
  induction s as [|x s IH]; intros a L0 Sa HL HC; cbn [fold_left].
  - split; [exact Sa|]. intros w. rewrite HL. split.
    + intros H. exists w. rewrite app_nil_r. auto.
    + intros (u & -> & H). rewrite app_nil_r. exact H.
  - inversion HC as [|? ? C1 C2]; subst.
    destruct (l_char _ _ L x C1) as (K1 & K2 & K3).
    pose proof (set_single _ K1) as Ss.
    destruct (IH (nfa_concat C a (nfa_set C (c_char C x))) (fun w => exists u, w = u ++ [x] /\ L0 u)) as (R1 & R2).
    + apply concat_single; assumption.
    + intros w. rewrite concat_lang by assumption. unfold cat. split.
      * intros (u & v & -> & H1 & H2). apply HL in H1. apply set_lang in H2; [|assumption|assumption].
        destruct H2 as (y & -> & H2). rewrite K3 in H2. apply N.eqb_eq in H2. subst y. exists u. auto.
      * intros (u & -> & H). exists u, [x]. split; [reflexivity|]. split; [apply HL; exact H|].
        apply set_lang; [assumption|assumption|]. exists x. split; [reflexivity|]. rewrite K3. apply N.eqb_refl.
    + exact C2.
    + split; [exact R1|]. intros w. rewrite R2. split.
      * intros (u & -> & (v & -> & H)). exists v. rewrite <- app_assoc. auto.
      * intros (u & -> & H). exists (u ++ [x]). rewrite <- app_assoc. split; [reflexivity|]. exists u. auto.
Qed.
Lemma word_single s : in_codec C s -> single C ok (nfa_word C s).
Proof. intros H. apply (word_single_lang s _ (fun w => w = []) emptyWord_single emptyWord_lang H). Qed.
Theorem word_lang s w : in_codec C s -> (lang C (nfa_word C s) w <-> w = s).
Proof.
  intros H. destruct (word_single_lang s _ (fun w => w = []) emptyWord_single emptyWord_lang H) as (_ & R).
  unfold nfa_word. rewrite R. split; [intros (u & -> & ->); reflexivity|intros ->; exists []; auto].
Qed.

(** Words over the codec *)
Lemma lang_codec a w : wf a -> lang C a w -> in_codec C w.
Proof.
  intros W (k & _ & P). induction P as [q|q c t w r H1 H2 H3 IH|q c t x w r H1 H2 H3 H4 IH].
  - constructor.
  - exact IH.
  - constructor; [|exact IH]. apply (l_bound _ _ L c); [|exact H3]. apply (wf_in _ _ _ _ W H1).
Qed.

(** ** The list constructor *)
Definition sizes (l : list (nfa C)) : nat := fold_right (fun a n => nst a + n) 0 l.
Lemma sizes_app l m : sizes (l ++ m) = sizes l + sizes m.
Proof. unfold sizes. induction l as [|a l IH]; cbn; lia. Qed.

Lemma blocks_length : forall l total k i start rules,
  Forall wf l -> start + sizes l <= length rules ->
  length (list_blocks C total k i start l rules) = length rules.
Proof.
  induction l as [|a l IH]; intros total k i start rules HW Hs; [reflexivity|].
  inversion HW as [|? ? W1 W2]; subst. pose proof W1 as (A1 & A2 & A3 & A4).
  cbn [sizes fold_right] in Hs. fold (sizes l) in Hs. cbn [list_blocks].
  assert (Q : length (firstn start rules ++ map (shift C start) (firstn (nst a) (nrules a)) ++ skipn (start + nst a) rules) = length rules).
  { rewrite !app_length, map_length, skipn_length, !firstn_length. lia. }
  rewrite IH; rewrite ?push_length, ?Q; [reflexivity|exact W2|lia].
Qed.

Lemma blocks_edge : forall l total k i start rules,
  Forall wf l -> 1 <= start -> start + sizes l <= length rules ->
  (forall j, start <= j < start + sizes l -> nth j rules [] = []) ->
  forall j c t, In (c, t) (nth j (list_blocks C total k i start l rules) []) <->
    In (c, t) (nth j rules []) \/
    (j = 0 /\ c = c_epsset C /\ exists pre a post, l = pre ++ a :: post /\ t = start + sizes pre) \/
    (exists pre a post, l = pre ++ a :: post /\ start + sizes pre <= j /\ start + sizes pre <= t /\
       nedge a (j - (start + sizes pre)) c (t - (start + sizes pre))) \/
    (exists pre a post, l = pre ++ a :: post /\ j = start + sizes pre + nst a - 1 /\ c = c_epsset C /\
       t = total - k + (i + length pre)).
Proof.
  induction l as [|a l IH]; intros total k i start rules HW Hst Hs Hz j c t; cbn [list_blocks].
  { split; [auto|]. intros [H|[(_ & _ & pre & a & post & H & _)|[(pre & a & post & H & _)|(pre & a & post & H & _)]]];
      [exact H|destruct pre; discriminate H..]. }
  inversion HW as [|? ? W1 W2]; subst. pose proof W1 as (A1 & A2 & A3 & A4).
  cbn [sizes fold_right] in Hs, Hz. fold (sizes l) in Hs, Hz.
  set (m := map (shift C start) (firstn (nst a) (nrules a))).
  assert (Lm : length m = nst a) by (unfold m; rewrite map_length, firstn_length; lia).
  replace (start + nst a) with (start + length m) by lia.
  set (r1 := firstn start rules ++ m ++ skipn (start + length m) rules).
  assert (Lr1 : length r1 = length rules) by (unfold r1; apply block_length; lia).
  assert (R1 : forall j, nth j r1 [] = if Nat.ltb j start then nth j rules [] else if Nat.ltb j (start + length m) then nth (j - start) m [] else nth j rules [])
    by (intros; apply row_block; lia).
  set (r3 := push C (start + length m - 1) (eps_edge C (total - k + i)) (push C 0 (eps_edge C start) r1)).
  assert (R3 : forall j c t, In (c, t) (nth j r3 []) <->
    In (c, t) (nth j rules []) \/ (j = 0 /\ c = c_epsset C /\ t = start) \/
    (start <= j /\ start <= t /\ nedge a (j - start) c (t - start)) \/
    (j = start + nst a - 1 /\ c = c_epsset C /\ t = total - k + i)).
  { clear j c t. intros j c t. unfold r3. rewrite !row_push, push_length, R1, Lr1, Lm.
    assert (M : nth (j - start) m [] = shift C start (nth (j - start) (nrules a) [])).
    { unfold m. rewrite row_shift, nth_firstn. destruct (Nat.ltb_spec (j - start) (nst a)); [reflexivity|].
      rewrite (wf_out a) by (try assumption; lia). reflexivity. }
    rewrite M.
    replace (0 <? length rules) with true by (symmetry; apply Nat.ltb_lt; lia).
    replace (start + nst a - 1 <? length rules) with true by (symmetry; apply Nat.ltb_lt; lia).
    rewrite !andb_true_r.
    destruct (Nat.eqb_spec j 0) as [E0|E0]; destruct (Nat.eqb_spec j (start + nst a - 1)) as [E1|E1]; try lia.
    - destruct (Nat.ltb_spec j start) as [H|H]; [|lia]. rewrite in_app_iff. cbn [In]. unfold eps_edge. split.
      + intros [H1|[H1|[]]]; [left; exact H1|injection H1 as <- <-; right; left; auto].
      + intros [H1|[(_ & -> & ->)|[(H1 & _)|(H1 & _)]]]; [left; exact H1|right; left; reflexivity|lia|lia].
    - destruct (Nat.ltb_spec j start) as [H|H]; [lia|]. destruct (Nat.ltb_spec j (start + nst a)) as [H'|H']; [|lia].
      rewrite in_app_iff, In_shift. cbn [In]. unfold eps_edge. split.
      + intros [(H1 & H2)|[H1|[]]]; [right; right; left; auto|injection H1 as <- <-; right; right; right; auto].
      + intros [H1|[(H1 & _)|[(H1 & H2 & H3)|(H1 & -> & ->)]]]; [rewrite Hz in H1 by lia; destruct H1|lia|left; auto|right; left; reflexivity].
    - destruct (Nat.ltb_spec j start) as [H|H]; [|destruct (Nat.ltb_spec j (start + nst a)) as [H'|H']].
      + split; [auto|]. intros [H1|[(H1 & _)|[(H1 & _)|(H1 & _)]]]; [exact H1|lia|lia|lia].
      + rewrite In_shift. split; [intros (H1 & H2); right; right; left; auto|].
        intros [H1|[(H1 & _)|[(H1 & H2 & H3)|(H1 & _)]]]; [rewrite Hz in H1 by lia; destruct H1|lia|auto|lia].
      + split; [auto|]. intros [H1|[(H1 & _)|[(H1 & H2 & H3)|(H1 & _)]]]; [exact H1|lia| |lia].
        apply (wf_in _ _ _ _ W1) in H3. lia. }
  rewrite (IH total k (S i) (start + length m) r3).
  - rewrite R3, Lm. split.
    + intros [[H|[(-> & -> & ->)|[(H1 & H2 & H3)|(-> & -> & ->)]]]|[(-> & -> & pre & b & post & -> & ->)|[(pre & b & post & -> & H1 & H2 & H3)|(pre & b & post & -> & -> & -> & ->)]]].
      * left. exact H.
      * right. left. split; [reflexivity|]. split; [reflexivity|]. exists [], a, l. split; [reflexivity|]. cbn. lia.
      * right. right. left. exists [], a, l. cbn [sizes fold_right app]. rewrite Nat.add_0_r. auto.
      * right. right. right. exists [], a, l. cbn [sizes fold_right app length]. rewrite !Nat.add_0_r. auto.
      * right. left. split; [reflexivity|]. split; [reflexivity|]. exists (a :: pre), b, post. split; [reflexivity|].
        cbn [sizes fold_right]. fold (sizes pre). lia.
      * right. right. left. exists (a :: pre), b, post. split; [reflexivity|]. cbn [sizes fold_right]. fold (sizes pre).
        rewrite Nat.add_assoc. auto.
      * right. right. right. exists (a :: pre), b, post. split; [reflexivity|]. cbn [sizes fold_right length]. fold (sizes pre).
        rewrite Nat.add_assoc. split; [reflexivity|]. split; [reflexivity|]. lia.
    + intros [H|[(-> & -> & pre & b & post & Hl & ->)|[(pre & b & post & Hl & H1 & H2 & H3)|(pre & b & post & Hl & -> & -> & ->)]]].
      * left. left. exact H.
      * destruct pre as [|a' pre]; cbn in Hl; injection Hl as -> ->.
        -- left. right. left. cbn. split; [reflexivity|]. split; [reflexivity|]. lia.
        -- right. left. split; [reflexivity|]. split; [reflexivity|]. exists pre, b, post. split; [reflexivity|].
           cbn [sizes fold_right]. fold (sizes pre). lia.
      * destruct pre as [|a' pre]; cbn in Hl; injection Hl as -> ->.
        -- left. right. right. left. cbn [sizes fold_right] in *. rewrite Nat.add_0_r in *. auto.
        -- right. right. left. exists pre, b, post. split; [reflexivity|]. cbn [sizes fold_right] in *. fold (sizes pre) in *.
           rewrite Nat.add_assoc in *. auto.
      * destruct pre as [|a' pre]; cbn in Hl; injection Hl as -> ->.
        -- left. right. right. right. cbn [sizes fold_right length] in *. rewrite !Nat.add_0_r in *. auto.
        -- right. right. right. exists pre, b, post. split; [reflexivity|]. cbn [sizes fold_right length] in *. fold (sizes pre) in *.
           rewrite Nat.add_assoc in *. split; [reflexivity|]. split; [reflexivity|]. lia.
  - exact W2.
  - lia.
  - unfold r3. rewrite !push_length, Lr1. lia.
  - intros j' Hj'. unfold r3. rewrite !row_push, R1.
    destruct (Nat.eqb_spec j' 0); [lia|]. destruct (Nat.eqb_spec j' (start + length m - 1)); [lia|]. cbn [andb].
    destruct (Nat.ltb_spec j' start); [lia|]. destruct (Nat.ltb_spec j' (start + length m)); [lia|]. apply Hz. lia.
Qed.

Lemma split_pos {A} (l : list A) : forall pre a post pre' a' post' (f : A -> nat),
  l = pre ++ a :: post -> l = pre' ++ a' :: post' ->
  length pre = length pre' \/ (length pre < length pre' /\ exists mid, pre' = pre ++ a :: mid) \/
  (length pre' < length pre /\ exists mid, pre = pre' ++ a' :: mid).
Proof.
  induction l as [|x l IH]; intros pre a post pre' a' post' f H1 H2.
  - destruct pre; discriminate H1.
  - destruct pre as [|y pre], pre' as [|y' pre']; cbn in *; injection H1 as -> H1; injection H2 as -> H2.
    + auto.
    + right. left. split; [lia|]. exists pre'. reflexivity.
    + right. right. split; [lia|]. exists pre. reflexivity.
    + destruct (IH _ _ _ _ _ _ f H1 H2) as [H|[(H & m & ->)|(H & m & ->)]].
      * left. lia.
      * right. left. split; [lia|]. exists m. reflexivity.
      * right. right. split; [lia|]. exists m. reflexivity.
Qed.

Lemma list_wf l : l <> [] -> Forall (single C ok) l -> wf (nfa_list C l).
Proof.
  intros Hn HS. assert (HW : Forall wf l) by (eapply Forall_impl; [|exact HS]; intros a H; apply H).
  destruct l as [|a0 l0] eqn:El; [congruence|]. rewrite <- El in *. 
  assert (D : nfa_list C l = MkNfa (1 + sizes l + length l)
     (list_blocks C (1 + sizes l + length l) (length l) 0 1 l (repeat [] (1 + sizes l + length l))) (1 + sizes l)).
  { rewrite El. reflexivity. }
  rewrite D. clear D.
  assert (0 < length l) by (rewrite El; cbn; lia).
  split; [cbn; lia|]. split.
  { cbn [nst nrules]. rewrite blocks_length, repeat_length; [lia|exact HW|rewrite repeat_length; lia]. }
  split; [cbn [naccept nst]; lia|]. cbn [nrules nst].
  intros i c t HI. apply blocks_edge in HI; [|exact HW|lia|rewrite repeat_length; lia|intros; apply nth_repeat_nil].
  destruct HI as [HI|[(-> & -> & pre & a & post & E & ->)|[(pre & a & post & E & H1 & H2 & H3)|(pre & a & post & E & -> & -> & ->)]]].
  - rewrite nth_repeat_nil in HI. destruct HI.
  - rewrite E, sizes_app, app_length. cbn [sizes fold_right length]. split; [|split]; [lia|lia|apply ok_epsset].
  - assert (Wa : wf a) by (rewrite Forall_forall in HW; apply HW; rewrite E; apply in_elt).
    pose proof (wf_in _ _ _ _ Wa H3). rewrite E, sizes_app. cbn [sizes fold_right]. fold (sizes post). split; [|split]; [lia|lia|tauto].
  - assert (Wa : wf a) by (rewrite Forall_forall in HW; apply HW; rewrite E; apply in_elt).
    destruct Wa as (A1 & _). rewrite E, sizes_app, app_length. cbn [sizes fold_right length]. fold (sizes post).
    split; [|split]; [lia|lia|apply ok_epsset].
Qed.

(** Rule k accepts exactly the words of the k-th automaton. *)
Theorem list_lang l k w : l <> [] -> Forall (single C ok) l ->
  (laccepts C (nfa_list C l) k w <-> exists a, nth_error l k = Some a /\ lang C a w).
Proof.
  intros Hn HS. assert (HW : Forall wf l) by (eapply Forall_impl; [|exact HS]; intros a H; apply H).
  assert (D : nfa_list C l = MkNfa (1 + sizes l + length l)
     (list_blocks C (1 + sizes l + length l) (length l) 0 1 l (repeat [] (1 + sizes l + length l))) (1 + sizes l)).
  { destruct l; [congruence|reflexivity]. }
  assert (E : forall j c t, nedge (nfa_list C l) j c t <->
    (j = 0 /\ c = c_epsset C /\ exists pre a post, l = pre ++ a :: post /\ t = 1 + sizes pre) \/
    (exists pre a post, l = pre ++ a :: post /\ 1 + sizes pre <= j /\ 1 + sizes pre <= t /\
       nedge a (j - (1 + sizes pre)) c (t - (1 + sizes pre))) \/
    (exists pre a post, l = pre ++ a :: post /\ j = 1 + sizes pre + nst a - 1 /\ c = c_epsset C /\
       t = 1 + sizes l + length pre)).
  { intros j c t. unfold AutomatonSpec.nedge at 1. rewrite D. cbn [nrules].
    rewrite blocks_edge; [|exact HW|lia|rewrite repeat_length; lia|intros; apply nth_repeat_nil].
    rewrite nth_repeat_nil. split.
    - intros [[]|[H|[H|(pre & a & post & H1 & H2 & H3 & H4)]]]; [left; exact H|right; left; exact H|].
      right. right. exists pre, a, post. split; [exact H1|]. split; [exact H2|]. split; [exact H3|]. lia.
    - intros [H|[H|(pre & a & post & H1 & H2 & H3 & H4)]]; [right; left; exact H|right; right; left; exact H|].
      right. right. right. exists pre, a, post. split; [exact H1|]. split; [exact H2|]. split; [exact H3|]. lia. }
  assert (D1 : naccept (nfa_list C l) = 1 + sizes l) by (rewrite D; reflexivity).
  assert (D2 : nst (nfa_list C l) = 1 + sizes l + length l) by (rewrite D; reflexivity).
  unfold laccepts. rewrite D1, D2.
  set (U := nedge (nfa_list C l)) in *.
  assert (STUCK : forall q c t, 1 + sizes l <= q -> ~ U q c t).
  { intros q c t Hq H. apply E in H.
    destruct H as [(H & _)|[(pre & a & post & H1 & H2 & H3 & H4)|(pre & a & post & H1 & H2 & _)]].
    - lia.
    - assert (Wa : wf a) by (rewrite Forall_forall in HW; apply HW; rewrite H1; apply in_elt).
      apply (wf_in _ _ _ _ Wa) in H4. rewrite H1, sizes_app in Hq. cbn [sizes fold_right] in Hq. fold (sizes post) in Hq. lia.
    - assert (Wa : wf a) by (rewrite Forall_forall in HW; apply HW; rewrite H1; apply in_elt).
      destruct Wa as (A1 & _). rewrite H1, sizes_app in Hq. cbn [sizes fold_right] in Hq. fold (sizes post) in Hq. lia. }
  split.
  - intros (Hk & P).
    assert (DD : forall q w r, path U q w r -> r = 1 + sizes l + k ->
      forall pre a post, l = pre ++ a :: post -> 1 + sizes pre <= q < 1 + sizes pre + nst a ->
      length pre = k /\ path (nedge a) (q - (1 + sizes pre)) w (naccept a)).
    { clear P. induction 1 as [q|q c t w' r H1 H2 H3 IH|q c t x w' r H1 H2 H3 H4 IH]; intros Hr pre a post Hl Hq;
        pose proof Hl as Hl'; 
        assert (Ss : single C ok a) by (rewrite Forall_forall in HS; apply HS; rewrite Hl; apply in_elt);
        pose proof Ss as (Wa & Sa'); pose proof Wa as (A1 & A2 & A3 & A4).
      - rewrite Hl, sizes_app in Hr. cbn [sizes fold_right] in Hr. lia.
      - apply E in H1. destruct H1 as [(H & _)|[(pre' & a' & post' & G1 & G2 & G3 & G4)|(pre' & a' & post' & G1 & G2 & -> & ->)]].
        + lia.
        + assert (Wa' : wf a') by (rewrite Forall_forall in HW; apply HW; rewrite G1; apply in_elt).
          pose proof (wf_in _ _ _ _ Wa' G4) as B.
          assert (Q : pre = pre' /\ a = a').
          { destruct (split_pos l _ _ _ _ _ _ (fun _ => 0) Hl G1) as [Q|[(Q & mid & Q')|(Q & mid & Q')]].
            - rewrite Hl in G1. apply app_inj_tail_iff in G1 || idtac.
              assert (Z : pre = pre' /\ a :: post = a' :: post').
              { clear -G1 Q. revert pre' G1 Q. induction pre as [|y pre IHp]; intros [|y' pre'] G1 Q; cbn in *; try discriminate; [auto|].
                injection G1 as -> G1. destruct (IHp _ G1 ltac:(lia)) as (-> & ->). auto. }
              destruct Z as (-> & Z). injection Z as -> _. auto.
            - exfalso. rewrite Q', sizes_app in *. cbn [sizes fold_right] in *. lia.
            - exfalso. rewrite Q', sizes_app in *. cbn [sizes fold_right] in *. lia. }
          destruct Q as (<- & <-). destruct (IH Hr pre a post Hl) as (I1 & I2); [lia|].
          split; [exact I1|]. eapply P_eps; [exact G4|exact H2|exact I2].
        + assert (Wa' : wf a') by (rewrite Forall_forall in HW; apply HW; rewrite G1; apply in_elt).
          assert (Q : pre = pre' /\ a = a').
          { destruct Wa' as (B1 & _).
            destruct (split_pos l _ _ _ _ _ _ (fun _ => 0) Hl G1) as [Q|[(Q & mid & Q')|(Q & mid & Q')]].
            - rewrite Hl in G1.
              assert (Z : pre = pre' /\ a :: post = a' :: post').
              { clear -G1 Q. revert pre' G1 Q. induction pre as [|y pre IHp]; intros [|y' pre'] G1 Q; cbn in *; try discriminate; [auto|].
                injection G1 as -> G1. destruct (IHp _ G1 ltac:(lia)) as (-> & ->). auto. }
              destruct Z as (-> & Z). injection Z as -> _. auto.
            - exfalso. rewrite Q', sizes_app in *. cbn [sizes fold_right] in *. lia.
            - exfalso. rewrite Q', sizes_app in *. cbn [sizes fold_right] in *. lia. }
          destruct Q as (<- & <-). apply path_stuck in H3; [|intros c t; apply STUCK; lia].
          destruct H3 as (-> & H3). split; [lia|]. replace (q - (1 + sizes pre)) with (naccept a) by lia. apply P_nil.
      - apply E in H1. destruct H1 as [(H & _)|[(pre' & a' & post' & G1 & G2 & G3 & G4)|(pre' & a' & post' & G1 & G2 & -> & ->)]].
        + lia.
        + assert (Wa' : wf a') by (rewrite Forall_forall in HW; apply HW; rewrite G1; apply in_elt).
          pose proof (wf_in _ _ _ _ Wa' G4) as B.
          assert (Q : pre = pre' /\ a = a').
          { destruct (split_pos l _ _ _ _ _ _ (fun _ => 0) Hl G1) as [Q|[(Q & mid & Q')|(Q & mid & Q')]].
            - rewrite Hl in G1.
              assert (Z : pre = pre' /\ a :: post = a' :: post').
              { clear -G1 Q. revert pre' G1 Q. induction pre as [|y pre IHp]; intros [|y' pre'] G1 Q; cbn in *; try discriminate; [auto|].
                injection G1 as -> G1. destruct (IHp _ G1 ltac:(lia)) as (-> & ->). auto. }
              destruct Z as (-> & Z). injection Z as -> _. auto.
            - exfalso. rewrite Q', sizes_app in *. cbn [sizes fold_right] in *. lia.
            - exfalso. rewrite Q', sizes_app in *. cbn [sizes fold_right] in *. lia. }
          destruct Q as (<- & <-). destruct (IH Hr pre a post Hl) as (I1 & I2); [lia|].
          split; [exact I1|]. eapply P_chr; [exact G4|exact H2|exact H3|exact I2].
        + rewrite eps_epsset in H2. discriminate H2. }
    inversion P as [|q c t w' r H1 H2 H3|q c t x w' r H1 H2 H3 H4]; subst.
    + apply E in H1. destruct H1 as [(_ & -> & pre & a & post & Hl & ->)|[(pre & a & post & Hl & H & _)|(pre & a & post & Hl & H & _)]].
      * assert (Ss : single C ok a) by (rewrite Forall_forall in HS; apply HS; rewrite Hl; apply in_elt).
        pose proof Ss as (Wa & Sa'). pose proof Wa as (A1 & A2 & A3 & A4).
        destruct (DD _ _ _ H3 eq_refl pre a post Hl) as (I1 & I2); [lia|].
        exists a. split.
        -- rewrite Hl, nth_error_app2 by lia. replace (k - length pre) with 0 by lia. reflexivity.
        -- rewrite Nat.sub_diag in I2. apply single_lang; assumption.
      * lia.
      * assert (Wa : wf a) by (rewrite Forall_forall in HW; apply HW; rewrite Hl; apply in_elt). destruct Wa as (B1 & _). lia.
    + apply E in H1. destruct H1 as [(_ & -> & _)|[(pre & a & post & Hl & H & _)|(pre & a & post & Hl & H & _)]].
      * rewrite eps_epsset in H2. discriminate H2.
      * lia.
      * assert (Wa : wf a) by (rewrite Forall_forall in HW; apply HW; rewrite Hl; apply in_elt). destruct Wa as (B1 & _). lia.
  - intros (a & Ha & Hw).
    destruct (nth_error_split _ _ Ha) as (pre & post & Hl & Hp).
    assert (Ss : single C ok a) by (rewrite Forall_forall in HS; apply HS; rewrite Hl; apply in_elt).
    pose proof Ss as (Wa & Sa'). pose proof Wa as (A1 & A2 & A3 & A4).
    apply single_lang in Hw; [|exact Ss]. split.
    { assert (k < length l) by (apply nth_error_Some; congruence). lia. }
    eapply P_eps; [apply E; left; split; [reflexivity|]; split; [reflexivity|]; exists pre, a, post; split; [exact Hl|reflexivity]|apply eps_epsset|].
    eapply path_snoc_eps.
    + apply (path_map (nedge a) U (fun i => i + (1 + sizes pre))) in Hw; [exact Hw|].
      intros i c t H. apply E. right. left. exists pre, a, post. split; [exact Hl|]. split; [lia|]. split; [lia|].
      rewrite !Nat.add_sub. exact H.
    + apply E. right. right. exists pre, a, post. split; [exact Hl|]. split; [lia|]. split; [reflexivity|]. lia.
    + apply eps_epsset.
Qed.
End T.
