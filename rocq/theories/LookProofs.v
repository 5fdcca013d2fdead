(** Reading lines and looking ahead: proofs for C121. *)
From Coq Require Import List Bool PeanoNat Lia.
From Verif Require Import Base LookModel LookSpec.
Import ListNotations.

Lemma until_split l t : ~ In 10 l -> until_lf (l ++ 10 :: t) = (l, true).
Proof.
  induction l as [|c l IH]; intros N; [reflexivity|]. cbn [app until_lf]. destruct (Nat.eqb c lf) eqn:E.
  { apply Nat.eqb_eq in E. destruct N. left. exact E. }
  rewrite IH; [reflexivity|]. intros H. apply N. right. exact H.
Qed.
Lemma until_none l : ~ In 10 l -> until_lf l = (l, false).
Proof.
  induction l as [|c l IH]; intros N; [reflexivity|]. cbn [until_lf]. destruct (Nat.eqb c lf) eqn:E.
  { apply Nat.eqb_eq in E. destruct N. left. exact E. }
  rewrite IH; [reflexivity|]. intros H. apply N. right. exact H.
Qed.
Lemma no_cr_keep b l : (forall m, l <> m ++ [13]) -> no_cr b l = l.
Proof.
  intros N. unfold no_cr. destruct (rev l) as [|c r] eqn:E; [reflexivity|]. destruct (b && Nat.eqb c cr) eqn:Q; [|reflexivity].
  apply andb_true_iff in Q. destruct Q as [_ Q]. apply Nat.eqb_eq in Q. subst c. exfalso. apply (N (rev r)).
  rewrite <- (rev_involutive l), E. reflexivity.
Qed.
Lemma no_cr_drop l : no_cr true (l ++ [13]) = l.
Proof. unfold no_cr. rewrite rev_app_distr. cbn. apply rev_involutive. Qed.
Lemma no_cr_last l : no_cr false l = l.
Proof. unfold no_cr. destruct (rev l); reflexivity. Qed.
(** One line is read, and the others are left. *)
Lemma read_lines t ls : lines t ls -> let (l, n) := read_line t in
  l = nth 0 ls [] /\ n <= length t /\ lines (skipn n t) (tl ls) /\ (ls = [] <-> t = []).
Proof.
  intros L. unfold read_line. inversion L as [|l N0 N|l t' ls' N NC L'|l t' ls' N L']; subst.
  - cbn. repeat split; auto; constructor.
  - rewrite (until_none _ N), no_cr_last. split; [reflexivity|]. split; [lia|]. split; [|split; intros; congruence].
    rewrite Nat.add_0_r, skipn_all. constructor.
  - rewrite (until_split _ _ N), (no_cr_keep _ _ NC). split; [reflexivity|]. split; [rewrite app_length; cbn; lia|].
    split; [|split; intros H; [discriminate|destruct l; discriminate]].
    replace (length l + 1) with (length (l ++ [10])) by (rewrite app_length; reflexivity).
    replace (l ++ 10 :: t') with ((l ++ [10]) ++ t') by (rewrite <- app_assoc; reflexivity).
    rewrite skipn_app, skipn_all, Nat.sub_diag. exact L'.
  - replace (l ++ 13 :: 10 :: t') with ((l ++ [13]) ++ 10 :: t') by (rewrite <- app_assoc; reflexivity).
    assert (N2 : ~ In 10 (l ++ [13])) by (intros H; apply in_app_or in H; destruct H as [H|[H|[]]]; [exact (N H)|discriminate]).
    rewrite (until_split _ _ N2), no_cr_drop. split; [reflexivity|]. split; [repeat rewrite app_length; cbn; lia|].
    split; [|split; intros H; [discriminate|destruct l; discriminate]].
    replace (length (l ++ [13]) + 1) with (length ((l ++ [13]) ++ [10])) by (repeat rewrite app_length; reflexivity).
    replace ((l ++ [13]) ++ 10 :: t') with (((l ++ [13]) ++ [10]) ++ t') by (rewrite <- app_assoc; reflexivity).
    rewrite skipn_app, skipn_all, Nat.sub_diag. exact L'.
Qed.
Lemma nth_skipn {A} k : forall (l : list A) d, nth 0 (skipn k l) d = nth k l d.
Proof. induction k as [|k IH]; intros [|a l] d; cbn; auto. Qed.
Lemma tl_skipn {A} k : forall (l : list A), tl (skipn k l) = skipn (S k) l.
Proof. induction k as [|k IH]; intros [|a l]; cbn [skipn]; auto. rewrite IH. destruct l; reflexivity. Qed.
Lemma skipn_plus {A} a : forall b (l : list A), skipn a (skipn b l) = skipn (b + a) l.
Proof. induction b as [|b IH]; intros l; [reflexivity|]. destruct l; [rewrite skipn_nil; destruct a; reflexivity|]. cbn. apply IH. Qed.
Lemma skipn_none {A} k (l : list A) : skipn k l = [] <-> length l <= k.
Proof.
  split; [|apply skipn_all2]. intros H. pose proof (f_equal (@length A) H) as E. rewrite skipn_length in E. cbn in E. lia.
Qed.
Lemma to_nul_keep l : ~ In 0 l -> to_nul l = l.
Proof.
  induction l as [|c l IH]; intros N; [reflexivity|]. cbn. destruct (Nat.eqb c 0) eqn:E; [apply Nat.eqb_eq in E; destruct N; left; auto|].
  rewrite IH; [reflexivity|]. intros H. apply N. right. exact H.
Qed.

Section T.
Variable text : list nat.
Variable ls : list (list nat).
Hypothesis L : lines text ls.
(** The first [k] lines are behind position [p]. *)
Definition after (k p : nat) : Prop := p <= length text /\ lines (skipn p text) (skipn k ls).
Lemma after_read k p : after k p -> let (l, n) := read_line (skipn p text) in l = line_at ls k /\ after (S k) (p + n).
Proof.
  intros [B A]. pose proof (read_lines _ _ A) as R. destruct (read_line (skipn p text)) as [l n]. destruct R as (R1 & R2 & R3 & _).
  rewrite nth_skipn in R1. split; [exact R1|]. rewrite skipn_length in R2. split; [lia|]. rewrite skipn_plus, tl_skipn in R3. exact R3.
Qed.
Lemma after_more k p : after k p -> Nat.ltb p (length text) = true <-> k < length ls.
Proof.
  intros [B A]. pose proof (read_lines _ _ A) as R. destruct (read_line (skipn p text)) as [l n]. destruct R as (_ & _ & _ & R).
  repeat rewrite skipn_none in R. rewrite Nat.ltb_lt. lia.
Qed.
(** The reader when [k] lines have been read and [ahead] more looked at. *)
Definition reading (k ahead : nat) (r : reader) : Prop :=
  after (k + ahead) (at_pos r) /\ match peek_start r with Some p => after k p | None => ahead = 0 end.
Lemma calls_expected : forall cs k ahead r looking, polite looking cs -> (looking = false -> ahead = 0 /\ peek_start r = None) -> reading k ahead r ->
  (forall l, In l ls -> ~ In 0 l) -> expected ls k ahead cs (calls text cs r).
Proof.
  induction cs as [|c cs IH]; intros k ahead r looking P LO [A1 A2] NUL; [constructor|].
  assert (NL : forall j, to_nul (line_at ls j) = line_at ls j).
  { intros j. apply to_nul_keep. unfold line_at. destruct (nth_in_or_default j ls []) as [H|H]; [exact (NUL _ H)|rewrite H; intros []]. }
  destruct c; cbn [calls do_call]; cbn [polite] in P.
  - destruct P as [-> P]. destruct (LO eq_refl) as [-> PS]. unfold next_line. pose proof (after_read _ _ A1) as R.
    destruct (read_line (skipn (at_pos r) text)) as [l n]. destruct R as [-> R]. rewrite Nat.add_0_r in *. apply ex_next.
    apply (IH _ _ _ false P); [intros _; auto| |exact NUL]. split; [rewrite Nat.add_0_r; exact R|]. cbn. rewrite PS. reflexivity.
  - unfold peek_line. pose proof (after_read _ _ A1) as R. destruct (read_line (skipn (at_pos r) text)) as [l n]. destruct R as [-> R]. rewrite NL.
    apply ex_peek. apply (IH _ _ _ true P); [discriminate| |exact NUL]. split; [rewrite Nat.add_succ_r; exact R|]. cbn.
    destruct (peek_start r) as [p|]; [exact A2|]. subst ahead. rewrite Nat.add_0_r in A1. exact A1.
  - apply ex_reset. apply (IH _ _ _ false P); [| |exact NUL].
    + intros _. split; [reflexivity|]. unfold peek_reset. destruct (peek_start r); reflexivity.
    + unfold peek_reset. destruct (peek_start r) as [p|]; (split; [rewrite Nat.add_0_r; cbn [at_pos]|reflexivity]).
      * rewrite (proj2 (Nat.leb_le _ _) (proj1 A2)). exact A2.
      * subst ahead. rewrite Nat.add_0_r in A1. exact A1.
  - apply ex_more; [apply after_more; exact A1|]. apply (IH _ _ _ looking P LO); [split; assumption|exact NUL].
Qed.
End T.
(** Every text has lines, and only one way of being divided into them. *)
Lemma split_lf : forall t, ~ In 10 t \/ exists l t', t = l ++ 10 :: t' /\ ~ In 10 l.
Proof.
  induction t as [|c t IH]; [left; intros []|]. destruct (Nat.eq_dec c 10) as [->|N]; [right; exists [], t; split; [reflexivity|intros []]|].
  destruct IH as [IH|(l & t' & -> & H)]; [left; intros [H|H]; auto|]. right. exists (c :: l), t'. split; [reflexivity|]. intros [X|X]; auto.
Qed.
Lemma lines_exist : forall n t, length t <= n -> exists ls, lines t ls.
Proof.
  induction n as [|n IH]; intros t B.
  { destruct t; [exists []; constructor|cbn in B; lia]. }
  destruct (split_lf t) as [N|(l & t' & -> & N)].
  { destruct t as [|c t]; [exists []; constructor|]. exists [c :: t]. apply lines_last; [discriminate|exact N]. }
  assert (B' : length t' <= n) by (rewrite app_length in B; cbn in B; lia). destruct (IH t' B') as (ls & L).
  destruct (rev l) as [|c r] eqn:E.
  - exists (l :: ls). apply lines_lf; auto. intros m ->. rewrite rev_app_distr in E. discriminate.
  - assert (EL : l = rev r ++ [c]) by (rewrite <- (rev_involutive l), E; reflexivity). destruct (Nat.eq_dec c 13) as [->|NC].
    + exists (rev r :: ls). rewrite EL, <- app_assoc. apply lines_crlf; auto. intros H. apply N. rewrite EL. apply in_or_app. left. exact H.
    + exists (l :: ls). apply lines_lf; auto. intros m ->. apply app_inj_tail in EL. destruct EL. congruence.
Qed.
