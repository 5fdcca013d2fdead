(** Proofs for C127. *)
From Coq Require Import List NArith Ascii String Bool Lia Sorted Permutation.
From Verif Require Import FlexModel DeclModel DeclProofs DeclProps DescribeModel DescribeSpec DescribeProofs NumberSpec.
Import ListNotations.
Open Scope string_scope.
Open Scope list_scope.

Lemma text_ltb_ok : forall x y, text_ltb x y = true <-> before x y.
Proof.
  induction x as [|a x IH]; intros [|b y]; cbn [text_ltb].
  - split; [discriminate | intro H; inversion H].
  - split; [constructor | reflexivity].
  - split; [discriminate | intro H; inversion H].
  - rewrite orb_true_iff, andb_true_iff, N.ltb_lt, Ascii.eqb_eq, IH. split.
    + intros [H | (-> & H)]; [apply before_head | apply before_tail]; exact H.
    + intro H. inversion H; subst; auto.
Qed.

Lemma before_irrefl x : ~ before x x.
Proof. induction x as [|a x IH]; intro H; inversion H; subst; [lia | auto]. Qed.

Lemma before_trans : forall x y z, before x y -> before y z -> before x z.
Proof.
  intros x y z H. revert z. induction H as [a x|a b x y L|a x y H IH]; intros z J.
  - inversion J; subst; constructor.
  - inversion J; subst; apply before_head; lia.
  - inversion J; subst; [apply before_head; assumption | apply before_tail; apply IH; assumption].
Qed.

Lemma before_total : forall x y, x <> y -> before x y \/ before y x.
Proof.
  induction x as [|a x IH]; intros [|b y] D.
  - congruence.
  - left. constructor.
  - right. constructor.
  - destruct (N.lt_total (N_of_ascii a) (N_of_ascii b)) as [L | [E | L]].
    + left. apply before_head, L.
    + assert (X : a = b) by (rewrite <- (ascii_N_embedding a), <- (ascii_N_embedding b), E; reflexivity). subst b.
      destruct (IH y) as [H | H]; [congruence| |]; [left | right]; apply before_tail, H.
    + right. apply before_head, L.
Qed.

Definition sorted (ts : terminals) : Prop := StronglySorted before (map fst ts).

Lemma insert_sorted n d : forall ts, sorted ts -> ~ In n (map fst ts) -> sorted (insert n d ts).
Proof.
  unfold sorted. induction ts as [|(m, e) ts IH]; intros S N.
  - repeat constructor.
  - cbn [insert]. cbn [map fst] in S, N. inversion S as [|? ? S' F]; subst.
    destruct (text_ltb n m) eqn:L.
    + apply text_ltb_ok in L. cbn [map fst]. constructor; [exact S|]. constructor; [exact L|].
      rewrite Forall_forall in F |- *. intros x X. apply (before_trans _ m); [exact L | apply F, X].
    + cbn [map fst]. constructor; [apply IH; [exact S' | intro; apply N; right; assumption]|].
      apply (Permutation_Forall (Permutation_map fst (insert_perm n d ts))). cbn [map fst]. constructor; [|exact F].
      destruct (before_total m n) as [B | B]; [intro; apply N; left; assumption | exact B|].
      apply text_ltb_ok in B. congruence.
Qed.

Lemma push_sorted n d ts : sorted ts -> sorted (push_terminal n d ts).
Proof.
  intro S. unfold push_terminal. destruct (existsb (fun p => text_eqb n (fst p)) ts) eqn:E; [exact S|].
  apply insert_sorted; [exact S|]. intro I. apply in_map_iff in I as (p & <- & I).
  enough (X : existsb (fun q => text_eqb (fst p) (fst q)) ts = true) by congruence.
  apply existsb_exists. exists p. split; [exact I | apply text_eqb_ok; reflexivity].
Qed.

Lemma all_sorted ds : sorted (all_terminals ds).
Proof.
  apply push_sorted. unfold push_all. assert (S : sorted []) by constructor. revert S. generalize (@nil (text * text)).
  induction ds as [|p ds IH]; intros ts S; [exact S|]. cbn [fold_left]. apply IH, push_sorted, S.
Qed.

Lemma sorted_same : forall l l', StronglySorted before l -> StronglySorted before l' ->
  (forall x, In x l <-> In x l') -> l = l'.
Proof.
  induction l as [|a l IH]; intros [|b l'] S S' H.
  - reflexivity.
  - destruct (proj2 (H b)). left. reflexivity.
  - destruct (proj1 (H a)). left. reflexivity.
  - inversion S as [|? ? S1 F]; inversion S' as [|? ? S1' F']; subst. rewrite Forall_forall in F, F'.
    assert (E : a = b).
    { destruct (proj1 (H a) (or_introl eq_refl)) as [X | X]; [auto|].
      destruct (proj2 (H b) (or_introl eq_refl)) as [Y | Y]; [auto|].
      destruct (before_irrefl a). apply (before_trans _ b); [apply F, Y | apply F', X]. }
    subst b. f_equal. apply IH; [assumption | assumption|]. intro x. split; intro X.
    + destruct (proj1 (H x) (or_intror X)) as [Y | Y]; [|exact Y]. subst x. destruct (before_irrefl a). apply F, X.
    + destruct (proj2 (H x) (or_intror X)) as [Y | Y]; [|exact Y]. subst x. destruct (before_irrefl a). apply F', X.
Qed.

Lemma names_all ds n : In n (map fst (all_terminals ds)) <-> In n (map fst ds) \/ n = chars "EOF".
Proof.
  rewrite <- numbers_names. pose proof (all_right ds) as (ND & _).
  destruct (C51_token_numbers text (text_eqb (chars "EOF")) (map fst (all_terminals ds)) ND) as (M & _).
  { intros x y _ _ X Y. apply text_eqb_ok in X, Y. congruence. }
  rewrite <- M. unfold numbers. rewrite in_map_iff. split.
  - intros ((m, k) & E & I). cbn [fst] in E. subst. exists k. exact I.
  - intros (k & I). exists (n, k). auto.
Qed.

Lemma same_numbers ds ds' : (forall n, In n (map fst ds) <-> In n (map fst ds')) ->
  numbers (all_terminals ds) = numbers (all_terminals ds').
Proof.
  intro H. unfold numbers. f_equal. apply sorted_same; [apply all_sorted | apply all_sorted|].
  intro x. rewrite !names_all, H. reflexivity.
Qed.

Section T.
Variable is_eof : text -> bool.
Lemma tokens_place : forall l next x k, In (x, k) (tokens text is_eof next l) ->
  exists p r, l = p ++ x :: r /\ (is_eof x = true -> k = 1000%N) /\
    (is_eof x = false -> k = (next + N.of_nat (List.length (filter (fun m => negb (is_eof m)) p)))%N).
Proof.
  induction l as [|y l IH]; intros next x k I; [destruct I|]. cbn [tokens] in I.
  destruct (is_eof y) eqn:E.
  - destruct I as [I | I].
    + injection I as -> <-. exists [], l. split; [reflexivity|]. split; [reflexivity | congruence].
    + destruct (IH _ _ _ I) as (p & r & -> & A & B). exists (y :: p), r. split; [reflexivity|]. split; [exact A|].
      intro X. cbn [filter]. rewrite E. cbn [negb]. apply B, X.
  - destruct I as [I | I].
    + injection I as -> <-. exists [], l. split; [reflexivity|]. split; [congruence|]. intros _. cbn [filter List.length]. lia.
    + destruct (IH _ _ _ I) as (p & r & -> & A & B). exists (y :: p), r. split; [reflexivity|]. split; [exact A|].
      intro X. cbn [filter]. rewrite E. cbn [negb List.length]. rewrite (B X). lia.
Qed.
End T.

Lemma sorted_parts : forall p x r, StronglySorted before (p ++ x :: r) ->
  (forall m, In m p -> before m x) /\ (forall m, In m r -> before x m) /\ NoDup p.
Proof.
  induction p as [|a p IH]; intros x r S; cbn [app] in S; inversion S as [|? ? S' F]; subst; rewrite Forall_forall in F.
  - split; [intros m [] | split; [exact F | constructor]].
  - destruct (IH _ _ S') as (A & B & C). split; [|split; [exact B|]].
    + intros m [<- | I]; [apply F, in_app_iff; right; left; reflexivity | apply A, I].
    + constructor; [|exact C]. intro I. destruct (before_irrefl a). apply F, in_app_iff. left. exact I.
Qed.

Lemma number_exact ds n k : In (n, k) (numbers (all_terminals ds)) ->
  (n = chars "EOF" /\ k = 1000%N) \/
  (n <> chars "EOF" /\ exists l, lists l (fun m => In m (map fst ds) /\ m <> chars "EOF" /\ before m n) /\
     k = (1001 + N.of_nat (List.length l))%N).
Proof.
  intro I. unfold numbers, token_type in I. destruct (tokens_place _ _ _ _ _ I) as (p & r & E & A & B).
  destruct (text_eqb (chars "EOF") n) eqn:Q.
  - left. apply text_eqb_ok in Q. auto.
  - right. assert (D : n <> chars "EOF") by (intros ->; assert (X : text_eqb (chars "EOF") (chars "EOF") = true) by reflexivity; congruence).
    split; [exact D|]. eexists. split; [|apply B; reflexivity].
    pose proof (all_sorted ds) as S. unfold sorted in S. rewrite E in S. destruct (sorted_parts _ _ _ S) as (P & R & N).
    split; [apply NoDup_filter, N|]. intro m. rewrite filter_In, negb_true_iff. split.
    + intros (J & X). assert (M : m <> chars "EOF") by (intros ->; discriminate X).
      assert (Y : In m (map fst (all_terminals ds))) by (rewrite E; apply in_app_iff; auto).
      apply names_all in Y as [Y | Y]; [|contradiction]. auto.
    + intros (J & M & L). split.
      * assert (Y : In m (map fst (all_terminals ds))) by (apply names_all; auto).
        rewrite E in Y. apply in_app_iff in Y as [Y | [Y | Y]]; [exact Y | |].
        -- subst m. destruct (before_irrefl _ L).
        -- destruct (before_irrefl m). apply (before_trans _ n); [exact L | apply R, Y].
      * destruct (text_eqb (chars "EOF") m) eqn:X; [|reflexivity]. apply text_eqb_ok in X. congruence.
Qed.
