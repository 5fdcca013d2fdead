From Coq Require Import List Lia Bool PeanoNat ZArith ZifyBool ZifyNat.
From Verif Require Import Base ListNodeModel.
Import ListNotations.

Section P.
Context {A : Type}.
Implicit Types (h : heap A) (ids : list nat) (es : list A).

(** [ids] are the nodes, in order, of a circular list with elements [es]. *)
Definition rep h ids es : Prop :=
  length ids = length es /\ NoDup ids /\
  forall k n, nth_error ids k = Some n -> exists e,
    nth_error es k = Some e /\
    nth_error h n = Some (MkNode e k (nth (if Nat.eqb (S k) (length ids) then 0 else S k) ids 0)).

Lemma rep_lt h ids es : rep h ids es -> length ids <= length h.
Proof.
  intros (HL & ND & HN). assert (HH : incl ids (seq 0 (length h))).
  { intros n Hn. apply In_nth_error in Hn. destruct Hn as (k & Hk).
    destruct (HN k n Hk) as (e & _ & E). apply in_seq. split; [lia|]. simpl.
    apply nth_error_Some. congruence. }
  pose proof (NoDup_incl_length ND HH) as Q. rewrite seq_length in Q. exact Q.
Qed.

Lemma nth_nth_error {B} (l : list B) k d : k < length l -> nth_error l k = Some (nth k l d).
Proof. intros H. apply nth_error_nth'. exact H. Qed.

Lemma hasNext_ok h ids es k n : rep h ids es -> nth_error ids k = Some n ->
  hasNext h n = Some (Nat.ltb (S k) (length ids)).
Proof.
  intros (HL & ND & HN) Hk. destruct (HN k n Hk) as (e & He & E).
  assert (Hlt : k < length ids) by (apply nth_error_Some; congruence).
  unfold hasNext. rewrite E. cbn [obind next].
  destruct (Nat.eqb (S k) (length ids)) eqn:Eq.
  - destruct (HN 0 (nth 0 ids 0)) as (e' & _ & E'); [apply nth_nth_error; lia|].
    rewrite E'. cbn [obind index]. f_equal. lia.
  - destruct (HN (S k) (nth (S k) ids 0)) as (e' & _ & E'); [apply nth_nth_error; lia|].
    rewrite E'. cbn [obind index]. f_equal. lia.
Qed.

Lemma back_loop_ok h ids es : rep h ids es -> forall fuel k n,
  nth_error ids k = Some n -> length ids <= k + fuel ->
  back_loop fuel h n = Some (nth (length ids - 1) ids 0).
Proof.
  intros HR. pose proof HR as (HL & ND & HN). induction fuel as [|f IH]; intros k n Hk Hf.
  - exfalso. assert (k < length ids) by (apply nth_error_Some; congruence). lia.
  - cbn [back_loop]. rewrite (hasNext_ok h ids es k n HR Hk). cbn [obind].
    assert (Hlt : k < length ids) by (apply nth_error_Some; congruence).
    destruct (HN k n Hk) as (e & He & E).
    destruct (Nat.ltb (S k) (length ids)) eqn:C.
    + rewrite E. cbn [obind next]. replace (Nat.eqb (S k) (length ids)) with false by lia.
      apply (IH (S k)); [apply nth_nth_error; lia|lia].
    + f_equal. replace (length ids - 1) with k by lia.
      symmetry. apply nth_error_nth. exact Hk.
Qed.

Lemma back_ok h ids es n : rep h ids es -> In n ids ->
  back h n = Some (nth (length ids - 1) ids 0).
Proof.
  intros HR Hin. apply In_nth_error in Hin. destruct Hin as (k & Hk).
  pose proof (rep_lt h ids es HR).
  apply (back_loop_ok h ids es HR (S (length h)) k n Hk). lia.
Qed.

Lemma nonempty h ids es n : rep h ids es -> In n ids -> 0 < length ids.
Proof. intros _ H. destruct ids; [destruct H|simpl; lia]. Qed.

Lemma back_node h ids es : rep h ids es -> 0 < length ids -> exists e,
  nth_error es (length es - 1) = Some e /\
  nth_error h (nth (length ids - 1) ids 0) = Some (MkNode e (length ids - 1) (nth 0 ids 0)).
Proof.
  intros (HL & ND & HN) Hne.
  destruct (HN (length ids - 1) (nth (length ids - 1) ids 0)) as (e & He & E);
    [apply nth_nth_error; lia|].
  exists e. rewrite <- HL. split; [exact He|]. rewrite E.
  replace (Nat.eqb (S (length ids - 1)) (length ids)) with true by lia. reflexivity.
Qed.

Lemma front_ok h ids es n : rep h ids es -> In n ids -> front h n = Some (nth 0 ids 0).
Proof.
  intros HR Hin. unfold front. rewrite (back_ok h ids es n HR Hin). cbn [obind].
  destruct (back_node h ids es HR (nonempty h ids es n HR Hin)) as (e & _ & E).
  rewrite E. reflexivity.
Qed.

Lemma count_ok h ids es n : rep h ids es -> In n ids -> count h n = Some (length es).
Proof.
  intros HR Hin. unfold count. rewrite (back_ok h ids es n HR Hin). cbn [obind].
  pose proof (nonempty h ids es n HR Hin).
  destruct (back_node h ids es HR H) as (e & _ & E).
  rewrite E. cbn. destruct HR as (HL & _). f_equal. lia.
Qed.

Lemma walk_ok h ids es : rep h ids es -> forall fuel k n,
  nth_error ids k = Some n -> length ids <= k + fuel ->
  walk fuel h (nth 0 ids 0) n = Some (skipn k es).
Proof.
  intros HR. pose proof HR as (HL & ND & HN). induction fuel as [|f IH]; intros k n Hk Hf.
  - exfalso. assert (k < length ids) by (apply nth_error_Some; congruence). lia.
  - cbn [walk]. assert (Hlt : k < length ids) by (apply nth_error_Some; congruence).
    destruct (HN k n Hk) as (e & He & E). rewrite E. cbn [obind next element].
    assert (Hsk : skipn k es = e :: skipn (S k) es).
    { clear - He. revert es He. induction k; intros [|x es] He; simpl in *; try discriminate.
      - congruence.
      - apply IHk. exact He. }
    rewrite Hsk. destruct (Nat.eqb (S k) (length ids)) eqn:C.
    + replace (Nat.eqb (nth 0 ids 0) (nth 0 ids 0)) with true by lia.
      rewrite skipn_all2 by lia. reflexivity.
    + destruct (Nat.eqb (nth (S k) ids 0) (nth 0 ids 0)) eqn:D.
      * exfalso. apply Nat.eqb_eq in D.
        assert (S k = 0) by (apply (proj1 (NoDup_nth ids 0) ND); lia). lia.
      * rewrite (IH (S k)); [reflexivity|apply nth_nth_error; lia|lia].
Qed.

Lemma elements_ok h ids es n : rep h ids es -> In n ids -> elements h n = Some es.
Proof.
  intros HR Hin. unfold elements. rewrite (front_ok h ids es n HR Hin). cbn [obind].
  pose proof (nonempty h ids es n HR Hin). pose proof (rep_lt h ids es HR).
  rewrite (walk_ok h ids es HR (S (length h)) 0); [reflexivity|apply nth_nth_error; lia|lia].
Qed.

(** at(i): cyclic search from any node. *)
Lemma at_loop_ok h ids es i : rep h ids es -> i < length ids -> forall fuel k n,
  nth_error ids k = Some n ->
  (if Nat.leb k i then i - k else length ids - k + i) < fuel ->
  at_loop fuel h i n = Some (nth i ids 0).
Proof.
  intros HR Hi. pose proof HR as (HL & ND & HN). induction fuel as [|f IH]; intros k n Hk Hf; [lia|].
  cbn [at_loop]. assert (Hlt : k < length ids) by (apply nth_error_Some; congruence).
  destruct (HN k n Hk) as (e & He & E). rewrite E. cbn [obind index next].
  destruct (Nat.eqb i k) eqn:C.
  - apply Nat.eqb_eq in C. subst k. f_equal. symmetry. apply nth_error_nth. exact Hk.
  - destruct (Nat.eqb (S k) (length ids)) eqn:D.
    + apply (IH 0); [apply nth_nth_error; lia|]. simpl.
      destruct (Nat.leb k i) eqn:Q in Hf; lia.
    + apply (IH (S k)); [apply nth_nth_error; lia|].
      destruct (Nat.leb k i) eqn:Q in Hf; destruct (Nat.leb (S k) i) eqn:R; lia.
Qed.

Lemma at_ok h ids es i n e : rep h ids es -> In n ids -> nth_error es i = Some e ->
  exists m, at_ h i n = Some m /\ option_map element (nth_error h m) = Some e.
Proof.
  intros HR Hin He. pose proof HR as (HL & ND & HN).
  assert (Hi : i < length ids) by (rewrite HL; apply nth_error_Some; congruence).
  pose proof (rep_lt h ids es HR). pose proof Hin as Hin'.
  apply In_nth_error in Hin'. destruct Hin' as (k & Hk).
  assert (Hlt : k < length ids) by (apply nth_error_Some; congruence).
  exists (nth i ids 0). split.
  - unfold at_. apply (at_loop_ok h ids es i HR Hi (S (length h)) k n Hk).
    destruct (Nat.leb k i) eqn:Q; lia.
  - destruct (HN i (nth i ids 0)) as (e' & He' & E); [apply nth_nth_error; exact Hi|].
    rewrite E. simpl. congruence.
Qed.

Lemma rep_nil h : rep h [] [].
Proof.
  split; [reflexivity|]. split; [constructor|]. intros [|k] n H; discriminate.
Qed.

(** snoc on one list: new list, heap grows by one node, and all other nodes
    except the old last one are unchanged. *)
Lemma snoc_ok h ids es k e : rep h ids es ->
  exists h', snoc (handle ids k) e h = Some (length h, h') /\
    rep h' (ids ++ [length h]) (es ++ [e]) /\ length h' = S (length h) /\
    (forall m, m < length h -> ~ In m ids -> nth_error h' m = nth_error h m).
Proof.
  intros HR. pose proof HR as (HL & ND & HN). unfold handle.
  destruct ids as [|i0 ids'] eqn:Eids.
  - destruct es; [|discriminate]. cbn [snoc create1]. eexists. split; [reflexivity|].
    split; [|split].
    + split; [reflexivity|]. split; [constructor; [intros []|constructor]|].
      intros k0 n Hk0. destruct k0 as [|k0]; [|destruct k0; discriminate].
      injection Hk0 as <-. exists e. split; [reflexivity|].
      rewrite nth_error_app2 by lia. rewrite Nat.sub_diag. reflexivity.
    + rewrite app_length. simpl. lia.
    + intros m Hm _. rewrite nth_error_app1 by lia. reflexivity.
  - rewrite <- Eids in *. assert (Hne : 0 < length ids) by (rewrite Eids; simpl; lia).
    assert (Hmod : k mod length ids < length ids) by (apply Nat.mod_upper_bound; lia).
    rewrite (nth_nth_error ids (k mod length ids) 0 Hmod). cbn [snoc].
    assert (Hin : In (nth (k mod length ids) ids 0) ids) by (apply nth_In; exact Hmod).
    rewrite (back_ok h ids es _ HR Hin). cbn [obind].
    set (b := nth (length ids - 1) ids 0).
    destruct (back_node h ids es HR Hne) as (eb & Heb & Eb). fold b in Eb.
    assert (Hb : b < length h) by (apply nth_error_Some; congruence).
    unfold create2, create1.
    rewrite nth_error_app1 by exact Hb. rewrite Eb. cbn [obind index next].
    destruct (replace_spec (h ++ [MkNode e 0 (length h)]) (length h)
      (MkNode e (length ids - 1 + 1) (nth 0 ids 0))) as (h2 & E2 & L2 & N2);
      [rewrite app_length; simpl; lia|].
    rewrite E2. cbn [obind]. rewrite app_length in L2; simpl in L2.
    rewrite N2. replace (Nat.eqb b (length h)) with false by lia.
    rewrite nth_error_app1 by exact Hb. rewrite Eb. cbn [obind element index].
    destruct (replace_spec h2 b (MkNode eb (length ids - 1) (length h))) as (h3 & E3 & L3 & N3); [lia|].
    rewrite E3. cbn [obind]. exists h3. split; [reflexivity|].
    assert (Hlt : forall n, In n ids -> n < length h).
    { intros n Hn. apply In_nth_error in Hn. destruct Hn as (j & Hj).
      destruct (HN j n Hj) as (x & _ & E). apply nth_error_Some. congruence. }
    assert (Hnew : ~ In (length h) ids) by (intros H; apply Hlt in H; lia).
    split; [|split].
    + split; [rewrite !app_length; simpl; lia|]. split.
      { apply NoDup_rev in ND. rewrite <- (rev_involutive (ids ++ [length h])).
        apply NoDup_rev. rewrite rev_app_distr. simpl. constructor; [|exact ND].
        rewrite <- in_rev. exact Hnew. }
      intros j n Hj. rewrite app_length. cbn [length].
      destruct (Nat.lt_ge_cases j (length ids)) as [C|C].
      * rewrite nth_error_app1 in Hj by exact C. rewrite nth_error_app1 by lia.
        destruct (HN j n Hj) as (x & Hx & E). exists x. split; [exact Hx|].
        rewrite N3, N2. replace (Nat.eqb n (length h)) with false
          by (apply nth_error_In in Hj; apply Hlt in Hj; lia).
        replace (Nat.eqb (S j) (length ids + 1)) with false by lia.
        destruct (Nat.eq_dec j (length ids - 1)) as [Ej|Ej].
        -- subst j. assert (n = b) by (unfold b; symmetry; apply nth_error_nth; exact Hj). subst n.
           rewrite Nat.eqb_refl. f_equal.
           assert (eb = x) by congruence. subst x.
           f_equal. rewrite app_nth2 by lia. replace (S (length ids - 1) - length ids) with 0 by lia. reflexivity.
        -- destruct (Nat.eqb n b) eqn:D.
           { exfalso. apply Nat.eqb_eq in D. subst n. apply Ej.
             apply (proj1 (NoDup_nth_error ids) ND); [exact C|].
             rewrite Hj. symmetry. apply nth_nth_error. lia. }
           rewrite nth_error_app1 by (apply nth_error_In in Hj; apply Hlt in Hj; lia).
           rewrite E. replace (Nat.eqb (S j) (length ids)) with false by lia.
           rewrite app_nth1 by lia. reflexivity.
      * assert (j = length ids).
        { assert (Hn0 : j < length (ids ++ [length h])) by (apply nth_error_Some; congruence).
          rewrite app_length in Hn0. simpl in Hn0. lia. }
        subst j. rewrite nth_error_app2, Nat.sub_diag in Hj by lia. injection Hj as <-.
        exists e. rewrite nth_error_app2 by lia. replace (length ids - length es) with 0 by lia.
        split; [reflexivity|]. rewrite N3, N2.
        replace (Nat.eqb (length h) b) with false by lia. rewrite Nat.eqb_refl.
        replace (Nat.eqb (S (length ids)) (length ids + 1)) with true by lia.
        rewrite app_nth1 by lia. f_equal. f_equal. lia.
    + lia.
    + intros m Hm Hni. rewrite N3, N2.
      assert (m <> b) by (intros ->; apply Hni; unfold b; apply nth_In; lia).
      replace (Nat.eqb m b) with false by lia. replace (Nat.eqb m (length h)) with false by lia.
      rewrite nth_error_app1 by lia. reflexivity.
Qed.

Lemma rep_frame h h' ids es : rep h ids es ->
  (forall m, In m ids -> nth_error h' m = nth_error h m) -> rep h' ids es.
Proof.
  intros (HL & ND & HN) H. split; [exact HL|]. split; [exact ND|].
  intros k n Hk. destruct (HN k n Hk) as (e & He & E). exists e. split; [exact He|].
  rewrite H; [exact E|]. apply nth_error_In in Hk. exact Hk.
Qed.

(** Elements appended to list [l] by a program, in order. *)
Fixpoint appended (l : nat) (ops : list (op A)) : list A :=
  match ops with
  | [] => []
  | Snoc l' _ e :: r => if Nat.eqb l' l then e :: appended l r else appended l r
  end.

Definition all_rep h (hs : handles) (es : nat -> list A) : Prop :=
  (forall l, rep h (hs l) (es l)) /\
  (forall l n, In n (hs l) -> n < length h) /\
  (forall l l' n, l <> l' -> In n (hs l) -> ~ In n (hs l')).

Lemma run_ok : forall ops h hs (es : nat -> list A), all_rep h hs es ->
  exists hs' h', run ops hs h = Some (hs', h') /\
    all_rep h' hs' (fun l => es l ++ appended l ops).
Proof.
  induction ops as [|[l k e] ops IH]; intros h hs es (HR & HB & HD); cbn [run appended].
  - exists hs, h. split; [reflexivity|].
    split; [|split; assumption]. intros l. rewrite app_nil_r. apply HR.
  - destruct (snoc_ok h (hs l) (es l) k e (HR l)) as (h1 & E1 & R1 & L1 & F1).
    rewrite E1. cbn [obind].
    assert (HA : all_rep h1 (upd hs l (hs l ++ [length h]))
                   (fun l' => if Nat.eqb l' l then es l ++ [e] else es l')).
    { split; [|split].
      - intros l'. unfold upd. destruct (Nat.eqb l' l) eqn:C; [exact R1|].
        apply (rep_frame h); [apply HR|]. intros m Hm. apply F1; [apply (HB l'); exact Hm|].
        apply (HD l' l m); [lia|exact Hm].
      - intros l' n Hn. unfold upd in Hn. destruct (Nat.eqb l' l) eqn:C.
        + apply in_app_or in Hn. destruct Hn as [Hn|[Hn|[]]]; [apply HB in Hn|]; lia.
        + apply HB in Hn. lia.
      - intros l1 l2 n Hne Hn. unfold upd in *.
        destruct (Nat.eqb l1 l) eqn:C1; destruct (Nat.eqb l2 l) eqn:C2.
        + exfalso; lia.
        + apply in_app_or in Hn. destruct Hn as [Hn|[Hn|[]]].
          * apply (HD l l2 n); [lia|exact Hn].
          * intros Hq. apply HB in Hq. lia.
        + intros Hq. apply in_app_or in Hq. destruct Hq as [Hq|[Hq|[]]].
          * apply (HD l1 l n); [lia|exact Hn|exact Hq].
          * apply HB in Hn. lia.
        + apply (HD l1 l2 n Hne Hn). }
    destruct (IH h1 _ _ HA) as (hs' & h' & E2 & (R2 & B2 & D2)).
    exists hs', h'. split; [exact E2|]. split; [|split; assumption].
    intros l'. specialize (R2 l'). cbn beta in R2. rewrite Nat.eqb_sym.
    destruct (Nat.eqb l' l) eqn:C; [|exact R2].
    apply Nat.eqb_eq in C. subst l'. rewrite <- app_assoc in R2. exact R2.
Qed.

Lemma empty_rep : all_rep [] (fun _ => []) (fun _ => []).
Proof.
  split; [intros l; apply rep_nil|]. split; [intros l n []|intros l l' n _ []].
Qed.
End P.
