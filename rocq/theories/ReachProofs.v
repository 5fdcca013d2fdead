(** Worklist reachability: the common core of NFA::closure and
    DFA::eliminateUnarrivableStates. *)
From Coq Require Import List NArith Lia Bool PeanoNat ZifyBool ZifyN ZifyNat.
From Verif Require Import Base AutomatonModel AutomatonSpec CsetLaws ThompsonProofs.
Import ListNotations.

(** ** Bit lists *)
Lemma getb_setb b i j : i < length b -> getb (setb b i) j = Nat.eqb j i || getb b j.
Proof.
  intros H. unfold getb, setb. rewrite upd_nth. replace (i <? length b) with true by (symmetry; apply Nat.ltb_lt; exact H).
  rewrite andb_true_r. destruct (j =? i); reflexivity.
Qed.
Lemma setb_length b i : length (setb b i) = length b.
Proof. apply upd_length. Qed.
Lemma zeros_length n : length (zeros n) = n.
Proof. apply repeat_length. Qed.
Lemma getb_zeros n i : getb (zeros n) i = false.
Proof. unfold getb, zeros. revert i. induction n as [|n IH]; intros [|i]; cbn; auto. Qed.
Lemma getb_range b i : getb b i = true -> i < length b.
Proof. intros H. destruct (Nat.lt_ge_cases i (length b)) as [K|K]; [exact K|]. unfold getb in H. rewrite nth_overflow in H by exact K. discriminate H. Qed.
Lemma bits_ext a b : length a = length b -> (forall i, getb a i = getb b i) -> a = b.
Proof.
  intros H1 H2. apply (nth_ext a b false false H1). intros n _. apply H2.
Qed.
Lemma bits_eqb_iff a b : bits_eqb a b = true <-> a = b.
Proof. unfold bits_eqb. destruct (list_eq_dec bool_dec a b); split; congruence. Qed.
Lemma inb_In b l : inb b l = true <-> In b l.
Proof.
  unfold inb. rewrite existsb_exists. split.
  - intros (y & H1 & H2). apply bits_eqb_iff in H2. subst y. exact H1.
  - intros H. exists b. split; [exact H|]. apply bits_eqb_iff. reflexivity.
Qed.
Lemma ones_In b i : In i (ones b) <-> getb b i = true.
Proof.
  unfold ones. rewrite filter_In, in_seq. split; [tauto|]. intros H. split; [|exact H]. apply getb_range in H. lia.
Qed.
Definition cz (b : list bool) : nat := length (filter negb b).
Lemma cz_setb : forall b i, i < length b -> getb b i = false -> S (cz (setb b i)) = cz b.
Proof.
  unfold getb, setb, cz. induction b as [|x b IH]; intros [|i] H1 H2; cbn in *; try lia.
  - subst x. reflexivity.
  - destruct x; cbn; rewrite <- (IH i); auto; lia.
Qed.
Lemma ones_cz : forall b, length (ones b) + cz b = length b.
Proof.
  assert (G : forall b, length (filter (fun i => nth i b false) (seq 0 (length b))) + cz b = length b).
  { induction b as [|x b IH]; [reflexivity|]. cbn [length seq filter]. change (nth 0 (x :: b) false) with x.
    rewrite <- seq_shift. unfold cz in *.
    assert (E : forall l, length (filter (fun i => nth i (x :: b) false) (map S l)) = length (filter (fun i => nth i b false) l)).
    { induction l as [|y l IHl]; [reflexivity|]. cbn [map filter].
      change (nth (S y) (x :: b) false) with (nth y b false). destruct (nth y b false); cbn [length]; rewrite IHl; reflexivity. }
    destruct x; cbn [length filter negb]; rewrite E; cbn [length]; lia. }
  exact G.
Qed.

Section R.
Variable C : cset.
Notation cs := (car C).
Notation edge := (cs * nat)%type.
Notation row := (list edge).
Variable f : cs -> bool.

Fixpoint row_gen (r : row) (s : list bool) (todo : list nat) : list bool * list nat :=
  match r with
  | [] => (s, todo)
  | (c, t) :: r' => if f c && negb (getb s t) then row_gen r' (setb s t) (t :: todo) else row_gen r' s todo
  end.
Fixpoint loop_gen (fuel : nat) (rules : list row) (s : list bool) (todo : list nat) : option (list bool) :=
  match todo with
  | [] => Some s
  | x :: todo' =>
    match fuel with
    | O => None
    | S k => let '(s', t') := row_gen (nth x rules []) s todo' in loop_gen k rules s' t'
    end
  end.

Inductive reach (rules : list row) : nat -> nat -> Prop :=
| R_refl q : reach rules q q
| R_step q c t r : In (c, t) (nth q rules []) -> f c = true -> reach rules t r -> reach rules q r.
Lemma reach_snoc rules p q c t : reach rules p q -> In (c, t) (nth q rules []) -> f c = true -> reach rules p t.
Proof. induction 1 as [q|q c' t' r H1 H2 H3 IH]; intros K1 K2; [econstructor; eauto; constructor|econstructor; eauto]. Qed.

Lemma row_gen_ok : forall r s todo s' todo', (forall c t, In (c, t) r -> f c = true -> t < length s) ->
  row_gen r s todo = (s', todo') ->
  length s' = length s /\ length todo' + cz s' = length todo + cz s /\
  (forall q, getb s' q = true <-> getb s q = true \/ exists c, In (c, q) r /\ f c = true) /\
  (forall q, In q todo' <-> In q todo \/ (getb s' q = true /\ getb s q = false)).
Proof.
  induction r as [|[c t] r IH]; intros s todo s' todo' HR H; cbn [row_gen] in H.
  - injection H as <- <-. split; [reflexivity|]. split; [reflexivity|]. split.
    + intros q. split; [auto|]. intros [H|(c & [] & _)]. exact H.
    + intros q. split; [auto|]. intros [H|(H1 & H2)]; [exact H|congruence].
  - destruct (f c && negb (getb s t)) eqn:E.
    + apply andb_prop in E. destruct E as (E1 & E2). apply negb_true_iff in E2.
      assert (Ht : t < length s) by (apply (HR c t); [left; reflexivity|exact E1]).
      apply IH in H; [|intros c' t' H1 H2; rewrite setb_length; apply (HR c' t'); [right; exact H1|exact H2]].
      destruct H as (H1 & H2 & H3 & H4). rewrite setb_length in H1.
      pose proof (cz_setb s t Ht E2) as Z. cbn [length] in H2.
      split; [exact H1|]. split; [lia|]. split.
      * intros q. rewrite H3, getb_setb by exact Ht. rewrite orb_true_iff, Nat.eqb_eq. split.
        -- intros [[->|K]|(c' & K1 & K2)]; [right; exists c; split; [left; reflexivity|exact E1]|auto|].
           right. exists c'. split; [right; exact K1|exact K2].
        -- intros [K|(c' & [K1|K1] & K2)]; [auto|injection K1 as -> ->; auto|]. right. exists c'. auto.
      * intros q. rewrite H4, H3, getb_setb by exact Ht. cbn [In]. split.
        -- intros [[<-|K]|(K1 & K2)]; [|auto|].
           ++ right. split; [|exact E2]. left. rewrite Nat.eqb_refl. reflexivity.
           ++ apply orb_false_iff in K2. destruct K2 as (K2 & K3). right. split; [|exact K3]. exact K1.
        -- intros [K|(K1 & K2)]; [auto|]. destruct (Nat.eq_dec t q) as [N|N]; [auto|].
           right. split; [exact K1|]. rewrite K2, orb_false_r. apply Nat.eqb_neq. auto.
    + assert (HR' : forall c' t', In (c', t') r -> f c' = true -> t' < length s) by (intros c' t' H1; apply (HR c' t'); right; exact H1).
      destruct (IH _ _ _ _ HR' H) as (H1 & H2 & H3 & H4). split; [exact H1|]. split; [exact H2|]. split; [|exact H4].
      intros q. rewrite H3. split.
      * intros [K|(c' & K1 & K2)]; [auto|]. right. exists c'. split; [right; exact K1|exact K2].
      * intros [K|(c' & [K1|K1] & K2)]; [auto| |right; exists c'; auto].
        injection K1 as -> ->. rewrite K2 in E. cbn in E. apply negb_false_iff in E. left. exact E.
Qed.

Lemma loop_gen_ok : forall fuel rules s0 s todo,
  (forall i c t, In (c, t) (nth i rules []) -> f c = true -> t < length s) ->
  length todo + cz s <= fuel ->
  (forall q, getb s0 q = true -> getb s q = true) ->
  (forall q, getb s q = true -> exists p, getb s0 p = true /\ reach rules p q) ->
  (forall q, In q todo -> getb s q = true) ->
  (forall q c t, getb s q = true -> In (c, t) (nth q rules []) -> f c = true -> In q todo \/ getb s t = true) ->
  exists s', loop_gen fuel rules s todo = Some s' /\ length s' = length s /\
    forall q, getb s' q = true <-> exists p, getb s0 p = true /\ reach rules p q.
Proof.
  induction fuel as [|k IH]; intros rules s0 s todo HR Hf I0 I1 I2 I3.
  - destruct todo as [|x todo]; [|cbn in Hf; lia]. exists s. split; [reflexivity|]. split; [reflexivity|].
    intros q. split; [apply I1|]. intros (p & H1 & H2). apply I0 in H1.
    induction H2 as [q|q c t r K1 K2 K3 IHr]; [exact H1|]. apply IHr.
    destruct (I3 _ _ _ H1 K1 K2) as [[]|K]; exact K.
  - destruct todo as [|x todo].
    + exists s. split; [reflexivity|]. split; [reflexivity|].
      intros q. split; [apply I1|]. intros (p & H1 & H2). apply I0 in H1.
      induction H2 as [q|q c t r K1 K2 K3 IHr]; [exact H1|]. apply IHr.
      destruct (I3 _ _ _ H1 K1 K2) as [[]|K]; exact K.
    + cbn [loop_gen]. destruct (row_gen (nth x rules []) s todo) as [s' todo'] eqn:E.
      apply row_gen_ok in E; [|intros c t; apply HR]. destruct E as (E1 & E2 & E3 & E4).
      destruct (IH rules s0 s' todo') as (s'' & R1 & R2 & R3).
      * intros i c t. rewrite E1. apply HR.
      * cbn [length] in Hf. lia.
      * intros q Hq. apply E3. left. apply I0. exact Hq.
      * intros q Hq. apply E3 in Hq. destruct Hq as [Hq|(c & K1 & K2)]; [apply I1; exact Hq|].
        assert (Hx : getb s x = true) by (apply I2; left; reflexivity).
        destruct (I1 x Hx) as (p & P1 & P2). exists p. split; [exact P1|]. exact (reach_snoc _ _ _ _ _ P2 K1 K2).
      * intros q Hq. apply E4 in Hq. destruct Hq as [Hq|(Hq & _)]; [|exact Hq]. apply E3. left. apply I2. right. exact Hq.
      * intros q c t Hq K1 K2. destruct (getb s q) eqn:Q.
        -- destruct (I3 _ _ _ Q K1 K2) as [[->|K]|K].
           ++ right. apply E3. right. exists c. auto.
           ++ left. apply E4. left. exact K.
           ++ right. apply E3. left. exact K.
        -- left. apply E4. right. auto.
      * exists s''. split; [exact R1|]. split; [congruence|exact R3].
Qed.
End R.

Section S.
Variable C : cset.
Variable ok : car C -> Prop.
Hypothesis L : cs_laws C ok.

Lemma closure_row_gen : forall r s todo, closure_row C r s todo = row_gen C (c_eps C) r s todo.
Proof. induction r as [|[c t] r IH]; intros s todo; cbn; [reflexivity|]. rewrite !IH. reflexivity. Qed.
Lemma closure_loop_gen : forall fuel rules s todo, closure_loop C fuel rules s todo = loop_gen C (c_eps C) fuel rules s todo.
Proof.
  reflexivity.
Qed.
Lemma arrive_row_gen : forall r s todo, arrive_row C r s todo = row_gen C (fun _ => true) r s todo.
Proof. induction r as [|[c t] r IH]; intros s todo; cbn; [reflexivity|]. rewrite !IH. destruct (getb s t); reflexivity. Qed.
Lemma arrive_loop_gen : forall fuel rules s todo, arrive_loop C fuel rules s todo = loop_gen C (fun _ => true) fuel rules s todo.
Proof.
  induction fuel as [|k IH]; intros rules s [|x todo]; cbn; try reflexivity.
  rewrite arrive_row_gen. unfold rowof. destruct (row_gen C (fun _ => true) (nth x rules []) s todo). apply IH.
Qed.

Lemma reach_path (a : nfa C) p q : reach C (c_eps C) (nrules a) p q <-> path C (nedge C a) p [] q.
Proof.
  split.
  - induction 1 as [q|q c t r H1 H2 H3 IH]; [apply P_nil|eapply P_eps; eauto].
  - intros H. remember [] as w eqn:Ew. induction H as [q|q c t w r H1 H2 H3 IH|q c t x w r H1 H2 H3 H4 IH];
      [constructor|econstructor; eauto|discriminate Ew].
Qed.

Theorem closure_ok a s : wf_nfa C ok a -> length s = nst a ->
  exists s', closure C a s = Some s' /\ length s' = nst a /\
    forall q, getb s' q = true <-> exists p, getb s p = true /\ path C (nedge C a) p [] q.
Proof.
  intros W Hs. unfold closure. rewrite closure_loop_gen.
  destruct (loop_gen_ok C (c_eps C) (nst a) (nrules a) s s (rev (ones s))) as (s' & R1 & R2 & R3).
  - intros i c t H _. rewrite Hs. apply (wf_in C ok _ _ _ _ W H).
  - rewrite rev_length, ones_cz. lia.
  - auto.
  - intros q Hq. exists q. split; [exact Hq|constructor].
  - intros q Hq. apply in_rev in Hq. apply ones_In. exact Hq.
  - intros q c t Hq _ _. left. apply -> in_rev. apply ones_In. exact Hq.
  - exists s'. split; [exact R1|]. split; [congruence|]. intros q. rewrite R3.
    split; intros (p & H1 & H2); exists p; (split; [exact H1|]); apply reach_path; exact H2.
Qed.
End S.
