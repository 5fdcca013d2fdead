(** Correctness and termination of follow and of the subset construction. *)
From Coq Require Import List NArith Lia Bool PeanoNat ZifyBool ZifyN ZifyNat Permutation.
From Verif Require Import Base CharSetModel CharSetProofs AutomatonModel AutomatonSpec CsetLaws ThompsonProofs ReachProofs.
Import ListNotations.

Section F.
Variable C : cset.
Variable ok : car C -> Prop.
Hypothesis L : cs_laws C ok.
Notation cs := (car C).
Notation pentry := (cs * list bool)%type.
Notation path := (path C).
Notation nedge := (nedge C).
Notation wf := (wf_nfa C ok).

Lemma vecUnion_get : forall a b i, length a = length b -> getb (vecUnion a b) i = getb a i || getb b i.
Proof.
  unfold getb, vecUnion. induction a as [|x a IH]; intros [|y b] [|i] H; cbn in *; try reflexivity; try discriminate.
  apply IH. congruence.
Qed.
Lemma vecUnion_length a b : length a = length b -> length (vecUnion a b) = length a.
Proof. intros H. unfold vecUnion. rewrite map_length, combine_length. lia. Qed.

(** ** Splitting *)
Lemma upd_app_r {A} : forall (l m : list A) f x i, i = length l -> upd (l ++ x :: m) i f = l ++ f x :: m.
Proof. induction l as [|y l IH]; intros m f x i ->; cbn; [reflexivity|]. rewrite IH; reflexivity. Qed.
Lemma nth_mid {A} : forall (l m : list A) x d i, i = length l -> nth i (l ++ x :: m) d = x.
Proof. intros l m x d i ->. apply nth_middle. Qed.

Lemma find_j_spec e : forall l j, match find_j C e l j with
  | Some j' => exists A p B, l = A ++ p :: B /\ j' = j + length A /\ overlap C e p = true
  | None => Forall (fun p => overlap C e p = false) l end.
Proof.
  induction l as [|p l IH]; intros j; cbn [find_j]; [constructor|].
  destruct (overlap C e p) eqn:E.
  - exists [], p, l. cbn. split; [reflexivity|]. split; [lia|exact E].
  - specialize (IH (S j)). destruct (find_j C e l (S j)) as [j'|].
    + destruct IH as (A & q & B & -> & -> & H). exists (p :: A), q, B. cbn. split; [reflexivity|]. split; [lia|exact H].
    + constructor; assumption.
Qed.
Lemma find_ij_spec : forall after before i, i = length before ->
  ForallOrdPairs (fun p q => overlap C q p = false) before ->
  match find_ij C before after i with
  | Some (i', j') => exists A pj B pi D, before ++ after = A ++ pj :: B ++ pi :: D /\ j' = length A /\
      i' = length (A ++ pj :: B) /\ overlap C pi pj = true
  | None => ForallOrdPairs (fun p q => overlap C q p = false) (before ++ after)
  end.
Proof.
  induction after as [|e after IH]; intros before i Hi HO; cbn [find_ij]; [rewrite app_nil_r; exact HO|].
  pose proof (find_j_spec e before 0) as FS. destruct (find_j C e before 0) as [j|].
  - destruct FS as (A & p & B & -> & -> & H). exists A, p, B, e, after. rewrite <- app_assoc. cbn.
    split; [reflexivity|]. split; [reflexivity|]. split; [exact Hi|exact H].
  - specialize (IH (before ++ [e]) (S i)). rewrite <- app_assoc in IH. cbn [app] in IH. apply IH.
    + rewrite app_length. cbn. lia.
    + apply FOP_app; [exact HO|repeat constructor|]. intros x y Hx [<-|[]].
      rewrite Forall_forall in FS. apply FS. exact Hx.
Qed.

Definition extra (pi pj : pentry) : list pentry :=
  let inter := c_inter C (fst pi) (fst pj) in
  filter (fun e => negb (c_isempty C (fst e))) [(c_diff C (fst pi) inter, snd pi); (c_diff C (fst pj) inter, snd pj)].

Lemma perm2 {A} (x y : A) l m n : Permutation (l ++ x :: m ++ y :: n) (x :: y :: l ++ m ++ n).
Proof.
  etransitivity; [apply Permutation_sym, Permutation_middle|]. apply perm_skip.
  rewrite !app_assoc. apply Permutation_sym, Permutation_middle.
Qed.
Lemma split_perm d A pj B pi D :
  Permutation (split_at C d (A ++ pj :: B ++ pi :: D) (length (A ++ pj :: B)) (length A))
    ((c_inter C (fst pi) (fst pj), vecUnion (snd pi) (snd pj)) :: extra pi pj ++ A ++ B ++ D).
Proof.
  unfold split_at.
  replace (A ++ pj :: B ++ pi :: D) with ((A ++ pj :: B) ++ pi :: D) by (rewrite <- app_assoc; reflexivity).
  rewrite nth_mid by reflexivity. rewrite upd_app_r by reflexivity.
  rewrite <- (app_assoc A (pj :: B) (pi :: D)). cbn [app]. rewrite nth_mid by reflexivity.
  set (ni := (c_inter C (fst pi) (fst pj), vecUnion (snd pi) (snd pj))).
  rewrite <- (app_assoc A (pj :: B) (ni :: D)). cbn [app].
  rewrite !upd_app_r by reflexivity. unfold extra. cbn [filter fst].
  set (d1 := c_diff C (fst pi) (c_inter C (fst pi) (fst pj))).
  set (d2 := c_diff C (fst pj) (c_inter C (fst pi) (fst pj))).
  destruct (c_isempty C d1), (c_isempty C d2); cbn [negb app].
  - destruct D as [|z D _] using rev_ind.
    + replace (A ++ pj :: B ++ [ni]) with ((A ++ pj :: B) ++ [ni]) by (rewrite <- app_assoc; reflexivity).
      rewrite last_last. replace (A ++ ni :: B ++ [ni]) with ((A ++ ni :: B) ++ [ni]) by (rewrite <- app_assoc; reflexivity).
      rewrite removelast_last, app_nil_r. apply Permutation_sym, Permutation_middle.
    + replace (A ++ pj :: B ++ ni :: D ++ [z]) with ((A ++ pj :: B ++ ni :: D) ++ [z])
        by (rewrite <- !app_assoc; cbn; rewrite <- app_assoc; reflexivity).
      rewrite last_last. replace (A ++ z :: B ++ ni :: D ++ [z]) with ((A ++ z :: B ++ ni :: D) ++ [z])
        by (rewrite <- !app_assoc; cbn; rewrite <- app_assoc; reflexivity).
      rewrite removelast_last. etransitivity; [apply perm2|].
      etransitivity; [apply perm_swap|]. apply perm_skip. rewrite !app_assoc. apply Permutation_cons_append.
  - etransitivity; [apply perm2|]. apply perm_swap.
  - etransitivity; [apply perm2|]. apply perm_swap.
  - etransitivity; [apply Permutation_app_tail, perm2|]. cbn [app].
    etransitivity; [apply perm_swap|]. apply perm_skip, perm_skip. apply Permutation_sym, Permutation_cons_append.
Qed.

(** Invariant of the entries. *)
Definition good (n : nat) (p : pentry) : Prop := ok (fst p) /\ (c_eps C (fst p) = false -> length (snd p) = n).
(** [k] is a target of character [x]. *)
Definition target (l : list pentry) (x : N) (k : nat) : Prop :=
  exists c v, In (c, v) l /\ c_eps C c = false /\ c_acc C c x = true /\ getb v k = true.
Definition hits (l : list pentry) (x : N) : Prop :=
  exists c v, In (c, v) l /\ c_eps C c = false /\ c_acc C c x = true.

(** Number of characters of a set. *)
Definition card (c : cs) : nat := length (filter (c_acc C c) (below (c_size C))).
Definition weight (l : list pentry) : nat :=
  fold_right (fun p n => (if c_eps C (fst p) then 0 else card (fst p)) + n) 0 l.
Lemma weight_app l m : weight (l ++ m) = weight l + weight m.
Proof. unfold weight. induction l as [|p l IH]; cbn; lia. Qed.
Lemma weight_perm l m : Permutation l m -> weight l = weight m.
Proof. unfold weight. induction 1; cbn; lia. Qed.

Lemma card_split (p q r : N -> bool) (l : list N) : (forall x, In x l -> p x = (q x || r x) /\ (q x && r x) = false) ->
  length (filter p l) = length (filter q l) + length (filter r l).
Proof.
  induction l as [|x l IH]; intros H; [reflexivity|]. cbn.
  destruct (H x (or_introl eq_refl)) as (E1 & E2). rewrite E1.
  assert (IH' := IH (fun y Hy => H y (or_intror Hy))).
  destruct (q x), (r x); cbn in *; try discriminate; lia.
Qed.
Lemma card_pos c : ok c -> c_isempty C c = false -> 0 < card c.
Proof.
  intros K H. unfold card.
  destruct (filter (c_acc C c) (below (c_size C))) as [|x r] eqn:E; [|cbn; lia]. exfalso.
  assert (T : c_isempty C c = true); [|congruence].
  apply (l_empty _ _ L c K). intros x. destruct (c_acc C c x) eqn:A; [|reflexivity]. exfalso.
  assert (B : In x (filter (c_acc C c) (below (c_size C)))).
  { apply filter_In. split; [apply below_In; apply (l_bound _ _ L c); assumption|exact A]. }
  rewrite E in B. destruct B.
Qed.
Lemma card_empty c : ok c -> c_isempty C c = true -> card c = 0.
Proof.
  intros K H. pose proof (proj1 (l_empty _ _ L c K) H) as H'. unfold card.
  induction (below (c_size C)) as [|x l IH]; [reflexivity|]. cbn. rewrite H'. exact IH.
Qed.

Lemma overlap_inv p q : overlap C p q = true ->
  c_eps C (fst p) = false /\ c_eps C (fst q) = false /\ c_isempty C (c_inter C (fst p) (fst q)) = false.
Proof. unfold overlap. rewrite !andb_true_iff, !negb_true_iff. tauto. Qed.

Lemma split_ok n pi pj rest : good n pi -> good n pj -> Forall (good n) rest -> overlap C pi pj = true ->
  let new := (c_inter C (fst pi) (fst pj), vecUnion (snd pi) (snd pj)) :: extra pi pj ++ rest in
  let old := pi :: pj :: rest in
  Forall (good n) new /\ weight new < weight old /\
  (forall x k, target new x k <-> target old x k) /\ (forall x, hits new x <-> hits old x).
Proof.
  intros (Ki & Li) (Kj & Lj) Kr HO. apply overlap_inv in HO. destruct HO as (Ei & Ej & NE).
  specialize (Li Ei). specialize (Lj Ej).
  destruct (l_inter _ _ L _ _ Ki Kj Ei Ej) as (I1 & I2 & I3).
  set (inter := c_inter C (fst pi) (fst pj)) in *.
  destruct (l_diff _ _ L _ _ Ki I1 Ei I2) as (D1 & D2 & D3).
  destruct (l_diff _ _ L _ _ Kj I1 Ej I2) as (F1 & F2 & F3).
  destruct pi as [ci vi]. destruct pj as [cj vj]. cbn [fst snd] in *.
  assert (EX : forall c v, In (c, v) (extra (ci, vi) (cj, vj)) <->
    ((c, v) = (c_diff C ci inter, vi) \/ (c, v) = (c_diff C cj inter, vj)) /\ c_isempty C c = false).
  { intros c v. unfold extra. cbn [fst snd]. fold inter. rewrite filter_In. cbn [In]. rewrite negb_true_iff.
    split; intros (H & K); (split; [|exact K]); intuition congruence. }
  assert (GE : Forall (good n) (extra (ci, vi) (cj, vj))).
  { apply Forall_forall. intros [c v] H. apply EX in H. destruct H as ([H|H] & _); injection H as -> ->; split; cbn; auto. }
  cbn zeta. split; [|split; [|split]].
  - constructor.
    + split; [exact I1|]. intros _. cbn. rewrite vecUnion_length; congruence.
    + apply Forall_app. split; assumption.
  - cbn [weight fold_right fst]. fold (weight (extra (ci, vi) (cj, vj) ++ rest)). fold (weight rest).
    rewrite weight_app, I2, Ei, Ej.
    assert (W : weight (extra (ci, vi) (cj, vj)) = card (c_diff C ci inter) + card (c_diff C cj inter)).
    { unfold extra. cbn [fst snd]. fold inter. cbn [filter fst].
      destruct (c_isempty C (c_diff C ci inter)) eqn:Y1; destruct (c_isempty C (c_diff C cj inter)) eqn:Y2;
        unfold weight; cbn [negb fold_right fst]; rewrite ?D2, ?F2;
        rewrite ?(card_empty (c_diff C ci inter)) by assumption; rewrite ?(card_empty (c_diff C cj inter)) by assumption; lia. }
    rewrite W. pose proof (card_pos inter I1 NE) as P.
    assert (Ci : card ci = card inter + card (c_diff C ci inter)).
    { unfold card. apply card_split. intros x _. rewrite D3, I3. destruct (c_acc C ci x), (c_acc C cj x); auto. }
    assert (Cj : card cj = card inter + card (c_diff C cj inter)).
    { unfold card. apply card_split. intros x _. rewrite F3, I3. destruct (c_acc C ci x), (c_acc C cj x); auto. }
    lia.
  - intros x k. unfold target. split.
    + intros (c & v & [H|H] & H1 & H2 & H3).
      * injection H as <- <-. rewrite I3 in H2. apply andb_prop in H2. destruct H2 as (H2 & H2').
        rewrite vecUnion_get in H3 by congruence. apply orb_prop in H3. destruct H3 as [H3|H3].
        -- exists ci, vi. split; [left; reflexivity|]. auto.
        -- exists cj, vj. split; [right; left; reflexivity|]. auto.
      * apply in_app_iff in H. destruct H as [H|H].
        -- apply EX in H. destruct H as ([H|H] & _); injection H as -> ->.
           ++ rewrite D3 in H2. apply andb_prop in H2. exists ci, vi. split; [left; reflexivity|]. tauto.
           ++ rewrite F3 in H2. apply andb_prop in H2. exists cj, vj. split; [right; left; reflexivity|]. tauto.
        -- exists c, v. split; [right; right; exact H|]. auto.
    + intros (c & v & [H|[H|H]] & H1 & H2 & H3).
      * injection H as <- <-. destruct (c_acc C cj x) eqn:Y.
        -- exists inter, (vecUnion vi vj). split; [left; reflexivity|]. split; [exact I2|]. split; [rewrite I3, H2, Y; reflexivity|].
           rewrite vecUnion_get by congruence. rewrite H3. reflexivity.
        -- exists (c_diff C ci inter), vi. assert (Z : c_acc C (c_diff C ci inter) x = true) by (rewrite D3, I3, H2, Y; reflexivity).
           split; [|auto]. right. apply in_app_iff. left. apply EX. split; [left; reflexivity|].
           apply not_true_is_false. intros Q. rewrite (proj1 (l_empty _ _ L _ D1) Q) in Z. discriminate Z.
      * injection H as <- <-. destruct (c_acc C ci x) eqn:Y.
        -- exists inter, (vecUnion vi vj). split; [left; reflexivity|]. split; [exact I2|]. split; [rewrite I3, H2, Y; reflexivity|].
           rewrite vecUnion_get by congruence. rewrite H3. apply orb_true_r.
        -- exists (c_diff C cj inter), vj. assert (Z : c_acc C (c_diff C cj inter) x = true) by (rewrite F3, I3, H2, Y; reflexivity).
           split; [|auto]. right. apply in_app_iff. left. apply EX. split; [right; reflexivity|].
           apply not_true_is_false. intros Q. rewrite (proj1 (l_empty _ _ L _ F1) Q) in Z. discriminate Z.
      * exists c, v. split; [right; apply in_app_iff; right; exact H|]. auto.
  - intros x. unfold hits. split.
    + intros (c & v & [H|H] & H1 & H2).
      * injection H as <- <-. rewrite I3 in H2. apply andb_prop in H2. exists ci, vi. split; [left; reflexivity|]. tauto.
      * apply in_app_iff in H. destruct H as [H|H].
        -- apply EX in H. destruct H as ([H|H] & _); injection H as -> ->.
           ++ rewrite D3 in H2. apply andb_prop in H2. exists ci, vi. split; [left; reflexivity|]. tauto.
           ++ rewrite F3 in H2. apply andb_prop in H2. exists cj, vj. split; [right; left; reflexivity|]. tauto.
        -- exists c, v. split; [right; right; exact H|]. auto.
    + intros (c & v & [H|[H|H]] & H1 & H2).
      * injection H as <- <-. destruct (c_acc C cj x) eqn:Y.
        -- exists inter, (vecUnion vi vj). split; [left; reflexivity|]. split; [exact I2|]. rewrite I3, H2, Y. reflexivity.
        -- exists (c_diff C ci inter), vi. assert (Z : c_acc C (c_diff C ci inter) x = true) by (rewrite D3, I3, H2, Y; reflexivity).
           split; [|auto]. right. apply in_app_iff. left. apply EX. split; [left; reflexivity|].
           apply not_true_is_false. intros Q. rewrite (proj1 (l_empty _ _ L _ D1) Q) in Z. discriminate Z.
      * injection H as <- <-. destruct (c_acc C ci x) eqn:Y.
        -- exists inter, (vecUnion vi vj). split; [left; reflexivity|]. split; [exact I2|]. rewrite I3, H2, Y. reflexivity.
        -- exists (c_diff C cj inter), vj. assert (Z : c_acc C (c_diff C cj inter) x = true) by (rewrite F3, I3, H2, Y; reflexivity).
           split; [|auto]. right. apply in_app_iff. left. apply EX. split; [right; reflexivity|].
           apply not_true_is_false. intros Q. rewrite (proj1 (l_empty _ _ L _ F1) Q) in Z. discriminate Z.
      * exists c, v. split; [right; apply in_app_iff; right; exact H|]. auto.
Qed.

Lemma target_perm l m x k : Permutation l m -> target l x k -> target m x k.
Proof. intros P (c & v & H & K). exists c, v. split; [exact (Permutation_in _ P H)|exact K]. Qed.
Lemma hits_perm l m x : Permutation l m -> hits l x -> hits m x.
Proof. intros P (c & v & H & K). exists c, v. split; [exact (Permutation_in _ P H)|exact K]. Qed.

(** Partial correctness. *)
Lemma split_loop_ok n : forall fuel pr r, Forall (good n) pr -> split_loop C fuel pr = Some r ->
  Forall (good n) r /\ (forall x k, target r x k <-> target pr x k) /\ (forall x, hits r x <-> hits pr x) /\
  ForallOrdPairs (fun p q => overlap C q p = false) r.
Proof.
  induction fuel as [|f IH]; intros pr r HG H; cbn [split_loop] in H;
    pose proof (find_ij_spec pr [] 0 eq_refl (FOP_nil _)) as S; cbn [app] in S.
  - destruct (find_ij C [] pr 0) as [[i j]|]; [discriminate H|]. injection H as <-.
    split; [exact HG|]. split; [tauto|]. split; [tauto|exact S].
  - destruct (find_ij C [] pr 0) as [[i j]|].
    + destruct S as (A & pj & B & pi & D & -> & -> & -> & HO).
      pose proof (split_perm (c_epsset C, []) A pj B pi D) as P.
      assert (G : good n pi /\ good n pj /\ Forall (good n) (A ++ B ++ D)).
      { rewrite !Forall_app in *. destruct HG as (G1 & G2). inversion G2 as [|? ? G3 G4]; subst.
        apply Forall_app in G4. destruct G4 as (G4 & G5). inversion G5; subst. tauto. }
      destruct G as (Gi & Gj & Gr).
      destruct (split_ok n pi pj (A ++ B ++ D) Gi Gj Gr HO) as (Q1 & Q2 & Q3 & Q4).
      apply IH in H.
      * destruct H as (H1 & H2 & H3 & H4). split; [exact H1|].
        assert (PO : Permutation (A ++ pj :: B ++ pi :: D) (pi :: pj :: A ++ B ++ D)).
        { etransitivity; [apply Permutation_sym, Permutation_middle|].
          etransitivity; [apply perm_skip; rewrite app_assoc; apply Permutation_sym, Permutation_middle|].
          rewrite <- app_assoc. apply perm_swap. }
        split; [|split; [|exact H4]].
        -- intros x k. rewrite H2. split; intros T.
           ++ apply (target_perm _ _ x k P) in T. apply Q3 in T. exact (target_perm _ _ x k (Permutation_sym PO) T).
           ++ apply (target_perm _ _ x k PO) in T. apply Q3 in T. exact (target_perm _ _ x k (Permutation_sym P) T).
        -- intros x. rewrite H3. split; intros T.
           ++ apply (hits_perm _ _ x P) in T. apply Q4 in T. exact (hits_perm _ _ x (Permutation_sym PO) T).
           ++ apply (hits_perm _ _ x PO) in T. apply Q4 in T. exact (hits_perm _ _ x (Permutation_sym P) T).
      * eapply Permutation_Forall; [apply Permutation_sym; exact P|exact Q1].
    + injection H as <-. split; [exact HG|]. split; [tauto|]. split; [tauto|exact S].
Qed.

(** Termination. *)
Lemma split_loop_total n : forall fuel pr, Forall (good n) pr -> weight pr <= fuel -> split_loop C fuel pr <> None.
Proof.
  induction fuel as [|f IH]; intros pr HG HW; cbn [split_loop];
    pose proof (find_ij_spec pr [] 0 eq_refl (FOP_nil _)) as S; cbn [app] in S;
    (destruct (find_ij C [] pr 0) as [[i j]|]; [|discriminate]);
    destruct S as (A & pj & B & pi & D & -> & -> & -> & HO);
    pose proof (split_perm (c_epsset C, []) A pj B pi D) as P;
    (assert (G : good n pi /\ good n pj /\ Forall (good n) (A ++ B ++ D));
     [rewrite !Forall_app in *; destruct HG as (G1 & G2); inversion G2 as [|? ? G3 G4]; subst;
      apply Forall_app in G4; destruct G4 as (G4 & G5); inversion G5; subst; tauto|]);
    destruct G as (Gi & Gj & Gr);
    destruct (split_ok n pi pj (A ++ B ++ D) Gi Gj Gr HO) as (Q1 & Q2 & _ & _);
    (assert (PO : Permutation (A ++ pj :: B ++ pi :: D) (pi :: pj :: A ++ B ++ D));
     [etransitivity; [apply Permutation_sym, Permutation_middle|];
      etransitivity; [apply perm_skip; rewrite app_assoc; apply Permutation_sym, Permutation_middle|];
      rewrite <- app_assoc; apply perm_swap|]);
    rewrite (weight_perm _ _ PO) in HW.
  - lia.
  - apply IH.
    + eapply Permutation_Forall; [apply Permutation_sym; exact P|exact Q1].
    + rewrite (weight_perm _ _ P). lia.
Qed.

(** ** follow *)
Definition step_to (a : nfa C) (s : list bool) (x : N) (k : nat) : Prop :=
  exists p c, getb s p = true /\ nedge a p c k /\ c_eps C c = false /\ c_acc C c x = true.

Lemma follow_init_good a s : wf a -> Forall (good (nst a)) (follow_init C a s).
Proof.
  intros W. unfold follow_init. apply Forall_app. split.
  - apply Forall_forall. intros p H. apply repeat_spec in H. subst p. split; cbn; [apply (ok_epsset C ok L)|].
    rewrite (eps_epsset C ok L). discriminate.
  - apply Forall_forall. intros p H. apply in_flat_map in H. destruct H as (i & _ & H).
    apply in_map_iff in H. destruct H as ([c t] & <- & H). split; cbn [fst snd].
    + apply (wf_in C ok _ _ _ _ W H).
    + intros _. rewrite setb_length. apply zeros_length.
Qed.
Lemma follow_init_target a s x k : wf a -> (target (follow_init C a s) x k <-> step_to a s x k).
Proof.
  intros W. unfold target, step_to, follow_init. split.
  - intros (c & v & H & H1 & H2 & H3). apply in_app_iff in H. destruct H as [H|H].
    + apply repeat_spec in H. injection H as -> ->. rewrite (eps_epsset C ok L) in H1. discriminate H1.
    + apply in_flat_map in H. destruct H as (i & Hi & H). apply ones_In in Hi.
      apply in_map_iff in H. destruct H as ([c' t] & E & H). cbn in E. injection E as -> <-.
      pose proof (wf_in C ok _ _ _ _ W H) as B.
      rewrite getb_setb in H3 by (rewrite zeros_length; lia). rewrite getb_zeros, orb_false_r in H3.
      apply Nat.eqb_eq in H3. subst t. exists i, c. auto.
  - intros (p & c & H1 & H2 & H3 & H4). pose proof (wf_in C ok _ _ _ _ W H2) as B.
    exists c, (setb (zeros (nst a)) k). split; [|split; [exact H3|split; [exact H4|]]].
    + apply in_app_iff. right. apply in_flat_map. exists p. split; [apply ones_In; exact H1|].
      apply in_map_iff. exists (c, k). auto.
    + rewrite getb_setb by (rewrite zeros_length; lia). rewrite Nat.eqb_refl. reflexivity.
Qed.
Lemma follow_init_hits a s x : wf a -> (hits (follow_init C a s) x <-> exists k, step_to a s x k).
Proof.
  intros W. unfold hits, step_to, follow_init. split.
  - intros (c & v & H & H1 & H2). apply in_app_iff in H. destruct H as [H|H].
    + apply repeat_spec in H. injection H as -> ->. rewrite (eps_epsset C ok L) in H1. discriminate H1.
    + apply in_flat_map in H. destruct H as (i & Hi & H). apply ones_In in Hi.
      apply in_map_iff in H. destruct H as ([c' t] & E & H). cbn in E. injection E as -> <-. exists t, i, c. auto.
  - intros (k & p & c & H1 & H2 & H3 & H4).
    exists c, (setb (zeros (nst a)) k). split; [|auto].
    apply in_app_iff. right. apply in_flat_map. exists p. split; [apply ones_In; exact H1|].
    apply in_map_iff. exists (c, k). auto.
Qed.

Definition closed (a : nfa C) (s : list bool) : Prop :=
  forall p q, getb s p = true -> path (nedge a) p [] q -> getb s q = true.
Lemma closure_closed a s n : wf a -> length s = nst a -> closure C a s = Some n -> closed a n.
Proof.
  intros W Hs H. destruct (closure_ok C ok a s W Hs) as (n' & N1 & _ & N3). rewrite H in N1. injection N1 as <-.
  intros p q Hp Hq. apply N3 in Hp. destruct Hp as (p0 & P1 & P2). apply N3. exists p0. split; [exact P1|].
  apply (path_app C _ _ [] _ P2 [] _ Hq).
Qed.
(** What the transitions of a state set have to satisfy. *)
Definition trans (a : nfa C) (s : list bool) (es : list pentry) : Prop :=
  (forall c n, In (c, n) es -> ok c /\ c_eps C c = false /\ length n = nst a /\ closed a n) /\
  (forall x, (exists c n, In (c, n) es /\ c_acc C c x = true) <-> exists k, step_to a s x k) /\
  (forall c n x, In (c, n) es -> c_acc C c x = true ->
     forall q, getb n q = true <-> exists k, step_to a s x k /\ path (nedge a) k [] q).

Lemma close_all_ok a : wf a -> forall l, Forall (good (nst a)) l ->
  exists es, close_all C a l = Some es /\
    forall c n, In (c, n) es <-> exists v, In (c, v) l /\ c_eps C c = false /\ closure C a v = Some n.
Proof.
  intros W. induction l as [|[c v] l IH]; intros HG; cbn [close_all].
  - exists []. split; [reflexivity|]. intros c n. split; [intros []|intros (v & [] & _)].
  - inversion HG as [|? ? (G1 & G2) G3]; subst. cbn [fst snd] in *. destruct (IH G3) as (es & E & H).
    destruct (c_eps C c) eqn:Ec.
    + exists es. split; [exact E|]. intros c' n'. rewrite H. split.
      * intros (v' & K & K'). exists v'. split; [right; exact K|exact K'].
      * intros (v' & [K|K] & K1 & K2); [injection K as -> ->; congruence|exists v'; auto].
    + destruct (closure_ok C ok a v W (G2 eq_refl)) as (n & N1 & N2 & N3).
      rewrite N1, E. cbn [obind]. eexists. split; [reflexivity|]. intros c' n'. cbn [In]. rewrite H. split.
      * intros [K|(v' & K & K')]; [injection K as <- <-; exists v; auto|exists v'; split; [right; exact K|exact K']].
      * intros (v' & [K|K] & K1 & K2); [injection K as -> ->; left; congruence|right; exists v'; auto].
Qed.

Theorem follow_trans fuel a s fo es : wf a -> follow C fuel a s = Some fo -> close_all C a fo = Some es -> trans a s es.
Proof.
  intros W F Ce. unfold follow in F.
  destruct (split_loop_ok (nst a) _ _ _ (follow_init_good a s W) F) as (G & T & H & O).
  destruct (close_all_ok a W fo G) as (es' & E' & CA). rewrite Ce in E'. injection E' as <-.
  assert (LK : forall c v, In (c, v) fo -> c_eps C c = false -> length v = nst a).
  { intros c v K1 K2. rewrite Forall_forall in G. destruct (G _ K1) as (_ & K3). apply K3. exact K2. }
  split; [|split].
  - intros c n K. apply CA in K. destruct K as (v & K1 & K2 & K3).
    destruct (closure_ok C ok a v W (LK _ _ K1 K2)) as (n' & N1 & N2 & _).
    rewrite K3 in N1. injection N1 as <-. rewrite Forall_forall in G. destruct (G _ K1) as (G1 & _).
    pose proof (closure_closed a v n W (LK _ _ K1 K2) K3). auto.
  - intros x. rewrite <- follow_init_hits by exact W. rewrite <- H. unfold hits. split.
    + intros (c & n & K1 & K2). apply CA in K1. destruct K1 as (v & K1 & K3 & _). exists c, v. auto.
    + intros (c & v & K1 & K2 & K3). destruct (closure_ok C ok a v W (LK _ _ K1 K2)) as (n & N1 & _).
      exists c, n. split; [apply CA; exists v; auto|exact K3].
  - intros c n x K1 K2 q. apply CA in K1. destruct K1 as (v & K1 & K3 & K4).
    destruct (closure_ok C ok a v W (LK _ _ K1 K3)) as (n' & N1 & N2 & N3).
    rewrite K4 in N1. injection N1 as <-. rewrite N3.
    assert (U : forall k, getb v k = true <-> step_to a s x k).
    { intros k. rewrite <- follow_init_target by exact W. rewrite <- T. unfold target. split.
      - intros Hk. exists c, v. auto.
      - intros (c' & v' & M1 & M2 & M3 & M4).
        assert (Q : (c', v') = (c, v)); [|injection Q as -> ->; exact M4].
        destruct (in_split _ _ K1) as (l1 & l2 & El). rewrite El in M1, O.
        apply in_app_iff in M1. destruct M1 as [M1|[M1|M1]]; [|congruence|].
        + exfalso. apply in_split in M1. destruct M1 as (l3 & l4 & ->).
          rewrite <- app_assoc in O. cbn in O.
          assert (B : overlap C (c, v) (c', v') = false).
          { apply (FOP_nth _ _ (length l3) (length l3 + S (length l4)) (c', v') (c, v)) in O; [exact O|lia| |].
            - rewrite nth_error_app2 by lia. rewrite Nat.sub_diag. reflexivity.
            - rewrite nth_error_app2 by lia. replace (length l3 + S (length l4) - length l3) with (S (length l4)) by lia.
              cbn. rewrite nth_error_app2 by lia. rewrite Nat.sub_diag. reflexivity. }
          unfold overlap in B. cbn [fst] in B. rewrite K3, M2 in B. cbn in B. apply negb_false_iff in B.
          assert (Z : ok c /\ ok c').
          { rewrite Forall_forall in G. split; [apply (G (c, v)); exact K1|].
            apply (G (c', v')). rewrite El. apply in_app_iff. left. apply in_elt. }
          destruct Z as (Z1 & Z2). destruct (l_inter _ _ L _ _ Z1 Z2 K3 M2) as (Z3 & _ & Z4).
          pose proof (proj1 (l_empty _ _ L _ Z3) B x) as Z5. rewrite Z4, K2, M3 in Z5. discriminate Z5.
        + exfalso. pose proof M1 as M1'. apply in_split in M1. destruct M1 as (l3 & l4 & ->).
          assert (B : overlap C (c', v') (c, v) = false).
          { apply (FOP_nth _ _ (length l1) (length l1 + S (length l3)) (c, v) (c', v')) in O; [exact O|lia| |].
            - rewrite nth_error_app2 by lia. rewrite Nat.sub_diag. reflexivity.
            - rewrite nth_error_app2 by lia. replace (length l1 + S (length l3) - length l1) with (S (length l3)) by lia.
              cbn. rewrite nth_error_app2 by lia. rewrite Nat.sub_diag. reflexivity. }
          unfold overlap in B. cbn [fst] in B. rewrite K3, M2 in B. cbn in B. apply negb_false_iff in B.
          assert (Z : ok c /\ ok c').
          { rewrite Forall_forall in G. split; [apply (G (c, v)); exact K1|].
            apply (G (c', v')). rewrite El. apply in_app_iff. right. right. exact M1'. }
          destruct Z as (Z1 & Z2). destruct (l_inter _ _ L _ _ Z2 Z1 M2 K3) as (Z3 & _ & Z4).
          pose proof (proj1 (l_empty _ _ L _ Z3) B x) as Z5. rewrite Z4, K2, M3 in Z5. discriminate Z5. }
    split; intros (k & H1 & H2); exists k; (split; [apply U; exact H1|exact H2]).
Qed.
End F.
