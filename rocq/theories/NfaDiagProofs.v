(** Proofs about the diagnoses of automata. *)
From Coq Require Import List NArith ZArith Lia Bool PeanoNat ZifyBool ZifyN ZifyNat.
From Verif Require Import Base AutomatonModel AutomatonSpec CsetLaws ThompsonProofs ReachProofs NfaDiagModel.
Import ListNotations.

Section D.
Variable C : cset.
Variable ok : car C -> Prop.
Variable L : cs_laws C ok.
Notation cs := (car C).
Notation row := (list (cs * nat)).
Notation wf := (wf_nfa C ok).
Notation nedge := (AutomatonSpec.nedge C).
Notation path := (AutomatonSpec.path C).

(** ** Search for an accepting state *)
Section F.
Variable f : cs -> bool.
Fixpoint find_gen (fuel : nat) (a : nfa C) (vis : list bool) (todo : list nat) : option bool :=
  match todo with
  | [] => Some false
  | x :: todo' =>
    match fuel with
    | O => None
    | S k =>
      if Nat.leb (naccept a) x then Some true
      else let '(v, t) := row_gen C f (nth x (nrules a) []) vis todo' in find_gen k a v t
    end
  end.

Lemma find_gen_ok (a : nfa C) : forall fuel s todo,
  (forall i c t, In (c, t) (nth i (nrules a) []) -> t < length s) ->
  length todo + cz s <= fuel ->
  getb s 0 = true ->
  (forall q, getb s q = true -> reach C f (nrules a) 0 q) ->
  (forall q, In q todo -> getb s q = true) ->
  (forall q, getb s q = true -> ~ In q todo -> q < naccept a) ->
  (forall q c t, getb s q = true -> In (c, t) (nth q (nrules a) []) -> f c = true -> In q todo \/ getb s t = true) ->
  exists b, find_gen fuel a s todo = Some b /\
    (b = true <-> exists q, reach C f (nrules a) 0 q /\ naccept a <= q).
Proof.
  induction fuel as [|k IH]; intros s todo HR Hf I0 I1 I2 I4 I3.
  - destruct todo as [|x todo]; [|cbn in Hf; lia]. exists false. split; [reflexivity|].
    split; [discriminate|]. intros (q & H1 & H2). exfalso.
    assert (G : getb s q = true).
    { clear H2 Hf I1. revert I0. induction H1 as [q|q c t r K1 K2 K3 IHr]; intros G; [exact G|].
      apply IHr. destruct (I3 _ _ _ G K1 K2) as [[]|K]. exact K. }
    apply I4 in G; [lia|intros []].
  - destruct todo as [|x todo].
    + exists false. split; [reflexivity|].
      split; [discriminate|]. intros (q & H1 & H2). exfalso.
      assert (G : getb s q = true).
      { clear H2 I1 IH. revert I0. induction H1 as [q|q c t r K1 K2 K3 IHr]; intros G; [exact G|].
        apply IHr. destruct (I3 _ _ _ G K1 K2) as [[]|K]. exact K. }
      apply I4 in G; [lia|intros []].
    + cbn [find_gen]. destruct (Nat.leb_spec (naccept a) x) as [B|B].
      { exists true. split; [reflexivity|]. split; [|reflexivity]. intros _. exists x. split; [|exact B].
        apply I1, I2. left. reflexivity. }
      destruct (row_gen C f (nth x (nrules a) []) s todo) as [s' todo'] eqn:E.
      apply row_gen_ok in E; [|intros c t K _; apply (HR x c t K)]. destruct E as (E1 & E2 & E3 & E4).
      cbn [length] in Hf.
      apply IH.
      * intros i c t K. rewrite E1. apply (HR i c t K).
      * lia.
      * apply E3. left. exact I0.
      * intros q K. apply E3 in K. destruct K as [K|(c & K1 & K2)]; [apply I1; exact K|].
        apply (reach_snoc C f (nrules a) 0 x c q); [apply I1, I2; left; reflexivity|exact K1|exact K2].
      * intros q K. apply E4 in K. destruct K as [K|(K1 & K2)]; [|exact K1]. apply E3. left. apply I2. right. exact K.
      * intros q K N. destruct (getb s q) eqn:G; [|exfalso; apply N, E4; right; split; [exact K|exact G]].
        destruct (Nat.eq_dec x q) as [->|D]; [exact B|]. apply I4; [exact G|]. intros [X|X]; [congruence|]. apply N, E4. left. exact X.
      * intros q c t K1 K2 K3. destruct (getb s q) eqn:G.
        -- destruct (Nat.eq_dec x q) as [->|D].
           ++ right. apply E3. right. exists c. split; [exact K2|exact K3].
           ++ destruct (I3 q c t G K2 K3) as [[X|X]|X]; [congruence|left; apply E4; left; exact X|right; apply E3; left; exact X].
        -- left. apply E4. right. split; [exact K1|exact G].
Qed.

Lemma find_gen_start a : wf a -> exists b, find_gen (nst a) a (setb (zeros (nst a)) 0) [0] = Some b /\
  (b = true <-> exists q, reach C f (nrules a) 0 q /\ naccept a <= q).
Proof.
  intros W. pose proof W as (A1 & A2 & A3 & A4).
  assert (ZL : length (zeros (nst a)) = nst a) by apply zeros_length.
  assert (G : forall q, getb (setb (zeros (nst a)) 0) q = true <-> q = 0).
  { intros q. rewrite getb_setb by lia. rewrite getb_zeros, orb_false_r. apply Nat.eqb_eq. }
  apply find_gen_ok.
  - intros i c t K. rewrite setb_length, ZL. apply (A4 i c t K).
  - pose proof (cz_setb (zeros (nst a)) 0 ltac:(lia) (getb_zeros _ _)) as Z. cbn [length].
    pose proof (ones_cz (zeros (nst a))) as Y. lia.
  - apply G. reflexivity.
  - intros q K. apply G in K. subst q. constructor.
  - intros q [<-|[]]. apply G. reflexivity.
  - intros q K N. apply G in K. subst q. exfalso. apply N. left. reflexivity.
  - intros q c t K _ _. apply G in K. subst q. left. left. reflexivity.
Qed.
End F.

Lemma eps_row_gen : forall r s todo, eps_row C r s todo = row_gen C (c_eps C) r s todo.
Proof. induction r as [|[c t] r IH]; intros s todo; [reflexivity|]. cbn [eps_row row_gen]. rewrite !IH. reflexivity. Qed.
Lemma eps_loop_gen a : forall fuel s todo, eps_loop C fuel a s todo = find_gen (c_eps C) fuel a s todo.
Proof.
  induction fuel as [|k IH]; intros s [|x todo]; reflexivity.
Qed.
Lemma any_row_gen : forall r s todo, any_row C r s todo = row_gen C (fun _ => true) r s todo.
Proof. induction r as [|[c t] r IH]; intros s todo; [reflexivity|]. cbn [any_row row_gen andb]. rewrite !IH. reflexivity. Qed.
Lemma empty_loop_gen a : forall fuel s todo, empty_loop C fuel a s todo = option_map negb (find_gen (fun _ => true) fuel a s todo).
Proof.
  induction fuel as [|k IH]; intros s [|x todo]; try reflexivity. cbn [empty_loop find_gen]. unfold rowof. rewrite any_row_gen.
  destruct (row_gen C (fun _ => true) (nth x (nrules a) []) s todo) as [v t]. rewrite IH. destruct (naccept a <=? x); reflexivity.
Qed.

Lemma reach_bound f a q : wf a -> reach C f (nrules a) 0 q -> q < nst a.
Proof.
  intros W. pose proof W as (A1 & A2 & A3 & A4).
  assert (G : forall p, reach C f (nrules a) p q -> p < nst a -> q < nst a).
  { intros p. induction 1 as [q|q c t r K1 K2 K3 IH]; intros B; [exact B|]. apply IH. apply (A4 _ _ _ K1). }
  intros R. apply (G 0); assumption.
Qed.

Theorem acceptsEpsilon_ok a : wf a -> exists b, acceptsEpsilon C a = Some b /\ (b = true <-> lang C a []).
Proof.
  intros W. unfold acceptsEpsilon. rewrite eps_loop_gen.
  destruct (find_gen_start (c_eps C) a W) as (b & B1 & B2). exists b. split; [exact B1|]. rewrite B2. split.
  - intros (q & Q1 & Q2). pose proof (reach_bound _ a q W Q1) as Q3. exists (q - naccept a). unfold laccepts.
    replace (naccept a + (q - naccept a)) with q by lia. split; [exact Q3|]. apply reach_path. exact Q1.
  - intros (k & K1 & K2). exists (naccept a + k). split; [apply reach_path; exact K2|lia].
Qed.

(** No edge carries an empty set. *)
Definition no_empty_edge (a : nfa C) : Prop := forall q c t, nedge a q c t -> c_eps C c = false -> exists x, c_acc C c x = true.

Lemma path_reach_any (a : nfa C) p w q : path (nedge a) p w q -> reach C (fun _ => true) (nrules a) p q.
Proof. induction 1 as [q|q c t w r H1 H2 H3 IH|q c t x w r H1 H2 H3 H4 IH]; [constructor|apply (R_step C _ (nrules a) q c t r H1 eq_refl IH)|apply (R_step C _ (nrules a) q c t r H1 eq_refl IH)]. Qed.
Lemma reach_any_path (a : nfa C) p q : no_empty_edge a -> reach C (fun _ => true) (nrules a) p q -> exists w, path (nedge a) p w q.
Proof.
  intros T. induction 1 as [q|q c t r K1 K2 K3 (w & IH)]; [exists []; constructor|].
  destruct (c_eps C c) eqn:E.
  - exists w. eapply P_eps; eauto.
  - destruct (T q c t K1 E) as (x & X). exists (x :: w). eapply P_chr; eauto.
Qed.

(** The graph fact, without any assumption. *)
Lemma isEmpty_graph a : wf a -> exists b, isEmpty C a = Some b /\
  (b = true <-> ~ exists q, reach C (fun _ => true) (nrules a) 0 q /\ naccept a <= q).
Proof.
  intros W. unfold isEmpty. rewrite empty_loop_gen.
  destruct (find_gen_start (fun _ => true) a W) as (b & B1 & B2). rewrite B1. exists (negb b). split; [reflexivity|].
  rewrite <- B2. destruct b; cbn; split; congruence.
Qed.
Theorem isEmpty_sound a w : wf a -> isEmpty C a = Some true -> ~ lang C a w.
Proof.
  intros W H (k & K1 & K2). destruct (isEmpty_graph a W) as (b & B1 & B2). rewrite H in B1. injection B1 as <-.
  apply (proj1 B2 eq_refl). exists (naccept a + k). split; [apply path_reach_any in K2; exact K2|lia].
Qed.
Theorem isEmpty_ok a : wf a -> no_empty_edge a -> exists b, isEmpty C a = Some b /\ (b = true <-> forall w, ~ lang C a w).
Proof.
  intros W T. destruct (isEmpty_graph a W) as (b & B1 & B2). exists b. split; [exact B1|]. rewrite B2. split.
  - intros H w (k & K1 & K2). apply H. exists (naccept a + k). split; [apply path_reach_any in K2; exact K2|lia].
  - intros H (q & Q1 & Q2). pose proof (reach_bound _ a q W Q1) as Q3.
    destruct (reach_any_path a 0 q T Q1) as (w & P). apply (H w). exists (q - naccept a). unfold laccepts.
    replace (naccept a + (q - naccept a)) with q by lia. split; [exact Q3|exact P].
Qed.

(** ** minLength *)
Inductive cost (a : nfa C) : nat -> nat -> Prop :=
| cost0 : cost a 0 0
| cost_eps p k c t : cost a p k -> nedge a p c t -> c_eps C c = true -> cost a t k
| cost_chr p k c t : cost a p k -> nedge a p c t -> c_eps C c = false -> cost a t (S k).
(** [p] can be reached from the start without going through [q]. *)
Inductive avoid (a : nfa C) (q : nat) : nat -> Prop :=
| avoid0 : 0 <> q -> avoid a q 0
| avoid_step p c t : avoid a q p -> nedge a p c t -> t <> q -> avoid a q t.
(** If a state is entered by an epsilon edge and by a character edge, the
    latter is a back edge. *)
Definition layered (a : nfa C) : Prop :=
  forall p c q, nedge a p c q -> c_eps C c = false -> (exists r c', nedge a r c' q /\ c_eps C c' = true) -> ~ avoid a q p.

Lemma cost_path a q k : no_empty_edge a -> (cost a q k <-> exists w, length w = k /\ path (nedge a) 0 w q).
Proof.
  intros T. split.
  - induction 1 as [|p k c t H (w & W1 & W2) H1 H2|p k c t H (w & W1 & W2) H1 H2].
    + exists []. split; [reflexivity|constructor].
    + exists w. split; [exact W1|]. rewrite <- (app_nil_r w). eapply path_app; [exact W2|]. eapply P_eps; [exact H1|exact H2|constructor].
    + destruct (T p c t H1 H2) as (x & X). exists (w ++ [x]). split; [rewrite app_length; cbn; lia|].
      eapply path_app; [exact W2|]. eapply P_chr; [exact H1|exact H2|exact X|constructor].
  - intros (w & <- & P).
    assert (G : forall p w, path (nedge a) p w q -> forall k, cost a p k -> cost a q (k + length w)).
    { clear. intros p w. induction 1 as [q|q c t w r H1 H2 H3 IH|q c t x w r H1 H2 H3 H4 IH]; intros k K.
      - cbn. rewrite Nat.add_0_r. exact K.
      - apply IH. eapply cost_eps; eauto.
      - cbn [length]. rewrite Nat.add_succ_r. apply (IH (S k)). eapply cost_chr; eauto. }
    apply (G 0 w P 0). constructor.
Qed.

Section ML.
Variable a : nfa C.
Hypothesis W : wf a.
Hypothesis LY : layered a.

(** The loop invariant; [cur] is the state being processed, whose edges in
    [dn] have been looked at. *)
Record inv (vis : list bool) (t0 t1 : list nat) (len : nat) (cur : option nat) (dn : row) : Prop := {
  i_len : length vis = nst a;
  i_start : getb vis 0 = true;
  i_t0 : forall q, In q t0 -> getb vis q = true /\ cost a q len;
  i_t1 : forall q, In q t1 -> getb vis q = true /\ cost a q (S len) /\ forall k, k <= len -> ~ cost a q k;
  i_cur : forall q, cur = Some q -> getb vis q = true /\ cost a q len /\ q < naccept a;
  i_done : forall q c t, getb vis q = true -> ~ In q t0 -> ~ In q t1 -> nedge a q c t -> cur <> Some q ->
     getb vis t = true /\ (c_eps C c = true -> ~ In t t1);
  i_cdone : forall c t, In (c, t) dn -> getb vis t = true /\ (c_eps C c = true -> ~ In t t1);
  i_prev : forall q k, cost a q k -> k < len -> getb vis q = true /\ ~ In q t0 /\ ~ In q t1 /\ cur <> Some q;
  i_acc : forall q, getb vis q = true -> ~ In q t0 -> ~ In q t1 -> q < naccept a;
  i_conn : forall p q, getb vis p = true -> getb vis q = false -> avoid a q p
}.

Lemma min_row_ok : forall r vis t0 t1 len cur dn vis' t0' t1',
  (forall c t, In (c, t) r -> nedge a cur c t) ->
  inv vis t0 t1 len (Some cur) dn -> min_row C r vis t0 t1 = (vis', t0', t1') ->
  inv vis' t0' t1' len (Some cur) (dn ++ r) /\ length t0' + length t1' + cz vis' = length t0 + length t1 + cz vis.
Proof.
  induction r as [|[c t] r IH]; intros vis t0 t1 len cur dn vis' t0' t1' HR I H; cbn [min_row] in H.
  { injection H as <- <- <-. rewrite app_nil_r. split; [exact I|reflexivity]. }
  pose proof (HR c t (or_introl eq_refl)) as Et.
  assert (HR' : forall c t, In (c, t) r -> nedge a cur c t) by (intros; apply HR; right; assumption).
  pose proof (wf_in C ok a cur c t W Et) as (B1 & B2 & _).
  destruct I as [I1 I2 I3 I4 I5 I6 I7 I8 I9 I10].
  destruct (I5 cur eq_refl) as (U1 & U2 & U3).
  replace (dn ++ (c, t) :: r) with ((dn ++ [(c, t)]) ++ r) by (rewrite <- app_assoc; reflexivity).
  destruct (getb vis t) eqn:G; cbn [negb] in H.
  - (* already visited *)
    apply (IH vis t0 t1 len cur _ vis' t0' t1' HR'); [|exact H]. constructor; try assumption.
    intros d u K. apply in_app_or in K. destruct K as [K|[K|[]]]; [apply (I7 d u K)|]. injection K as <- <-.
    split; [exact G|]. intros E K. destruct (I4 t K) as (_ & _ & M). apply (M len (le_n _)). eapply cost_eps; eauto.
  - assert (Gt : forall q, getb (setb vis t) q = true <-> q = t \/ getb vis q = true).
    { intros q. rewrite getb_setb by lia. rewrite orb_true_iff, Nat.eqb_eq. reflexivity. }
    assert (Gf : forall q, getb (setb vis t) q = false <-> q <> t /\ getb vis q = false).
    { intros q. rewrite getb_setb by lia. rewrite orb_false_iff, Nat.eqb_neq. reflexivity. }
    assert (CZ : S (cz (setb vis t)) = cz vis) by (apply cz_setb; [lia|exact G]).
    assert (CN : forall p q, getb (setb vis t) p = true -> getb (setb vis t) q = false -> avoid a q p).
    { intros p q P Q. apply Gf in Q. destruct Q as (Q1 & Q2). apply Gt in P. destruct P as [->|P]; [|apply I10; assumption].
      apply (avoid_step a q cur c t); [apply I10; assumption|exact Et|congruence]. }
    assert (PV : forall q k, cost a q k -> k < len -> q <> t).
    { intros q k K1 K2 ->. destruct (I8 t k K1 K2) as (X & _). congruence. }
    destruct (c_eps C c) eqn:E.
    + (* epsilon edge to a new state *)
      destruct (IH (setb vis t) (t0 ++ [t]) t1 len cur (dn ++ [(c, t)]) vis' t0' t1' HR') as (J1 & J2); [|exact H|].
      * constructor.
        -- rewrite setb_length. exact I1.
        -- apply Gt. auto.
        -- intros q K. apply in_app_or in K. destruct K as [K|[<-|[]]].
           ++ destruct (I3 q K). split; [apply Gt; auto|assumption].
           ++ split; [apply Gt; auto|]. eapply cost_eps; eauto.
        -- intros q K. destruct (I4 q K) as (X1 & X2 & X3). split; [apply Gt; auto|auto].
        -- intros q K. destruct (I5 q K) as (X1 & X2 & X3). split; [apply Gt; auto|auto].
        -- intros q d u Q1 Q2 Q3 Q4 Q5. rewrite in_app_iff in Q2. apply Gt in Q1. destruct Q1 as [->|Q1]; [exfalso; apply Q2; right; left; reflexivity|].
           destruct (I6 q d u Q1) as (X1 & X2); [tauto|exact Q3|exact Q4|exact Q5|]. split; [apply Gt; auto|exact X2].
        -- intros d u K. apply in_app_or in K. destruct K as [K|[K|[]]].
           ++ destruct (I7 d u K) as (X1 & X2). split; [apply Gt; auto|exact X2].
           ++ injection K as <- <-. split; [apply Gt; auto|]. intros _ K. destruct (I4 t K). congruence.
        -- intros q k K1 K2. destruct (I8 q k K1 K2) as (X1 & X2 & X3 & X4). split; [apply Gt; auto|]. split; [|auto].
           rewrite in_app_iff. intros [K|[K|[]]]; [auto|]. apply (PV q k K1 K2). auto.
        -- intros q Q1 Q2 Q3. rewrite in_app_iff in Q2. apply Gt in Q1. destruct Q1 as [->|Q1]; [exfalso; apply Q2; right; left; reflexivity|].
           apply I9; [exact Q1|tauto|exact Q3].
        -- exact CN.
      * split; [exact J1|]. rewrite app_length in J2. cbn [length] in J2. lia.
    + (* character edge to a new state *)
      assert (MIN : forall k, k <= len -> ~ cost a t k).
      { intros k K1 K2. inversion K2 as [K3 K4|p k' d u P1 P2 P3 K3 K4|p k' d u P1 P2 P3 K3 K4]; subst.
        - congruence.
        - apply (LY cur c t Et E); [exists p, d; auto|]. apply I10; assumption.
        - destruct (I8 p k' P1 ltac:(lia)) as (X1 & X2 & X3 & X4). destruct (I6 p d t X1 X2 X3 P2 X4). congruence. }
      destruct (IH (setb vis t) t0 (t1 ++ [t]) len cur (dn ++ [(c, t)]) vis' t0' t1' HR') as (J1 & J2); [|exact H|].
      * constructor.
        -- rewrite setb_length. exact I1.
        -- apply Gt. auto.
        -- intros q K. destruct (I3 q K). split; [apply Gt; auto|assumption].
        -- intros q K. apply in_app_or in K. destruct K as [K|[<-|[]]].
           ++ destruct (I4 q K) as (X1 & X2 & X3). split; [apply Gt; auto|auto].
           ++ split; [apply Gt; auto|]. split; [eapply cost_chr; eauto|exact MIN].
        -- intros q K. destruct (I5 q K) as (X1 & X2 & X3). split; [apply Gt; auto|auto].
        -- intros q d u Q1 Q2 Q3 Q4 Q5. rewrite in_app_iff in Q3. apply Gt in Q1. destruct Q1 as [->|Q1]; [exfalso; apply Q3; right; left; reflexivity|].
           destruct (I6 q d u Q1) as (X1 & X2); [exact Q2|tauto|exact Q4|exact Q5|]. split; [apply Gt; auto|].
           intros K1 K2. apply in_app_or in K2. destruct K2 as [K2|[<-|[]]]; [exact (X2 K1 K2)|congruence].
        -- intros d u K. apply in_app_or in K. destruct K as [K|[K|[]]].
           ++ destruct (I7 d u K) as (X1 & X2). split; [apply Gt; auto|].
              intros K1 K2. apply in_app_or in K2. destruct K2 as [K2|[<-|[]]]; [exact (X2 K1 K2)|congruence].
           ++ injection K as <- <-. split; [apply Gt; auto|]. intros K1. congruence.
        -- intros q k K1 K2. destruct (I8 q k K1 K2) as (X1 & X2 & X3 & X4). split; [apply Gt; auto|]. split; [exact X2|]. split; [|exact X4].
           rewrite in_app_iff. intros [K|[K|[]]]; [auto|]. apply (PV q k K1 K2). auto.
        -- intros q Q1 Q2 Q3. rewrite in_app_iff in Q3. apply Gt in Q1. destruct Q1 as [->|Q1]; [exfalso; apply Q3; right; left; reflexivity|].
           apply I9; [exact Q1|exact Q2|tauto].
        -- exact CN.
      * split; [exact J1|]. rewrite app_length in J2. cbn [length] in J2. lia.
Qed.

(** End of a level. *)
Lemma level_done vis t1 len : inv vis [] t1 len None [] -> forall q k, cost a q k -> k <= len ->
  getb vis q = true /\ ~ In q t1.
Proof.
  intros [I1 I2 I3 I4 I5 I6 I7 I8 I9 I10] q k K. induction K as [|p k c t K IH E1 E2|p k c t K IH E1 E2]; intros B.
  - split; [exact I2|]. intros X. destruct (I4 0 X) as (_ & _ & M). apply (M 0 B). constructor.
  - destruct (IH B) as (X1 & X2). destruct (I6 p c t X1 (fun x => x) X2 E1 ltac:(discriminate)) as (Y1 & Y2).
    split; [exact Y1|]. apply Y2. exact E2.
  - destruct (IH ltac:(lia)) as (X1 & X2). destruct (I6 p c t X1 (fun x => x) X2 E1 ltac:(discriminate)) as (Y1 & _).
    split; [exact Y1|]. intros Y. destruct (I4 t Y) as (_ & _ & M). apply (M (S k) B). eapply cost_chr; eauto.
Qed.

Definition min_result (r : option Z) : Prop :=
  (r = Some (-1)%Z /\ forall q k, cost a q k -> q < naccept a) \/
  exists n q, r = Some (Z.of_nat n) /\ cost a q n /\ naccept a <= q /\ forall p k, cost a p k -> naccept a <= p -> n <= k.

Lemma min_len_loop_ok : forall fuel vis t0 t1 len, inv vis t0 t1 len None [] -> (t0 = [] -> t1 = []) ->
  length t0 + length t1 + cz vis <= fuel -> min_result (min_len_loop C fuel a vis t0 t1 len).
Proof.
  induction fuel as [|f IH]; intros vis t0 t1 len I T F.
  { destruct t0 as [|x t0]; [|cbn in F; lia]. specialize (T eq_refl). subst t1. left. split; [reflexivity|]. intros q k K.
    destruct I as [I1 I2 I3 I4 I5 I6 I7 I8 I9 I10].
    assert (V : getb vis q = true).
    { induction K as [|p k c t K IH E1 E2|p k c t K IH E1 E2]; [exact I2| |];
        destruct (I6 p c t IH (fun x => x) (fun x => x) E1 ltac:(discriminate)) as (Y1 & _); exact Y1. }
    apply (I9 q V); intros []. }
  destruct t0 as [|x t0].
  { specialize (T eq_refl). subst t1. left. split; [reflexivity|]. intros q k K. clear IH.
    destruct I as [I1 I2 I3 I4 I5 I6 I7 I8 I9 I10].
    assert (V : getb vis q = true).
    { induction K as [|p k c t K IH E1 E2|p k c t K IH E1 E2]; [exact I2| |];
        destruct (I6 p c t IH (fun x => x) (fun x => x) E1 ltac:(discriminate)) as (Y1 & _); exact Y1. }
    apply (I9 q V); intros []. }
  cbn [min_len_loop]. destruct (Nat.leb_spec (naccept a) x) as [B|B].
  { right. exists len, x. split; [reflexivity|]. destruct (i_t0 _ _ _ _ _ _ I x (or_introl eq_refl)) as (X1 & X2).
    split; [exact X2|]. split; [exact B|]. intros p k K1 K2. destruct (Nat.le_gt_cases len k) as [Y|Y]; [exact Y|].
    destruct (i_prev _ _ _ _ _ _ I p k K1 Y) as (Z1 & Z2 & Z3 & _). apply (i_acc _ _ _ _ _ _ I p Z1 Z2) in Z3. lia. }
  destruct (min_row C (rowof C (nrules a) x) vis t0 t1) as [[v t0'] t1'] eqn:E.
  apply (min_row_ok _ vis t0 t1 len x []) in E.
  2:{ intros c t K. exact K. }
  2:{ destruct I as [I1 I2 I3 I4 I5 I6 I7 I8 I9 I10]. constructor; try assumption.
      - intros q K. apply I3. right. exact K.
      - intros q K. injection K as <-. destruct (I3 x (or_introl eq_refl)). auto.
      - intros q c t Q1 Q2 Q3 Q4 Q5. apply (I6 q c t Q1); [|exact Q3|exact Q4|discriminate].
        intros [K|K]; [congruence|auto].
      - intros q k K1 K2. destruct (I8 q k K1 K2) as (X1 & X2 & X3 & X4). split; [exact X1|].
        split; [intros K; apply X2; right; exact K|]. split; [exact X3|]. intros K. injection K as ->. apply X2. left. reflexivity.
      - intros q Q1 Q2 Q3. destruct (Nat.eq_dec x q) as [<-|N]; [exact B|]. apply I9; [exact Q1| |exact Q3]. intros [K|K]; auto. }
  destruct E as (J & F2). cbn [app] in J.
  assert (J' : inv v t0' t1' len None []).
  { destruct J as [I1 I2 I3 I4 I5 I6 I7 I8 I9 I10]. constructor; try assumption.
    - discriminate.
    - intros q c t Q1 Q2 Q3 Q4 _. destruct (Nat.eq_dec x q) as [<-|N]; [apply I7; exact Q4|]. apply (I6 q c t Q1 Q2 Q3 Q4). congruence.
    - intros c t [].
    - intros q k K1 K2. destruct (I8 q k K1 K2) as (X1 & X2 & X3 & X4). repeat split; auto. discriminate. }
  destruct t0' as [|y t0'].
  - apply IH; [|intros ->; reflexivity|cbn [length] in *; lia].
    pose proof (level_done _ _ _ J') as LD. destruct J' as [I1 I2 I3 I4 I5 I6 I7 I8 I9 I10]. constructor; try assumption.
    + intros q K. destruct (I4 q K) as (X1 & X2 & _). auto.
    + intros q [].
    + discriminate.
    + intros q c t Q1 Q2 _ Q4 _. destruct (I6 q c t Q1 (fun x => x) Q2 Q4 ltac:(discriminate)) as (X1 & _). split; [exact X1|]. intros _ [].
    + intros c t [].
    + intros q k K1 K2. destruct (LD q k K1 ltac:(lia)) as (X1 & X2). split; [exact X1|]. split; [exact X2|]. split; [intros []|discriminate].
    + intros q Q1 Q2 _. apply I9; auto.
  - apply IH; [exact J'|discriminate|cbn [length] in *; lia].
Qed.

Theorem minLength_cost : min_result (minLength C a).
Proof.
  pose proof W as (A1 & A2 & A3 & A4). unfold minLength.
  assert (ZL : length (zeros (nst a)) = nst a) by apply zeros_length.
  assert (G : forall q, getb (setb (zeros (nst a)) 0) q = true <-> q = 0).
  { intros q. rewrite getb_setb by lia. rewrite getb_zeros, orb_false_r. apply Nat.eqb_eq. }
  apply min_len_loop_ok; [|discriminate|].
  2:{ pose proof (cz_setb (zeros (nst a)) 0 ltac:(lia) (getb_zeros _ _)) as Z. cbn [length].
      pose proof (ones_cz (zeros (nst a))) as Y. lia. }
  constructor.
  - rewrite setb_length. exact ZL.
  - apply G. reflexivity.
  - intros q [<-|[]]. split; [apply G; reflexivity|constructor].
  - intros q [].
  - discriminate.
  - intros q c t Q1 Q2. apply G in Q1. subst q. exfalso. apply Q2. left. reflexivity.
  - intros c t [].
  - intros; lia.
  - intros q Q1 Q2. apply G in Q1. subst q. exfalso. apply Q2. left. reflexivity.
  - intros p q P Q. apply G in P. subst p. constructor. intros <-. rewrite (proj2 (G 0) eq_refl) in Q. discriminate Q.
Qed.
End ML.

Lemma cost_bound a q k : wf a -> cost a q k -> q < nst a.
Proof. intros W. pose proof W as (A1 & A2 & A3 & A4). induction 1 as [|p k c t H IH H1 H2|p k c t H IH H1 H2]; [exact A1| |]; apply (A4 _ _ _ H1). Qed.

(** minLength is the length of a shortest word. *)
Theorem minLength_ok a : wf a -> layered a -> no_empty_edge a ->
  (minLength C a = Some (-1)%Z /\ forall w, ~ lang C a w) \/
  exists n, minLength C a = Some (Z.of_nat n) /\ (exists w, lang C a w /\ length w = n) /\ forall w, lang C a w -> n <= length w.
Proof.
  intros W LY T. destruct (minLength_cost a W LY) as [(R & H)|(n & q & R & H1 & H2 & H3)].
  - left. split; [exact R|]. intros w (k & K1 & K2).
    assert (X : cost a (naccept a + k) (length w)) by (apply cost_path; [exact T|exists w; auto]).
    apply H in X. lia.
  - right. exists n. split; [exact R|]. split.
    + pose proof (cost_bound a q n W H1) as B. apply cost_path in H1; [|exact T]. destruct H1 as (w & W1 & W2). exists w.
      split; [|exact W1]. exists (q - naccept a). unfold laccepts.
      replace (naccept a + (q - naccept a)) with q by lia. split; [exact B|exact W2].
    + intros w (k & K1 & K2). apply (H3 (naccept a + k)); [|lia]. apply cost_path; [exact T|]. exists w. auto.
Qed.
End D.
