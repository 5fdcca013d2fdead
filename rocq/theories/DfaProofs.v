(** The subset construction: language, priority, determinism, termination. *)
From Coq Require Import List NArith Lia Bool PeanoNat ZifyBool ZifyN ZifyNat Permutation.
From Verif Require Import Base AutomatonModel AutomatonSpec CsetLaws ThompsonProofs ReachProofs SubsetProofs.
Import ListNotations.

Section D.
Variable C : cset.
Variable ok : car C -> Prop.
Hypothesis L : cs_laws C ok.
Notation cs := (car C).
Notation bits := (list bool).
Notation pentry := (cs * list bool)%type.
Notation path := (path C).
Notation nedge := (nedge C).
Notation wf := (wf_nfa C ok).
Notation trans := (trans C ok).
Notation closed := (closed C).

(** ** The main loop *)
Definition es_of (ffuel : nat) (a : nfa C) (s : bits) : option (list pentry) :=
  do fo <- follow C ffuel a s; close_all C a fo.
Lemma es_of_trans ffuel a s es : wf a -> es_of ffuel a s = Some es -> trans a s es.
Proof.
  intros W H. unfold es_of in H. destruct (follow C ffuel a s) as [fo|] eqn:F; [|discriminate H].
  apply (follow_trans C ok L ffuel a s fo es W F H).
Qed.
Lemma dfa_loop_step f ff a states m x todo : dfa_loop C (S f) ff a states m (x :: todo) =
  let states' := if inb x states then states else states ++ [x] in
  do es <- es_of ff a x;
  dfa_loop C f ff a states' (add_rules C x es m) (push_new C es states' todo).
Proof.
  cbn [dfa_loop]. unfold es_of. destruct (follow C ff a x) as [fo|]; [|reflexivity]. cbn [obind].
  destruct (close_all C a fo); reflexivity.
Qed.

Lemma push_new_spec : forall (es : list pentry) states todo, exists P, push_new C es states todo = P ++ todo /\
  (forall n, In n P <-> ~ In n states /\ exists c, In (c, n) es).
Proof.
  induction es as [|[c n] es IH]; intros states todo; cbn [push_new].
  - exists []. split; [reflexivity|]. intros n. split; [intros []|intros (_ & c & [])].
  - destruct (inb n states) eqn:E.
    + destruct (IH states todo) as (P & -> & H). exists P. split; [reflexivity|]. intros n'. rewrite H. apply inb_In in E. split.
      * intros (H1 & c' & H2). split; [exact H1|]. exists c'. right. exact H2.
      * intros (H1 & c' & [H2|H2]); [injection H2 as -> ->; contradiction|]. split; [exact H1|]. exists c'. exact H2.
    + destruct (IH states (n :: todo)) as (P & -> & H). exists (P ++ [n]). rewrite <- app_assoc. split; [reflexivity|].
      assert (E' : ~ In n states) by (intros K; apply inb_In in K; congruence).
      intros n'. rewrite in_app_iff, H. cbn [In]. split.
      * intros [(H1 & c' & H2)|[<- | []]]; [split; [exact H1|]; exists c'; right; exact H2|].
        split; [exact E'|]. exists c. left. reflexivity.
      * intros (H1 & c' & [H2|H2]); [injection H2 as -> ->; auto|]. left. split; [exact H1|]. exists c'. exact H2.
Qed.

Lemma add_rules_keys x (es : list pentry) : forall m, map fst (add_rules C x es m) =
  if inb x (map fst m) then map fst m else map fst m ++ [x].
Proof.
  induction m as [|[y l] m IH]; cbn [add_rules map fst inb existsb]; [reflexivity|].
  destruct (bits_eqb x y) eqn:E; cbn [map fst orb]; [reflexivity|].
  rewrite IH. fold (inb x (map fst m)). destruct (inb x (map fst m)); reflexivity.
Qed.
Lemma add_rules_In x (es : list pentry) : forall m y l, In (y, l) (add_rules C x es m) ->
  In (y, l) m \/ (y = x /\ (l = es \/ exists l0, In (x, l0) m /\ l = l0 ++ es)).
Proof.
  induction m as [|[z k] m IH]; intros y l; cbn [add_rules].
  - intros [H|[]]. injection H as <- <-. auto.
  - destruct (bits_eqb x z) eqn:E.
    + apply bits_eqb_iff in E. subst z. intros [H|H].
      * injection H as <- <-. right. split; [reflexivity|]. right. exists k. split; [left; reflexivity|reflexivity].
      * left. right. exact H.
    + intros [H|H]; [left; left; exact H|]. destruct (IH _ _ H) as [K|(-> & [-> | (l0 & K & ->)])].
      * left. right. exact K.
      * right. auto.
      * right. split; [reflexivity|]. right. exists l0. split; [right; exact K|reflexivity].
Qed.

Definition sound (a : nfa C) (start : bits) (states : list bits) (m : list (bits * list pentry)) (todo : list bits) : Prop :=
  states = map fst m /\ NoDup states /\
  (forall s, In s states \/ In s todo -> length s = nst a /\ closed a s) /\
  (forall s es, In (s, es) m -> trans a s es /\ forall c n, In (c, n) es -> In n states \/ In n todo) /\
  (In start states \/ In start todo).

Lemma trans_app a s l es : trans a s l -> trans a s es -> trans a s (l ++ es).
Proof.
  intros (A1 & A2 & A3) (B1 & B2 & B3). split; [|split].
  - intros c n H. apply in_app_iff in H. destruct H as [H|H]; [apply A1|apply B1]; exact H.
  - intros x. rewrite <- B2. split.
    + intros (c & n & H & K). apply in_app_iff in H. destruct H as [H|H]; [|exists c, n; auto].
      apply B2. apply A2. exists c, n. auto.
    + intros (c & n & H & K). exists c, n. split; [apply in_app_iff; right; exact H|exact K].
  - intros c n x H K. apply in_app_iff in H. destruct H as [H|H]; [apply (A3 c)|apply (B3 c)]; assumption.
Qed.

Lemma dfa_loop_sound a start : wf a -> forall fuel ff states m todo states' m',
  sound a start states m todo -> dfa_loop C fuel ff a states m todo = Some (states', m') -> sound a start states' m' [].
Proof.
  intros W. induction fuel as [|f IH]; intros ff states m todo states' m' S H.
  - destruct todo as [|x todo]; cbn in H; [|discriminate H]. injection H as <- <-. exact S.
  - destruct todo as [|x todo]; [cbn in H; injection H as <- <-; exact S|].
    rewrite dfa_loop_step in H. cbn zeta in H. destruct (es_of ff a x) as [es|] eqn:E; [|discriminate H].
    cbn [obind] in H. pose proof (es_of_trans _ _ _ _ W E) as T.
    destruct S as (S1 & S2 & S3 & S4 & S5).
    set (st := if inb x states then states else states ++ [x]) in *.
    assert (ST : forall s, In s st <-> In s states \/ s = x).
    { intros s. unfold st. destruct (inb x states) eqn:B.
      - apply inb_In in B. split; [auto|]. intros [K | ->]; assumption.
      - rewrite in_app_iff. cbn. intuition. }
    destruct (push_new_spec es st todo) as (P & EP & HP). rewrite EP in H.
    apply IH in H; [exact H|]. split; [|split; [|split; [|split]]].
    + unfold st. rewrite add_rules_keys, <- S1. destruct (inb x states); reflexivity.
    + unfold st. destruct (inb x states) eqn:B; [exact S2|].
      apply (Permutation_NoDup (Permutation_cons_append states x)). constructor; [|exact S2].
      intros K. apply inb_In in K. congruence.
    + intros s [K|K].
      * apply ST in K. destruct K as [K|K]; [apply S3; auto|]. subst s. apply S3. right. left. reflexivity.
      * apply in_app_iff in K. destruct K as [K|K]; [|apply S3; right; right; exact K].
        apply HP in K. destruct K as (_ & c & K). destruct T as (T1 & _). destruct (T1 _ _ K) as (_ & _ & T4 & T5). auto.
    + intros s es' K.
      assert (Q : trans a s es' /\ forall c n, In (c, n) es' -> In n states \/ In n (x :: todo) \/ In (c, n) es).
      { apply add_rules_In in K. destruct K as [K|(-> & [-> | (l0 & K & ->)])].
        - destruct (S4 _ _ K) as (K1 & K2). split; [exact K1|]. intros c n Hn. destruct (K2 _ _ Hn); auto.
        - split; [exact T|]. auto.
        - destruct (S4 _ _ K) as (K1 & K2). split; [apply trans_app; assumption|].
          intros c n Hn. apply in_app_iff in Hn. destruct Hn as [Hn|Hn]; [|auto]. destruct (K2 _ _ Hn); auto. }
      destruct Q as (Q1 & Q2). split; [exact Q1|]. intros c n Hn.
      destruct (Q2 c n Hn) as [K1|[[K1|K1]|K1]].
      * left. apply ST. auto.
      * left. apply ST. auto.
      * right. apply in_app_iff. auto.
      * destruct (in_dec (list_eq_dec bool_dec) n st) as [D|D]; [auto|].
        right. apply in_app_iff. left. apply HP. split; [exact D|]. exists c. exact K1.
    + destruct S5 as [K|[K|K]].
      * left. apply ST. auto.
      * left. apply ST. auto.
      * right. apply in_app_iff. auto.
Qed.

(** ** Termination of the loop *)
Fixpoint allbits (n : nat) : list bits :=
  match n with O => [[]] | S k => map (cons true) (allbits k) ++ map (cons false) (allbits k) end.
Lemma allbits_In : forall n b, length b = n -> In b (allbits n).
Proof.
  induction n as [|n IH]; intros [|x b] H; try discriminate H; [left; reflexivity|].
  cbn. apply in_app_iff. injection H as H. destruct x; [left|right]; apply in_map; apply IH; exact H.
Qed.

Definition done (ff : nat) (a : nfa C) (states todo : list bits) : Prop :=
  forall s l1 l2 es c n, In s states -> todo = l1 ++ s :: l2 -> es_of ff a s = Some es -> In (c, n) es ->
    In n states \/ In n l1.

Lemma es_of_total a : wf a -> exists FF, forall ff s, FF <= ff -> length s = nst a -> exists es, es_of ff a s = Some es.
Proof.
  intros W. exists (fold_right (fun s n => weight C (follow_init C a s) + n) 0 (allbits (nst a))).
  intros ff s Hff Hs. unfold es_of, follow.
  assert (B : weight C (follow_init C a s) <= ff).
  { etransitivity; [|exact Hff]. apply allbits_In in Hs. clear Hff. induction (allbits (nst a)) as [|y l IH]; [destruct Hs|].
    cbn. destruct Hs as [-> | Hs]; [lia|]. specialize (IH Hs). lia. }
  pose proof (split_loop_total C ok L (nst a) ff _ (follow_init_good C ok L a s W) B) as N.
  destruct (split_loop C ff (follow_init C a s)) as [fo|] eqn:F; [|congruence]. cbn [obind].
  destruct (split_loop_ok C ok L (nst a) _ _ _ (follow_init_good C ok L a s W) F) as (G & _).
  destruct (close_all_ok C ok a W fo G) as (es & E & _). exists es. exact E.
Qed.

Lemma dfa_loop_total a ff : wf a -> (forall s, length s = nst a -> exists es, es_of ff a s = Some es) ->
  forall k j states m todo,
    length (allbits (nst a)) - length states <= k -> length todo <= j ->
    NoDup states -> (forall s, In s states \/ In s todo -> length s = nst a) -> done ff a states todo ->
    exists F, forall fuel, F <= fuel -> dfa_loop C fuel ff a states m todo <> None.
Proof.
  intros W HE. induction k as [|k IHk]; induction j as [|j IHj]; intros states m todo Hk Hj ND HL HD.
  1,3: destruct todo as [|x todo]; [exists 0; intros [|fuel] _; cbn; discriminate|cbn in Hj; lia].
  - destruct todo as [|x todo]; [exists 0; intros [|fuel] _; cbn; discriminate|].
    assert (Hx : length x = nst a) by (apply HL; right; left; reflexivity).
    destruct (HE x Hx) as (es & E).
    destruct (inb x states) eqn:B.
    + destruct (push_new_spec es states todo) as (P & EP & HP).
      assert (P = []).
      { destruct P as [|n P]; [reflexivity|]. exfalso. destruct (proj1 (HP n) (or_introl eq_refl)) as (N1 & c & N2).
        apply inb_In in B. destruct (HD x [] todo es c n B eq_refl E N2) as [K | []]. contradiction. }
      subst P. cbn [app] in EP.
      destruct (IHj states (add_rules C x es m) todo) as (F & HF).
      * exact Hk.
      * cbn in Hj. lia.
      * exact ND.
      * intros s [K|K]; apply HL; [left|right; right]; exact K.
      * intros s l1 l2 es' c n K1 K2 K3 K4. subst todo.
        destruct (HD s (x :: l1) l2 es' c n K1 eq_refl K3 K4) as [K|[K|K]]; [auto| |auto].
        subst n. left. apply inb_In. exact B.
      * exists (S F). intros [|fuel] Hf; [lia|]. rewrite dfa_loop_step, B, E. cbn [obind]. rewrite EP. apply HF. lia.
    + exfalso.
      assert (ND' : NoDup (x :: states)) by (constructor; [intros K; apply inb_In in K; congruence|exact ND]).
      assert (I : incl (x :: states) (allbits (nst a))).
      { intros s [<- | Hs]; apply allbits_In; [exact Hx|apply HL; left; exact Hs]. }
      pose proof (NoDup_incl_length ND' I) as Q. cbn in Q. lia.
  - destruct todo as [|x todo]; [exists 0; intros [|fuel] _; cbn; discriminate|].
    assert (Hx : length x = nst a) by (apply HL; right; left; reflexivity).
    destruct (HE x Hx) as (es & E).
    destruct (inb x states) eqn:B.
    + destruct (push_new_spec es states todo) as (P & EP & HP).
      assert (P = []).
      { destruct P as [|n P]; [reflexivity|]. exfalso. destruct (proj1 (HP n) (or_introl eq_refl)) as (N1 & c & N2).
        apply inb_In in B. destruct (HD x [] todo es c n B eq_refl E N2) as [K | []]. contradiction. }
      subst P. cbn [app] in EP.
      destruct (IHj states (add_rules C x es m) todo) as (F & HF).
      * exact Hk.
      * cbn in Hj. lia.
      * exact ND.
      * intros s [K|K]; apply HL; [left|right; right]; exact K.
      * intros s l1 l2 es' c n K1 K2 K3 K4. subst todo.
        destruct (HD s (x :: l1) l2 es' c n K1 eq_refl K3 K4) as [K|[K|K]]; [auto| |auto].
        subst n. left. apply inb_In. exact B.
      * exists (S F). intros [|fuel] Hf; [lia|]. rewrite dfa_loop_step, B, E. cbn [obind]. rewrite EP. apply HF. lia.
    + destruct (push_new_spec es (states ++ [x]) todo) as (P & EP & HP).
      pose proof (es_of_trans _ _ _ _ W E) as T.
      destruct (IHk (length (P ++ todo)) (states ++ [x]) (add_rules C x es m) (P ++ todo)) as (F & HF).
      * rewrite app_length. cbn. lia.
      * lia.
      * apply (Permutation_NoDup (Permutation_cons_append states x)). constructor; [|exact ND].
        intros K. apply inb_In in K. congruence.
      * intros s [K|K]; apply in_app_iff in K; destruct K as [K|K].
        -- apply HL. auto.
        -- destruct K as [<- | []]. exact Hx.
        -- apply HP in K. destruct K as (_ & c & K). destruct T as (T1 & _). apply (T1 _ _ K).
        -- apply HL. right. right. exact K.
      * intros s l1 l2 es' c n K1 K2 K3 K4.
        assert (NP : ~ In s P) by (intros K; apply HP in K; tauto).
        assert (Q : exists l1', l1 = P ++ l1' /\ todo = l1' ++ s :: l2).
        { clear -K2 NP. revert l1 K2. induction P as [|p P IHP]; intros l1 K2; [exists l1; auto|].
          destruct l1 as [|y l1]; cbn in K2; injection K2 as -> K2; [exfalso; apply NP; left; reflexivity|].
          destruct (IHP (fun K => NP (or_intror K)) l1 K2) as (l1' & -> & ->). exists l1'. auto. }
        destruct Q as (l1' & -> & Q). apply in_app_iff in K1. destruct K1 as [K1|[<- | []]].
        -- destruct (HD s (x :: l1') l2 es' c n K1) as [K|[K|K]]; [cbn; rewrite Q; reflexivity|exact K3|exact K4| | |].
           ++ left. apply in_app_iff. auto.
           ++ left. apply in_app_iff. right. left. exact K.
           ++ right. apply in_app_iff. auto.
        -- rewrite E in K3. injection K3 as <-.
           destruct (in_dec (list_eq_dec bool_dec) n (states ++ [x])) as [D|D]; [auto|].
           right. apply in_app_iff. left. apply HP. split; [exact D|]. exists c. exact K4.
      * exists (S F). intros [|fuel] Hf; [lia|]. rewrite dfa_loop_step, B, E. cbn [obind]. rewrite EP. apply HF. lia.
Qed.

Theorem dfa_of_total a ord : wf a ->
  exists FF, forall ff, FF <= ff -> exists F, forall fuel, F <= fuel -> dfa_of C fuel ff ord a <> None.
Proof.
  intros W. destruct (es_of_total a W) as (FF & HF). exists FF. intros ff Hff.
  assert (Hz : length (setb (zeros (nst a)) 0) = nst a) by (rewrite setb_length; apply zeros_length).
  destruct (closure_ok C ok a _ W Hz) as (start & S1 & S2 & S3).
  destruct (dfa_loop_total a ff W (fun s => HF ff s Hff) (length (allbits (nst a))) 1 [] [] [start]) as (F & H).
  - cbn. lia.
  - reflexivity.
  - constructor.
  - intros s [[]|[<- | []]]. exact S2.
  - intros s l1 l2 es c n [].
  - exists F. intros fuel Hf. unfold dfa_of. rewrite S1. cbn [obind]. specialize (H fuel Hf).
    destruct (dfa_loop C fuel ff a [] [] [start]) as [[st m]|]; [|congruence]. cbn [obind]. discriminate.
Qed.

(** ** Numbering *)
Lemma set_num_new s n : forall st, ~ In s (map fst st) -> set_num s n st = st ++ [(s, n)].
Proof.
  induction st as [|[y k] st IH]; intros H; cbn [set_num]; [reflexivity|].
  destruct (bits_eqb s y) eqn:E; [apply bits_eqb_iff in E; subst y; exfalso; apply H; left; reflexivity|].
  rewrite IH; [reflexivity|]. intros K. apply H. right. exact K.
Qed.
Lemma number_simple start first : forall l cnt st, NoDup l -> ~ In start l -> (forall s, In s l -> ~ In s (map fst st)) ->
  number start first l cnt st = st ++ combine l (seq cnt (length l)).
Proof.
  induction l as [|i l IH]; intros cnt st ND NS HK; cbn [number length seq combine]; [rewrite app_nil_r; reflexivity|].
  inversion ND as [|? ? N1 N2]; subst.
  destruct (bits_eqb i start) eqn:E; [apply bits_eqb_iff in E; subst i; exfalso; apply NS; left; reflexivity|]. cbn [andb].
  rewrite set_num_new by (apply HK; left; reflexivity).
  rewrite IH; [rewrite <- app_assoc; reflexivity|exact N2|intros K; apply NS; right; exact K|].
  intros s Hs K. rewrite map_app, in_app_iff in K. destruct K as [K|[<- | []]]; [apply (HK s); [right; exact Hs|exact K]|contradiction].
Qed.
Lemma number_app start first : forall l1 l2 cnt st, number start first (l1 ++ l2) cnt st =
  number start first l2 (cnt + length l1) (number start first l1 cnt st).
Proof.
  induction l1 as [|i l1 IH]; intros l2 cnt st; cbn [number app length]; [rewrite Nat.add_0_r; reflexivity|].
  rewrite IH. f_equal. lia.
Qed.
Lemma map_fst_combine {A B} : forall (l : list A) (m : list B), length l = length m -> map fst (combine l m) = l.
Proof. induction l as [|x l IH]; intros [|y m] H; cbn in *; try discriminate; [reflexivity|]. f_equal. apply IH. congruence. Qed.
Lemma map_snd_combine {A B} : forall (l : list A) (m : list B), length l = length m -> map snd (combine l m) = m.
Proof. induction l as [|x l IH]; intros [|y m] H; cbn in *; try discriminate; [reflexivity|]. f_equal. apply IH. congruence. Qed.

Lemma number_ok start : forall ord, NoDup ord -> In start ord ->
  let st := number start (hd start ord) ord 0 [] in
  map fst st = ord /\ Permutation (map snd st) (seq 0 (length ord)) /\ In (start, 0) st.
Proof.
  intros [|h ord] ND HI; [destruct HI|]. cbn [hd]. inversion ND as [|? ? N1 N2]; subst.
  cbn [number]. rewrite andb_false_r. cbn [set_num].
  destruct HI as [-> | HI].
  - rewrite number_simple; [|exact N2|exact N1|intros s Hs [<- | []]; contradiction].
    cbn [app map fst snd length seq]. rewrite map_fst_combine, map_snd_combine by (rewrite seq_length; reflexivity).
    split; [reflexivity|]. split; [reflexivity|]. left. reflexivity.
  - destruct (in_split _ _ HI) as (l1 & l2 & ->). clear HI.
    pose proof (NoDup_remove_1 _ _ _ N2) as N3. pose proof (NoDup_remove_2 _ _ _ N2) as N4.
    assert (Hh : h <> start) by (intros ->; apply N1; apply in_elt).
    assert (N5 : NoDup l1 /\ NoDup l2 /\ forall s, In s l1 -> ~ In s l2).
    { clear -N3. induction l1 as [|x l1 IH]; cbn in *; [split; [constructor|split; [exact N3|intros s []]]|].
      inversion N3 as [|? ? K1 K2]; subst. destruct (IH K2) as (I1 & I2 & I3). split; [|split].
      - constructor; [intros K; apply K1; apply in_app_iff; auto|exact I1].
      - exact I2.
      - intros s [<- | Hs]; [intros K; apply K1; apply in_app_iff; auto|apply I3; exact Hs]. }
    destruct N5 as (N5 & N6 & N7).
    rewrite number_app. rewrite (number_simple start h l1); [|exact N5| |].
    2: { intros K. apply N4. apply in_app_iff. auto. }
    2: { intros s Hs [<- | []]. apply N1. apply in_app_iff. auto. }
    cbn [number]. replace (bits_eqb start start) with true by (symmetry; apply bits_eqb_iff; reflexivity).
    cbn [andb app]. replace (negb (1 + length l1 =? 0)) with true by reflexivity.
    cbn [set_num]. replace (bits_eqb h h) with true by (symmetry; apply bits_eqb_iff; reflexivity).
    cbn [set_num].
    destruct (bits_eqb start h) eqn:E; [apply bits_eqb_iff in E; congruence|].
    rewrite set_num_new.
    2: { rewrite map_fst_combine by (rewrite seq_length; reflexivity). intros K. apply N4. apply in_app_iff. auto. }
    rewrite (number_simple start h l2); [|exact N6| |].
    2: { intros K. apply N4. apply in_app_iff. auto. }
    2: { intros s Hs K. cbn [map fst] in K. rewrite map_app, map_fst_combine in K by (rewrite seq_length; reflexivity).
         destruct K as [K|K]; [subst s; apply N1; apply in_app_iff; right; right; exact Hs|].
         apply in_app_iff in K. destruct K as [K|[K | []]]; [apply (N7 s); assumption|]. cbn in K. subst s.
         apply N4. apply in_app_iff. auto. }
    split; [|split].
    + cbn [app map fst]. rewrite !map_app, !map_fst_combine by (rewrite seq_length; reflexivity). cbn. rewrite <- app_assoc. reflexivity.
    + cbn [app map snd]. rewrite !map_app, !map_snd_combine by (rewrite seq_length; reflexivity). cbn [map snd app].
      replace (length (h :: l1 ++ start :: l2)) with (1 + length l1 + (1 + length l2)) by (cbn [length]; rewrite app_length; cbn; lia).
      rewrite seq_app. cbn [plus seq]. rewrite <- app_assoc. cbn [app].
      etransitivity; [apply perm_skip, Permutation_sym, Permutation_middle|].
      etransitivity; [apply perm_swap|]. apply perm_skip.
      apply (Permutation_middle (seq 1 (length l1)) (seq (S (S (length l1))) (length l2)) (S (length l1))).
    + cbn [app]. right. apply in_app_iff. left. apply in_app_iff. right. left. reflexivity.
Qed.

Lemma lookup_In s k : forall st, NoDup (map fst st) -> In (s, k) st -> lookup_num s st = k.
Proof.
  induction st as [|[y j] st IH]; intros ND H; [destruct H|]. cbn [lookup_num map fst] in *.
  inversion ND as [|? ? N1 N2]; subst. destruct H as [H|H].
  - injection H as -> ->. replace (bits_eqb s s) with true by (symmetry; apply bits_eqb_iff; reflexivity). reflexivity.
  - destruct (bits_eqb s y) eqn:E; [|apply IH; assumption].
    apply bits_eqb_iff in E. subst y. exfalso. apply N1. apply (in_map fst) in H. exact H.
Qed.

(** Folding updates at distinct positions. *)
Lemma fold_upd {A B} (g : B -> nat) (h : B -> A -> A) (d : A) : forall m init,
  NoDup (map g m) -> (forall p, In p m -> g p < length init) ->
  let r := fold_left (fun ru p => upd ru (g p) (h p)) m init in
  length r = length init /\
  (forall p, In p m -> nth (g p) r d = h p (nth (g p) init d)) /\
  (forall i, ~ In i (map g m) -> nth i r d = nth i init d).
Proof.
  induction m as [|p m IH]; intros init ND HR; cbn [fold_left].
  - split; [reflexivity|]. split; [intros p []|reflexivity].
  - cbn [map] in ND. inversion ND as [|? ? N1 N2]; subst.
    destruct (IH (upd init (g p) (h p)) N2) as (I1 & I2 & I3).
    { intros q Hq. rewrite upd_length. apply HR. right. exact Hq. }
    cbn zeta. rewrite upd_length in I1. split; [exact I1|]. split.
    + intros q [<- | Hq].
      * rewrite I3 by exact N1. rewrite upd_nth, Nat.eqb_refl.
        replace (g p <? length init) with true by (symmetry; apply Nat.ltb_lt; apply HR; left; reflexivity). reflexivity.
      * rewrite I2 by exact Hq. rewrite upd_nth.
        destruct (Nat.eqb_spec (g q) (g p)) as [K|K]; [|reflexivity].
        exfalso. apply N1. rewrite <- K. apply in_map. exact Hq.
    + intros i Hi. cbn [map In] in Hi. rewrite I3 by tauto. rewrite upd_nth.
      destruct (Nat.eqb_spec i (g p)) as [K|K]; [|reflexivity]. exfalso. apply Hi. left. congruence.
Qed.

(** ** Structure of the resulting DFA *)
Definition represents (a : nfa C) (d : dfa C) (num : bits -> nat) (states : list bits) : Prop :=
  dst d = length states /\ length (drules d) = dst d /\ length (daccept d) = dst d /\
  (forall s, In s states -> num s < dst d) /\
  (forall i, i < dst d -> exists s, In s states /\ num s = i) /\
  (forall s, In s states -> length s = nst a /\ closed a s /\
     dacc C d (num s) = first_accept s (naccept a) (seq (naccept a) (nst a - naccept a)) /\
     exists es, trans a s es /\ (forall c n, In (c, n) es -> In n states) /\
       nth (num s) (drules d) [] = map (fun e => (fst e, num (snd e))) es) /\
  (exists s0, In s0 states /\ num s0 = 0 /\ forall q, getb s0 q = true <-> path (nedge a) 0 [] q).

Lemma dfa_of_represents fuel ff ord a d : wf a -> (forall l, Permutation (ord l) l) ->
  dfa_of C fuel ff ord a = Some d ->
  dactions d = nst a - naccept a /\ exists num states, represents a d num states.
Proof.
  intros W HP H. unfold dfa_of in H.
  assert (Hz : length (setb (zeros (nst a)) 0) = nst a) by (rewrite setb_length; apply zeros_length).
  destruct (closure_ok C ok a _ W Hz) as (start & S1 & S2 & S3). rewrite S1 in H. cbn [obind] in H.
  pose proof (closure_closed C ok a _ start W Hz S1) as S4.
  destruct (dfa_loop C fuel ff a [] [] [start]) as [[states m]|] eqn:E; [|discriminate H]. cbn [obind] in H.
  apply (dfa_loop_sound a start W) in E.
  2: { split; [reflexivity|]. split; [constructor|]. split; [|split].
       - intros s [[]|[<- | []]]. auto.
       - intros s es [].
       - right. left. reflexivity. }
  destruct E as (E1 & E2 & E3 & E4 & E5). destruct E5 as [E5|[]].
  assert (NDo : NoDup (ord states)) by (apply (Permutation_NoDup (Permutation_sym (HP states))); exact E2).
  assert (Io : In start (ord states)) by (apply (Permutation_in _ (Permutation_sym (HP states))); exact E5).
  destruct (number_ok start (ord states) NDo Io) as (N1 & N2 & N3).
  set (st := number start (hd start (ord states)) (ord states) 0 []) in *.
  assert (Len : length (ord states) = length states) by (apply Permutation_length, HP). rewrite Len in N2.
  assert (NDf : NoDup (map fst st)) by (rewrite N1; exact NDo).
  assert (NDs : NoDup (map snd st)) by (apply (Permutation_NoDup (Permutation_sym N2)); apply seq_NoDup).
  set (num := fun s => lookup_num s st).
  assert (NUM : forall s, In s states <-> In (s, num s) st).
  { intros s. split.
    - intros K. apply (Permutation_in _ (Permutation_sym (HP states))) in K. rewrite <- N1 in K.
      apply in_map_iff in K. destruct K as ([s' k] & K1 & K2). cbn in K1. subst s'.
      unfold num. rewrite (lookup_In s k st NDf K2). exact K2.
    - intros K. apply (in_map fst) in K. cbn in K. rewrite N1 in K. exact (Permutation_in _ (HP states) K). }
  assert (RANGE : forall s, In s states -> num s < length states).
  { intros s K. apply NUM in K. apply (in_map snd) in K. cbn in K.
    apply (Permutation_in _ N2) in K. apply in_seq in K. lia. }
  assert (INJ : forall s t, In s states -> In t states -> num s = num t -> s = t).
  { intros s t K1 K2 K3. apply NUM in K1. apply NUM in K2. rewrite K3 in K1.
    generalize dependent (num t). intros v. intros. clear -NDs K1 K2. induction st as [|[y k] st IH]; [destruct K1|]. cbn in NDs. inversion NDs as [|? ? M1 M2]; subst.
    destruct K1 as [K1|K1], K2 as [K2|K2].
    - congruence.
    - injection K1 as -> ->. exfalso. apply M1. apply (in_map snd) in K2. exact K2.
    - injection K2 as -> ->. exfalso. apply M1. apply (in_map snd) in K1. exact K1.
    - apply IH; assumption. }
  assert (START : num start = 0) by (unfold num; apply lookup_In; assumption).
  (* accept vector *)
  destruct (fold_upd (@snd bits nat) (fun p (_ : nat) => first_accept (fst p) (naccept a) (seq (naccept a) (nst a - naccept a))) 0 st (repeat 0 (length states)))
    as (A1 & A2 & _).
  { exact NDs. }
  { intros p Hp. rewrite repeat_length. apply (in_map snd) in Hp. apply (Permutation_in _ N2) in Hp. apply in_seq in Hp. lia. }
  (* rules *)
  destruct (fold_upd (fun p : bits * list pentry => num (fst p))
             (fun p (r : list (cs * nat)) => r ++ map (fun e => (fst e, num (snd e))) (snd p)) [] m (repeat [] (length states)))
    as (R1 & R2 & _).
  { assert (G : forall l, incl (map fst l) states -> NoDup (map fst l) -> NoDup (map (fun p : bits * list pentry => num (fst p)) l)).
    { induction l as [|p l IHl]; intros G1 G2; [constructor|]. cbn in *. inversion G2 as [|? ? M1 M2]; subst. constructor.
      - intros K. apply in_map_iff in K. destruct K as (q & K1 & K2). apply M1.
        replace (fst p) with (fst q); [apply in_map; exact K2|].
        apply INJ; [apply G1; right; apply in_map; exact K2|apply G1; left; reflexivity|exact K1].
      - apply IHl; [intros y Hy; apply G1; right; exact Hy|exact M2]. }
    apply G; [rewrite E1; apply incl_refl|rewrite <- E1; exact E2]. }
  { intros p Hp. rewrite repeat_length. apply RANGE. rewrite E1. apply in_map. exact Hp. }
  injection H as <-. split; [reflexivity|]. exists num, states.
  unfold represents. cbn [dst drules daccept].
  rewrite repeat_length in A1, R1.
  split; [reflexivity|]. split; [exact R1|]. split; [exact A1|]. split; [exact RANGE|]. split; [|split].
  - intros i Hi. assert (K : In i (map snd st)).
    { apply (Permutation_in _ (Permutation_sym N2)). apply in_seq. lia. }
    apply in_map_iff in K. destruct K as ([s k] & K1 & K2). cbn in K1. subst k. exists s. split.
    + apply (in_map fst) in K2. cbn in K2. rewrite N1 in K2. exact (Permutation_in _ (HP states) K2).
    + unfold num. apply lookup_In; assumption.
  - intros s Hs. destruct (E3 s (or_introl Hs)) as (L1 & L2). split; [exact L1|]. split; [exact L2|]. split.
    + unfold dacc. cbn [daccept]. pose proof (A2 (s, num s) (proj1 (NUM s) Hs)) as Q. cbn [snd fst] in Q. exact Q.
    + pose proof Hs as Hs'. rewrite E1 in Hs'. apply in_map_iff in Hs'. destruct Hs' as ([s' es] & K1 & K2). cbn in K1. subst s'.
      exists es. destruct (E4 _ _ K2) as (T1 & T2). split; [exact T1|]. split.
      * intros c n Hn. destruct (T2 _ _ Hn) as [K | []]. exact K.
      * pose proof (R2 (s, es) K2) as Q. cbn [snd fst] in Q. rewrite nth_repeat_nil in Q. exact Q.
  - exists start. split; [exact E5|]. split; [exact START|]. intros q. rewrite S3. destruct W as (W1 & _). split.
    + intros (p & K1 & K2). rewrite getb_setb in K1 by (rewrite zeros_length; exact W1).
      rewrite getb_zeros, orb_false_r in K1. apply Nat.eqb_eq in K1. subst p. exact K2.
    + intros K. exists 0. split; [|exact K]. rewrite getb_setb by (rewrite zeros_length; exact W1). reflexivity.
Qed.

(** ** Runs *)
Lemma path_cons_inv (a : nfa C) : forall p x w k, path (nedge a) p (x :: w) k ->
  exists p1 c t, path (nedge a) p [] p1 /\ nedge a p1 c t /\ c_eps C c = false /\ c_acc C c x = true /\ path (nedge a) t w k.
Proof.
  intros p x w k H. remember (x :: w) as u eqn:Eu. induction H as [q|q c t v r H1 H2 H3 IH|q c t y v r H1 H2 H3 H4 IH].
  - discriminate Eu.
  - destruct (IH Eu) as (p1 & c' & t' & K1 & K2). exists p1, c', t'. split; [eapply P_eps; eauto|exact K2].
  - injection Eu as -> ->. exists q, c, t. split; [apply P_nil|]. auto.
Qed.

Lemma run_ok a d num states : represents a d num states -> forall w s, In s states ->
  match dfa_run C d (num s) w with
  | Some q => exists s', In s' states /\ q = num s' /\ forall k, getb s' k = true <-> exists p, getb s p = true /\ path (nedge a) p w k
  | None => forall p k, getb s p = true -> ~ path (nedge a) p w k
  end.
Proof.
  intros (R1 & R2 & R3 & R4 & R5 & R6 & R7). induction w as [|x w IH]; intros s Hs; cbn [dfa_run].
  - exists s. split; [exact Hs|]. split; [reflexivity|]. destruct (R6 s Hs) as (_ & CL & _). intros k. split.
    + intros K. exists k. split; [exact K|apply P_nil].
    + intros (p & K1 & K2). apply (CL p); assumption.
  - destruct (R6 s Hs) as (_ & CL & _ & es & (T1 & T2 & T3) & T4 & T5). unfold rowof. rewrite T5.
    pose proof (first_rule_spec C (map (fun e : pentry => (fst e, num (snd e))) es) x) as FR.
    destruct (first_rule C (map (fun e : pentry => (fst e, num (snd e))) es) x) as [q|].
    + destruct FR as (c & F1 & F2). apply in_map_iff in F1. destruct F1 as ([c' n] & F0 & F1). cbn in F0. injection F0 as -> <-.
      specialize (IH n (T4 _ _ F1)). pose proof (T3 c n x F1 F2) as F3.
      assert (EQ : forall k, (exists p, getb n p = true /\ path (nedge a) p w k) <-> exists p, getb s p = true /\ path (nedge a) p (x :: w) k).
      { intros k. split.
        - intros (p & K1 & K2). apply F3 in K1. destruct K1 as (j & (p0 & c0 & J1 & J2 & J3 & J4) & K1).
          exists p0. split; [exact J1|]. eapply P_chr; [exact J2|exact J3|exact J4|].
          exact (path_app C _ _ [] _ K1 w _ K2).
        - intros (p & K1 & K2). apply path_cons_inv in K2. destruct K2 as (p1 & c1 & t & J1 & J2 & J3 & J4 & J5).
          exists t. split; [|exact J5]. apply F3. exists t. split; [|apply P_nil].
          exists p1, c1. split; [apply (CL p); assumption|]. auto. }
      destruct (dfa_run C d (num n) w) as [q|].
      * destruct IH as (s' & I1 & I2 & I3). exists s'. split; [exact I1|]. split; [exact I2|].
        intros k. rewrite I3. apply EQ.
      * intros p k K1 K2. destruct (proj2 (EQ k)) as (p' & J1 & J2); [exists p; auto|]. apply (IH p' k J1 J2).
    + intros p k K1 K2. apply path_cons_inv in K2. destruct K2 as (p1 & c1 & t & J1 & J2 & J3 & J4 & J5).
      assert (Q : exists c n, In (c, n) es /\ c_acc C c x = true).
      { apply T2. exists t, p1, c1. split; [apply (CL p); assumption|]. auto. }
      destruct Q as (c & n & Q1 & Q2). rewrite (FR c (num n)) in Q2; [discriminate Q2|].
      apply in_map_iff. exists (c, n). auto.
Qed.

Lemma first_accept_spec s acc : forall l, (forall j, In j l -> acc <= j) ->
  match first_accept s acc l with
  | 0 => forall j, In j l -> getb s j = false
  | S k => getb s (acc + k) = true /\ In (acc + k) l /\ exists l1 l2, l = l1 ++ (acc + k) :: l2 /\ forall j, In j l1 -> getb s j = false
  end.
Proof.
  induction l as [|j l IH]; intros H; cbn [first_accept]; [intros j []|].
  destruct (getb s j) eqn:E.
  - assert (acc <= j) by (apply H; left; reflexivity).
    replace (j - acc + 1) with (S (j - acc)) by lia. replace (acc + (j - acc)) with j by lia.
    split; [exact E|]. split; [left; reflexivity|]. exists [], l. split; [reflexivity|intros ? []].
  - assert (H' : forall j, In j l -> acc <= j) by (intros i Hi; apply H; right; exact Hi). specialize (IH H').
    destruct (first_accept s acc l) as [|k].
    + intros i [<- | Hi]; [exact E|apply IH; exact Hi].
    + destruct IH as (I1 & I2 & l1 & l2 & -> & I3). split; [exact I1|]. split; [right; exact I2|].
      exists (j :: l1), l2. split; [reflexivity|]. intros i [<- | Hi]; [exact E|apply I3; exact Hi].
Qed.

Lemma seq_split_lt acc n l1 x l2 : seq acc n = l1 ++ x :: l2 -> forall j, acc <= j -> j < x -> In j l1.
Proof.
  revert acc n. induction l1 as [|y l1 IH]; intros acc n H j H1 H2.
  - destruct n as [|n]; [discriminate H|]. cbn in H. injection H as <- _. lia.
  - destruct n as [|n]; [discriminate H|]. cbn in H. injection H as <- H.
    destruct (Nat.eq_dec j acc) as [-> | N]; [left; reflexivity|]. right. apply (IH (S acc) n H); lia.
Qed.

(** The action of the DFA is the first rule accepting the word. *)
Theorem dfa_action fuel ff ord a d w : wf a -> (forall l, Permutation (ord l) l) -> dfa_of C fuel ff ord a = Some d ->
  match dfa_accepts C d w with
  | 0 => forall k, ~ laccepts C a k w
  | S k => laccepts C a k w /\ forall j, j < k -> ~ laccepts C a j w
  end.
Proof.
  intros W HP H. destruct (dfa_of_represents _ _ _ _ _ W HP H) as (_ & num & states & R).
  pose proof R as (_ & _ & _ & _ & _ & R6 & s0 & Z1 & Z2 & Z3).
  pose proof (run_ok a d num states R w s0 Z1) as RO. rewrite Z2 in RO. unfold dfa_accepts, laccepts.
  assert (EQ : forall k, (exists p, getb s0 p = true /\ path (nedge a) p w k) <-> path (nedge a) 0 w k).
  { intros k. split.
    - intros (p & K1 & K2). apply Z3 in K1. exact (path_app C _ _ [] _ K1 w _ K2).
    - intros K. exists 0. split; [apply Z3; apply P_nil|exact K]. }
  destruct (dfa_run C d 0 w) as [q|].
  - destruct RO as (s & S1 & -> & S3). destruct (R6 s S1) as (_ & _ & AC & _). rewrite AC.
    pose proof (first_accept_spec s (naccept a) (seq (naccept a) (nst a - naccept a))) as FA.
    specialize (FA (fun j Hj => proj1 (proj1 (in_seq _ _ _) Hj))).
    destruct (first_accept s (naccept a) (seq (naccept a) (nst a - naccept a))) as [|k].
    + intros k (K1 & K2). apply EQ in K2. apply S3 in K2. rewrite FA in K2; [discriminate K2|]. apply in_seq. lia.
    + destruct FA as (F1 & F2 & l1 & l2 & F3 & F4). apply in_seq in F2. split.
      * split; [lia|]. apply EQ. apply S3. exact F1.
      * intros j Hj (J1 & J2). apply EQ in J2. apply S3 in J2. rewrite F4 in J2; [discriminate J2|].
        apply (seq_split_lt _ _ _ _ _ F3); lia.
  - intros k (K1 & K2). apply (RO 0 (naccept a + k)); [apply Z3; apply P_nil|exact K2].
Qed.

Lemma first_accept_le s acc : forall l, (forall j, In j l -> acc <= j) -> forall b, (forall j, In j l -> j < acc + b) -> first_accept s acc l <= b.
Proof.
  induction l as [|j l IH]; intros H b Hb; cbn [first_accept]; [lia|].
  destruct (getb s j).
  - specialize (Hb j (or_introl eq_refl)). specialize (H j (or_introl eq_refl)). lia.
  - apply IH; intros i Hi; [apply H|apply Hb]; right; exact Hi.
Qed.

Theorem dfa_wf fuel ff ord a d : wf a -> (forall l, Permutation (ord l) l) -> dfa_of C fuel ff ord a = Some d ->
  wf_dfa C ok d /\ deterministic C d /\ 0 < dst d /\ dactions d = nst a - naccept a.
Proof.
  intros W HP H. destruct (dfa_of_represents _ _ _ _ _ W HP H) as (HA & num & states & R1 & R2 & R3 & R4 & R5 & R6 & R7).
  assert (OUT : forall i c t, In (c, t) (nth i (drules d) []) -> i < dst d).
  { intros i c t K. destruct (Nat.lt_ge_cases i (dst d)) as [B|B]; [exact B|]. rewrite nth_overflow in K by lia. destruct K. }
  split; [|split; [|split]].
  - split; [exact R2|]. split; [exact R3|]. split.
    + intros i. destruct (Nat.lt_ge_cases i (dst d)) as [B|B]; [|rewrite nth_overflow by lia; lia].
      destruct (R5 i B) as (s & S1 & <-). destruct (R6 s S1) as (_ & _ & AC & _). unfold dacc in AC. rewrite AC, HA.
      apply first_accept_le; intros j Hj; apply in_seq in Hj; lia.
    + intros i c t K. destruct (R5 i (OUT _ _ _ K)) as (s & S1 & <-). destruct (R6 s S1) as (_ & _ & _ & es & (T1 & _) & T4 & T5).
      rewrite T5 in K. apply in_map_iff in K. destruct K as ([c' n] & K0 & K1). cbn in K0. injection K0 as -> <-.
      destruct (T1 _ _ K1) as (U1 & U2 & _). split; [apply R4; apply (T4 _ _ K1)|]. auto.
  - intros q c1 t1 c2 t2 x K1 K2 A1 A2. unfold dedge in *.
    destruct (R5 q (OUT _ _ _ K1)) as (s & S1 & <-). destruct (R6 s S1) as (_ & _ & _ & es & (T1 & _ & T3) & T4 & T5).
    rewrite T5 in K1, K2. apply in_map_iff in K1. apply in_map_iff in K2.
    destruct K1 as ([c1' n1] & E1 & K1). destruct K2 as ([c2' n2] & E2 & K2). cbn in E1, E2.
    injection E1 as -> <-. injection E2 as -> <-. f_equal.
    apply bits_ext.
    + destruct (T1 _ _ K1) as (_ & _ & U1 & _). destruct (T1 _ _ K2) as (_ & _ & U2 & _). congruence.
    + intros i. apply eq_true_iff_eq. rewrite (T3 _ _ _ K1 A1), (T3 _ _ _ K2 A2). tauto.
  - destruct R7 as (s0 & Z1 & Z2 & _). specialize (R4 _ Z1). lia.
  - exact HA.
Qed.
End D.
