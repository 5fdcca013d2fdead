(** Proofs about InlineModel. *)
From Coq Require Import List NArith PeanoNat Bool Lia Relations Wf_nat.
From Verif Require Import Base ItemModel InlineModel InlineSpec.
Import ListNotations.

Lemma teq_spec a b : reflect (a = b) (teq a b).
Proof. unfold teq. destruct (list_eq_dec N.eq_dec a b); constructor; assumption. Qed.
Lemma teq_refl a : teq a a = true.
Proof. destruct (teq_spec a a); congruence. Qed.
Lemma tmem_In a l : tmem a l = true <-> In a l.
Proof.
  unfold tmem. rewrite existsb_exists. split.
  - intros (x & I & E). destruct (teq_spec a x); [subst; exact I|discriminate E].
  - intros I. exists a. split; [exact I|apply teq_refl].
Qed.
Lemma nmem_In n l : existsb (Nat.eqb n) l = true <-> In n l.
Proof.
  rewrite existsb_exists. split.
  - intros (x & I & E). apply Nat.eqb_eq in E. subst. exact I.
  - intros I. exists n. split; [exact I|apply Nat.eqb_refl].
Qed.

Lemma search_first g s r : search g s = Some r <-> first_rule s (rules g) r.
Proof.
  unfold search. generalize (rules g). intros l. split.
  - induction l as [|q l IH]; intros F; cbn [find] in F; [discriminate F|].
    destruct (teq_spec (rsym q) s) as [E|E].
    + injection F as <-. constructor 1. exact E.
    + constructor 2; [exact E|apply IH, F].
  - induction 1 as [r l E|q l r E _ IH]; cbn [find].
    + subst s. rewrite teq_refl. reflexivity.
    + destruct (teq_spec (rsym q) s) as [E'|_]; [contradiction|exact IH].
Qed.
Lemma first_rule_In s l r : first_rule s l r -> In r l /\ rsym r = s.
Proof. induction 1 as [r l E|q l r E _ (I & F)]; split; try assumption; [left; reflexivity|right; exact I]. Qed.
Lemma first_rule_fun s l r : first_rule s l r -> forall r', first_rule s l r' -> r' = r.
Proof.
  induction 1 as [r l E|q l r E _ IH]; intros r' F; inversion F; subst; try reflexivity; try contradiction.
  apply IH. assumption.
Qed.

Section G.
Variable g : grammar.

(** What a visit of an inlined non-terminal does. *)
Definition step (fuel : nat) (cur : list text) (n : nat) (c : cstate) : option outcome :=
    match csym c n with
    | None => Some (c, None)
    | Some s =>
      if tmem s cur then Some (c_cyclic c, Some s)
      else if existsb (Nat.eqb n) (cvisited c) then Some (c, None)
      else
        let c := if operator_symbol g s then c_oper c else c in
        let c := c_visit n c in
        match search g s with
        | None => Some (c, None)
        | Some r =>
          match fuel with
          | 0 => None
          | S f =>
            do p <- check g f (s :: cur) (ritem r) c;
            match snd p with
            | None => Some p
            | Some t => if teq s t then Some (c_null n (fst p), None) else Some p
            end
          end
        end
    end.
Lemma check_eq fuel cur i c : check g fuel cur i c = check_item (step fuel cur) i c.
Proof. destruct fuel; reflexivity. Qed.

(** Errors only grow; a throw comes with an error; symbols only become null,
    and only with an error. *)
Definition grows (c : cstate) (p : outcome) : Prop :=
  ccyclic c <= ccyclic (fst p) /\ coper c <= coper (fst p) /\
  (snd p <> None -> ccyclic c < ccyclic (fst p)) /\
  (ccyclic (fst p) = ccyclic c -> forall n, csym (fst p) n = csym c n).
Lemma grows_refl c : grows c (c, None).
Proof. unfold grows. cbn. repeat split; try lia. intros N. contradiction. Qed.
Lemma grows_seq c p q : grows c p -> snd p = None -> grows (fst p) q -> grows c q.
Proof.
  unfold grows. intros (A1 & A2 & _ & A4) _ (B1 & B2 & B3 & B4). repeat split; try lia.
  - intros N. specialize (B3 N). lia.
  - intros E n. rewrite B4 by lia. apply A4. lia.
Qed.
Lemma item_grows inl (H : forall n c p, inl n c = Some p -> grows c p) :
  forall i c p, check_item inl i c = Some p -> grows c p.
Proof.
  induction i; intros c p E; cbn [check_item] in E;
    try (injection E as <-; apply grows_refl); try (eapply H; exact E);
    try (eapply IHi; exact E);
    destruct (check_item inl i1 c) as [q|] eqn:E1; cbn [obind] in E; try discriminate E;
    destruct (snd q) eqn:S1; try (injection E as <-; eapply IHi1; exact E1);
    (eapply grows_seq; [eapply IHi1; exact E1|exact S1|eapply IHi2; exact E]).
Qed.
Lemma grows_visit c n s p : grows (c_visit n (if operator_symbol g s then c_oper c else c)) p -> grows c p.
Proof. unfold grows. intros (A1 & A2 & A3 & A4). destruct (operator_symbol g s); cbn in *; repeat split; try lia; auto. Qed.
Lemma step_grows : forall fuel cur n c p, step fuel cur n c = Some p -> grows c p.
Proof.
  induction fuel as [|f IH]; intros cur n c p E; unfold step in E;
    (destruct (csym c n) as [s|]; [|injection E as <-; apply grows_refl]);
    (destruct (tmem s cur); [injection E as <-; unfold grows; cbn; repeat split; lia|]);
    (destruct (existsb (Nat.eqb n) (cvisited c)); [injection E as <-; apply grows_refl|]);
    apply (grows_visit c n s);
    (destruct (search g s) as [r|]; [|injection E as <-; apply grows_refl]).
  - discriminate E.
  - set (c1 := c_visit n (if operator_symbol g s then c_oper c else c)) in *.
    cbn zeta in E. destruct (check g f (s :: cur) (ritem r) c1) as [q|] eqn:Q; cbn [obind] in E; [|discriminate E].
    rewrite check_eq in Q.
    pose proof (item_grows _ (fun n c p => IH (s :: cur) n c p) _ _ _ Q) as Gq.
    destruct (snd q) as [t|] eqn:T; [|injection E as <-; exact Gq].
    destruct (teq s t); injection E as <-; [|exact Gq].
    clearbody c1. unfold grows in *. cbn [fst snd c_null ccyclic coper csym]. destruct Gq as (A1 & A2 & A3 & A4).
    assert (N : snd q <> None) by (rewrite T; intros X; discriminate X). specialize (A3 N).
    repeat split; try lia; intros; exfalso; lia.
Qed.
Lemma check_grows fuel cur i c p : check g fuel cur i c = Some p -> grows c p.
Proof. rewrite check_eq. apply item_grows. apply step_grows. Qed.

(** What is thrown is being visited. *)
Lemma item_thrown inl (P : text -> Prop) (H : forall n c p t, inl n c = Some p -> snd p = Some t -> P t) :
  forall i c p t, check_item inl i c = Some p -> snd p = Some t -> P t.
Proof.
  induction i; intros c p t E T; cbn [check_item] in E;
    try (injection E as <-; discriminate T); try (eapply H; eassumption);
    try (eapply IHi; eassumption);
    destruct (check_item inl i1 c) as [q|] eqn:E1; cbn [obind] in E; try discriminate E;
    destruct (snd q) eqn:S1; try (injection E as <-; eapply IHi1; [exact E1|congruence]); eapply IHi2; eassumption.
Qed.
Lemma step_thrown : forall fuel cur n c p t, step fuel cur n c = Some p -> snd p = Some t -> In t cur.
Proof.
  induction fuel as [|f IH]; intros cur n c p t E T; unfold step in E;
    (destruct (csym c n) as [s|]; [|injection E as <-; discriminate T]);
    (destruct (tmem s cur) eqn:M; [injection E as <-; injection T as <-; apply tmem_In, M|]);
    (destruct (existsb (Nat.eqb n) (cvisited c)); [injection E as <-; discriminate T|]);
    (destruct (search g s) as [r|]; [|injection E as <-; discriminate T]).
  - discriminate E.
  - cbn zeta in E.
    destruct (check g f (s :: cur) (ritem r) _) as [q|] eqn:Q; cbn [obind] in E; [|discriminate E].
    rewrite check_eq in Q.
    destruct (snd q) as [u|] eqn:U; [|injection E as <-; congruence].
    destruct (teq_spec s u) as [E'|E']; injection E as <-; [discriminate T|].
    rewrite U in T. injection T as <-.
    pose proof (item_thrown _ (fun t => In t (s :: cur)) (fun n c p t => IH (s :: cur) n c p t) _ _ _ _ Q U) as I.
    destruct I as [I|I]; [contradiction|exact I].
Qed.
Lemma check_thrown fuel cur i c p t : check g fuel cur i c = Some p -> snd p = Some t -> In t cur.
Proof. rewrite check_eq. apply (item_thrown _ (fun t => In t cur)). apply step_thrown. Qed.

(** The fuel is enough. *)
Lemma item_total inl (H : forall n c, inl n c <> None) : forall i c, check_item inl i c <> None.
Proof.
  induction i; intros c; cbn [check_item]; try discriminate; try apply H; try apply IHi;
    (destruct (check_item inl i1 c) as [q|] eqn:E1; cbn [obind]; [|exact (fun _ => IHi1 c E1)]);
    destruct (snd q); [discriminate|apply IHi2|discriminate|apply IHi2|discriminate|apply IHi2].
Qed.
Lemma cur_bound (cur : list text) : NoDup cur -> (forall s, In s cur -> search g s <> None) -> length cur <= length (rules g).
Proof.
  intros N H. rewrite <- (map_length rsym (rules g)). apply NoDup_incl_length; [exact N|].
  intros s I. destruct (search g s) as [r|] eqn:E; [|exfalso; exact (H s I E)].
  apply search_first, first_rule_In in E. destruct E as (J & <-). apply in_map. exact J.
Qed.
Lemma check_total : forall fuel cur i c,
  NoDup cur -> (forall s, In s cur -> search g s <> None) -> length (rules g) <= fuel + length cur -> check g fuel cur i c <> None.
Proof.
  induction fuel as [|f IH]; intros cur i c N H L; rewrite check_eq; apply item_total; clear c i; intros n c; unfold step;
    (destruct (csym c n) as [s|]; [|discriminate]);
    (destruct (tmem s cur) eqn:M; [discriminate|]);
    (destruct (existsb (Nat.eqb n) (cvisited c)); [discriminate|]);
    (destruct (search g s) as [r|] eqn:R; [|discriminate]);
    assert (N' : NoDup (s :: cur)) by (constructor; [rewrite <- tmem_In, M; discriminate|exact N]);
    assert (H' : forall x, In x (s :: cur) -> search g x <> None) by (intros x [<-|I]; [rewrite R; discriminate|apply H, I]).
  - pose proof (cur_bound _ N' H') as B. cbn [length] in B. lia.
  - cbn zeta.
    set (c1 := c_visit n _). assert (T : check g f (s :: cur) (ritem r) c1 <> None) by (apply IH; try assumption; cbn [length]; lia).
    destruct (check g f (s :: cur) (ritem r) c1) as [q|]; [|contradiction]. cbn [obind].
    destruct (snd q) as [t|]; [destruct (teq s t)|]; discriminate.
Qed.

(** Without an error the symbols inlined are well-founded. *)
Variable c0 : nat -> option text.
Definition link (t s : text) : Prop := exists r n, search g s = Some r /\ inlined n (ritem r) /\ c0 n = Some t.
Definition plain (s : text) : Prop := operator_symbol g s = false.
Definition good (s : text) : Prop := Acc link s.
Definition inv (cur : list text) (c : cstate) : Prop :=
  (forall n, csym c n = c0 n) /\
  (forall n s, In n (cvisited c) -> c0 n = Some s -> plain s /\ (In s cur \/ good s)).
Definition quiet (c : cstate) (p : outcome) : Prop := ccyclic (fst p) = ccyclic c /\ coper (fst p) = coper c.

Lemma item_good cur inl
  (G1 : forall n c p, inl n c = Some p -> grows c p)
  (H : forall n c p, inl n c = Some p -> inv cur c -> quiet c p -> inv cur (fst p) /\ (forall s, c0 n = Some s -> plain s /\ good s)) :
  forall i c p, check_item inl i c = Some p -> inv cur c -> quiet c p ->
    inv cur (fst p) /\ (forall n s, inlined n i -> c0 n = Some s -> plain s /\ good s).
Proof.
  induction i; intros c p E I Q; cbn [check_item] in E;
    try (injection E as <-; split; [exact I|intros n0 s0 X; inversion X]);
    try (destruct (IHi c p E I Q) as (A & B); split; [exact A|intros n0 s0 X; inversion X; subst; apply B; assumption]).
  - destruct (H n c p E I Q) as (A & B). split; [exact A|]. intros m s X. inversion X; subst. apply B.
  - destruct (check_item inl i1 c) as [q|] eqn:E1; cbn [obind] in E; [|discriminate E].
    pose proof (item_grows _ G1 _ _ _ E1) as (A1 & A2 & A3 & _). destruct Q as (Q1 & Q2).
    destruct (snd q) eqn:S1.
    { injection E as <-. exfalso. assert (N : ccyclic c < ccyclic (fst q)) by (apply A3; discriminate). lia. }
    pose proof (item_grows _ G1 _ _ _ E) as (B1 & B2 & _ & _).
    destruct (IHi1 c q E1 I) as (J & K1); [split; lia|].
    destruct (IHi2 _ _ E J) as (J2 & K2); [split; lia|].
    split; [exact J2|]. intros m s X. inversion X; subst; [apply K1|apply K2]; assumption.
  - destruct (check_item inl i1 c) as [q|] eqn:E1; cbn [obind] in E; [|discriminate E].
    pose proof (item_grows _ G1 _ _ _ E1) as (A1 & A2 & A3 & _). destruct Q as (Q1 & Q2).
    destruct (snd q) eqn:S1.
    { injection E as <-. exfalso. assert (N : ccyclic c < ccyclic (fst q)) by (apply A3; discriminate). lia. }
    pose proof (item_grows _ G1 _ _ _ E) as (B1 & B2 & _ & _).
    destruct (IHi1 c q E1 I) as (J & K1); [split; lia|].
    destruct (IHi2 _ _ E J) as (J2 & K2); [split; lia|].
    split; [exact J2|]. intros m s X. inversion X; subst; [apply K1|apply K2]; assumption.
  - destruct (check_item inl i1 c) as [q|] eqn:E1; cbn [obind] in E; [|discriminate E].
    pose proof (item_grows _ G1 _ _ _ E1) as (A1 & A2 & A3 & _). destruct Q as (Q1 & Q2).
    destruct (snd q) eqn:S1.
    { injection E as <-. exfalso. assert (N : ccyclic c < ccyclic (fst q)) by (apply A3; discriminate). lia. }
    pose proof (item_grows _ G1 _ _ _ E) as (B1 & B2 & _ & _).
    destruct (IHi1 c q E1 I) as (J & K1); [split; lia|].
    destruct (IHi2 _ _ E J) as (J2 & K2); [split; lia|].
    split; [exact J2|]. intros m s X. inversion X; subst; [apply K1|apply K2]; assumption.
Qed.

Lemma good_none s : search g s = None -> good s.
Proof. intros E. constructor. intros t (r & n & F & _). rewrite E in F. discriminate F. Qed.
Lemma good_some s r : search g s = Some r -> (forall n t, inlined n (ritem r) -> c0 n = Some t -> good t) -> good s.
Proof. intros E H. constructor. intros t (r' & n & F & I & T). rewrite E in F. injection F as <-. exact (H n t I T). Qed.

Lemma step_good : forall fuel cur n c p, step fuel cur n c = Some p -> inv cur c -> quiet c p ->
  inv cur (fst p) /\ (forall s, c0 n = Some s -> plain s /\ good s).
Proof.
  intros fuel. induction fuel as [fuel IH] using (well_founded_induction Wf_nat.lt_wf). intros cur n c p E I Q. unfold step in E.
  pose proof (proj1 I n) as Sn. destruct (csym c n) as [s|].
  2: { injection E as <-. split; [exact I|]. intros s' E'. rewrite <- Sn in E'. discriminate E'. }
  destruct (tmem s cur) eqn:M.
  { exfalso. injection E as <-. destruct Q as (Q & _). cbn in Q. lia. }
  destruct (existsb (Nat.eqb n) (cvisited c)) eqn:V.
  { injection E as <-. split; [exact I|]. intros s' E'. rewrite <- Sn in E'. injection E' as <-.
    apply nmem_In in V. destruct (proj2 I n s V (eq_sym Sn)) as (P & [X|X]); [apply tmem_In in X; congruence|split; assumption]. }
  cbn zeta in E. destruct (operator_symbol g s) eqn:O.
  { exfalso. destruct (search g s) as [r|]; [|injection E as <-; destruct Q as (_ & Q); cbn in Q; lia].
    destruct fuel as [|f]; [discriminate E|].
    destruct (check g f (s :: cur) (ritem r) (c_visit n (c_oper c))) as [q|] eqn:C; cbn [obind] in E; [|discriminate E].
    pose proof (check_grows _ _ _ _ _ C) as (_ & A & _ & _). cbn in A. destruct Q as (_ & Q).
    destruct (snd q) as [t|]; [destruct (teq s t)|]; injection E as <-; cbn in Q; lia. }
  destruct (search g s) as [r|] eqn:R.
  - destruct fuel as [|f]; [discriminate E|].
    destruct (check g f (s :: cur) (ritem r) (c_visit n c)) as [q|] eqn:C; cbn [obind] in E; [|discriminate E].
    pose proof (check_grows _ _ _ _ _ C) as (_ & _ & A & _).
    assert (Sq : p = q).
    { destruct (snd q) as [t|] eqn:T; [exfalso|injection E as <-; reflexivity].
      assert (X : ccyclic (c_visit n c) < ccyclic (fst q)) by (apply A; discriminate).
      destruct Q as (Q & _). cbn in X. destruct (teq s t); injection E as <-; cbn in Q; lia. }
    subst p. clear E.
    assert (I1 : inv (s :: cur) (c_visit n c)).
    { split; [exact (proj1 I)|]. intros m t [<-|J] T.
      - rewrite <- Sn in T. injection T as <-. split; [exact O|left; left; reflexivity].
      - destruct (proj2 I m t J T) as (P & [X|X]); (split; [exact P|]); [left; right; exact X|right; exact X]. }
    rewrite check_eq in C.
    destruct (item_good (s :: cur) _ (step_grows f (s :: cur)) (IH f (Nat.lt_succ_diag_r f) (s :: cur)) _ _ _ C I1 Q) as (I2 & K).
    assert (Gs : good s) by (apply (good_some s r R); intros m t X T; exact (proj2 (K m t X T))).
    split; [|intros t T; rewrite <- Sn in T; injection T as <-; split; assumption].
    split; [exact (proj1 I2)|]. intros m t J T. destruct (proj2 I2 m t J T) as (P & [[<-|X]|X]); (split; [exact P|]);
      [right; exact Gs|left; exact X|right; exact X].
  - injection E as <-. split.
    + split; [exact (proj1 I)|]. intros m t [<-|J] T; [|exact (proj2 I m t J T)].
      rewrite <- Sn in T. injection T as <-. split; [exact O|right; apply good_none, R].
    + intros t T. rewrite <- Sn in T. injection T as <-. split; [exact O|apply good_none, R].
Qed.
Lemma check_good fuel i c p : check g fuel [] i c = Some p -> (forall n, csym c n = c0 n) -> cvisited c = [] -> quiet c p ->
  (forall n, csym (fst p) n = c0 n) /\ (forall n s, inlined n i -> c0 n = Some s -> plain s /\ good s).
Proof.
  intros E A V Q. rewrite check_eq in E.
  destruct (item_good [] _ (step_grows fuel []) (step_good fuel []) _ _ _ E) as (I & K); [|exact Q|].
  - split; [exact A|]. intros n s J. rewrite V in J. destruct J.
  - split; [exact (proj1 I)|exact K].
Qed.
End G.

(** An error comes from a cycle or an inlined operator symbol. *)
Section E.
Variable g : grammar.
Hypothesis no_cycle : ~ cyclic g.
Hypothesis no_oper : ~ inlines_operator g.
Definition context (cur : list text) (i : item) : Prop :=
  (exists q, In q (rules g) /\ forall n, inlined n i -> inlined n (ritem q)) /\
  match cur with
  | [] => True
  | s :: _ =>
    (exists r, search g s = Some r /\ forall n, inlined n i -> inlined n (ritem r)) /\
    forall t, In t cur -> t = s \/ clos_trans text (inlines g) t s
  end.
Definition silent (c : cstate) (p : outcome) : Prop :=
  snd p = None /\ ccyclic (fst p) = ccyclic c /\ coper (fst p) = coper c.
Definition known (c : cstate) : Prop := forall n, csym c n = target g n.
Lemma silent_known c p : grows c p -> silent c p -> known c -> known (fst p).
Proof. intros (_ & _ & _ & A) (_ & E & _) K n. rewrite (A E n). apply K. Qed.

Lemma item_silent inl
  (G1 : forall n c p, inl n c = Some p -> grows c p) (P : nat -> Prop)
  (H : forall n c p, inl n c = Some p -> known c -> P n -> silent c p) :
  forall i c p, check_item inl i c = Some p -> known c -> (forall n, inlined n i -> P n) -> silent c p.
Proof.
  assert (B : forall i1 i2 c p, (forall c p, check_item inl i1 c = Some p -> known c -> (forall n, inlined n i1 -> P n) -> silent c p) ->
    (forall c p, check_item inl i2 c = Some p -> known c -> (forall n, inlined n i2 -> P n) -> silent c p) ->
    (do p <- check_item inl i1 c; match snd p with None => check_item inl i2 (fst p) | Some _ => Some p end) = Some p ->
    known c -> (forall n, inlined n i1 -> P n) -> (forall n, inlined n i2 -> P n) -> silent c p).
  { intros i1 i2 c p H1 H2 E K P1 P2. destruct (check_item inl i1 c) as [q|] eqn:E1; cbn [obind] in E; [|discriminate E].
    destruct (H1 c q E1 K P1) as (A1 & A2 & A3). rewrite A1 in E.
    assert (K2 : known (fst q)) by (apply (silent_known c); [apply (item_grows inl G1 i1); exact E1|repeat split; assumption|exact K]).
    destruct (H2 _ _ E K2 P2) as (B1 & B2 & B3). repeat split; congruence. }
  induction i; intros c p E K Q; cbn [check_item] in E;
    try (injection E as <-; repeat split; reflexivity);
    try (apply (IHi c p E K); intros n0 X; apply Q; constructor; exact X).
  - apply (H n c p E K). apply Q. constructor.
  - apply (B i1 i2 c p IHi1 IHi2 E K); intros n0 X; apply Q; [apply in_alt_l|apply in_alt_r]; exact X.
  - apply (B i1 i2 c p IHi1 IHi2 E K); intros n0 X; apply Q; [apply in_cons_l|apply in_cons_r]; exact X.
  - apply (B i1 i2 c p IHi1 IHi2 E K); intros n0 X; apply Q; [apply in_roll_l|apply in_roll_r]; exact X.
Qed.

Lemma step_silent : forall fuel cur n c p, step g fuel cur n c = Some p -> known c -> context cur (IInl n) -> silent c p.
Proof.
  intros fuel. induction fuel as [fuel IH] using (well_founded_induction Wf_nat.lt_wf). intros cur n c p E K C. unfold step in E.
  destruct (csym c n) as [s|] eqn:Sn; [|injection E as <-; repeat split; reflexivity].
  pose proof (K n) as Tn. rewrite Sn in Tn. symmetry in Tn.
  destruct C as ((q & Iq & Hq) & C2).
  assert (L : match cur with [] => True | h :: _ => inlines g h s end).
  { destruct cur as [|h cur]; [exact I|]. destruct C2 as ((r & R & Hr) & _).
    exists r, n. split; [apply search_first, R|]. split; [apply Hr; constructor|exact Tn]. }
  destruct (tmem s cur) eqn:M.
  { exfalso. apply tmem_In in M. destruct cur as [|h cur]; [destruct M|]. destruct C2 as (_ & C2).
    apply no_cycle. exists s. destruct (C2 s M) as [->|T]; [apply t_step, L|eapply t_trans; [exact T|apply t_step, L]]. }
  destruct (existsb (Nat.eqb n) (cvisited c)); [injection E as <-; repeat split; reflexivity|].
  cbn zeta in E. destruct (operator_symbol g s) eqn:O.
  { exfalso. unfold operator_symbol in O. destruct (search g s) as [r|] eqn:R; [|discriminate O].
    unfold is_operator in O. destruct (ritem r) as [| | | | | | | | | | | | |b] eqn:B; try discriminate O.
    apply no_oper. exists q, n, s, r, b. split; [exact Iq|]. split; [apply Hq; constructor|]. split; [exact Tn|].
    split; [apply search_first, R|exact B]. }
  destruct (search g s) as [r|] eqn:R; [|injection E as <-; repeat split; reflexivity].
  destruct fuel as [|f]; [discriminate E|].
  destruct (check g f (s :: cur) (ritem r) (c_visit n c)) as [q'|] eqn:C; cbn [obind] in E; [|discriminate E].
  rewrite check_eq in C.
  assert (S' : silent (c_visit n c) q').
  { apply (item_silent (step g f (s :: cur)) (step_grows g f (s :: cur)) (fun m => inlined m (ritem r))) with (i := ritem r); [|exact C|exact K|auto].
    intros m c' p' E' K' I'. apply (IH f (Nat.lt_succ_diag_r f) (s :: cur) m c' p' E' K'). split.
    - exists r. split; [apply search_first, first_rule_In in R; apply R|]. intros m' X. inversion X; subst. exact I'.
    - split; [exists r; split; [exact R|]; intros m' X; inversion X; subst; exact I'|].
      intros t [<-|J]; [left; reflexivity|right]. destruct cur as [|h cur]; [destruct J|].
      destruct C2 as (_ & C2). destruct (C2 t J) as [->|T]; [apply t_step, L|eapply t_trans; [exact T|apply t_step, L]]. }
  destruct S' as (A & B1 & B2). rewrite A in E. injection E as <-. repeat split; assumption.
Qed.
Lemma check_silent fuel q c p : In q (rules g) -> check g fuel [] (ritem q) c = Some p -> known c -> silent c p.
Proof.
  intros I E K. rewrite check_eq in E.
  apply (item_silent (step g fuel []) (step_grows g fuel []) (fun m => inlined m (ritem q))) with (i := ritem q); [|exact E|exact K|auto].
  intros m c' p' E' K' I'. apply (step_silent fuel [] m c' p' E' K'). split; [|exact Logic.I].
  exists q. split; [exact I|]. intros m' X. inversion X; subst. exact I'.
Qed.
Lemma rules_silent fuel : forall l c x, incl l (rules g) -> check_rules g fuel l c = Some x -> known c ->
  exists c', x = Some c' /\ ccyclic c' = ccyclic c /\ coper c' = coper c.
Proof.
  induction l as [|q l IH]; intros c x I E K; cbn [check_rules] in E.
  - injection E as <-. exists c. repeat split; reflexivity.
  - destruct (check g fuel [] (ritem q) _) as [p|] eqn:C; cbn [obind] in E; [|discriminate E].
    assert (Iq : In q (rules g)) by (apply I; left; reflexivity).
    pose proof (check_silent _ _ _ _ Iq C K) as Sp. pose proof (check_grows _ _ _ _ _ _ C) as Gp.
    pose proof (silent_known _ _ Gp Sp K) as Kp.
    destruct Sp as (A & B1 & B2). rewrite A in E.
    destruct (IH (fst p) x) as (c' & -> & C1 & C2); [intros y J; apply I; right; exact J|exact E|exact Kp|].
    exists c'. cbn in B1, B2. repeat split; congruence.
Qed.
End E.

(** The whole loop. *)
Lemma rules_total g fuel : length (rules g) <= fuel -> forall l c, exists c', check_rules g fuel l c = Some (Some c').
Proof.
  intros L. induction l as [|q l IH]; intros c; cbn [check_rules]; [exists c; reflexivity|].
  set (c1 := CState _ _ _ _).
  assert (T : check g fuel [] (ritem q) c1 <> None) by (apply check_total; [constructor|intros s []|cbn [length]; lia]).
  destruct (check g fuel [] (ritem q) c1) as [p|] eqn:C; [|contradiction]. cbn [obind].
  destruct (snd p) as [t|] eqn:S'; [exfalso; exact (check_thrown _ _ _ _ _ _ _ C S')|]. apply IH.
Qed.
Lemma rules_grow g fuel : forall l c c', check_rules g fuel l c = Some (Some c') -> ccyclic c <= ccyclic c' /\ coper c <= coper c'.
Proof.
  induction l as [|q l IH]; intros c c' E; cbn [check_rules] in E; [injection E as <-; lia|].
  destruct (check g fuel [] (ritem q) _) as [p|] eqn:C; cbn [obind] in E; [|discriminate E].
  pose proof (check_grows _ _ _ _ _ _ C) as (A & B & _ & _). cbn in A, B.
  destruct (snd p); [discriminate E|]. apply IH in E. lia.
Qed.
Lemma rules_good g fuel c0 : forall l c c', check_rules g fuel l c = Some (Some c') -> (forall n, csym c n = c0 n) ->
  ccyclic c' = ccyclic c -> coper c' = coper c ->
  (forall n, csym c' n = c0 n) /\
  (forall q n s, In q l -> inlined n (ritem q) -> c0 n = Some s -> plain g s /\ good g c0 s).
Proof.
  induction l as [|q l IH]; intros c c' E K Q1 Q2; cbn [check_rules] in E.
  - injection E as <-. split; [exact K|]. intros q n s [].
  - destruct (check g fuel [] (ritem q) _) as [p|] eqn:C; cbn [obind] in E; [|discriminate E].
    pose proof (check_grows _ _ _ _ _ _ C) as (A & B & _ & _). cbn in A, B.
    destruct (snd p); [discriminate E|]. pose proof (rules_grow _ _ _ _ _ E) as (A' & B').
    destruct (check_good g c0 fuel _ _ _ C K eq_refl) as (Kp & Hp); [split; cbn; lia|].
    destruct (IH _ _ E Kp) as (K' & H'); [lia|lia|]. split; [exact K'|].
    intros q' n s [<-|J] X T; [exact (Hp n s X T)|exact (H' q' n s J X T)].
Qed.

Lemma acc_irrefl (R : text -> text -> Prop) s : Acc (fun t s => R s t) s -> ~ clos_trans text R s s.
Proof.
  intros A. induction A as [s _ IH]. intros T.
  assert (X : exists t, R s t /\ (t = s \/ clos_trans text R t s)).
  { apply clos_trans_t1n_iff in T. inversion T as [y E|y z E T']; subst.
    - exists s. split; [exact E|left; reflexivity].
    - exists y. split; [exact E|right]. apply clos_trans_t1n_iff. exact T'. }
  destruct X as (t & E & [->|T']); [exact (IH s E T)|].
  apply (IH t E). eapply t_trans; [exact T'|apply t_step, E].
Qed.

Lemma inline_exact g fuel : length (rules g) <= fuel ->
  exists c, inline_check g fuel = Some (Some c) /\ (ccyclic c + coper c = 0 <-> ~ cyclic g /\ ~ inlines_operator g).
Proof.
  intros L. unfold inline_check. destruct (rules_total g fuel L (rules g) (CState (target g) [] 0 0)) as (c & E).
  exists c. split; [exact E|]. split.
  - intros Z. destruct (rules_good g fuel (target g) _ _ _ E (fun n => eq_refl)) as (_ & H); [cbn; lia|cbn; lia|]. split.
    + intros (s & T).
      assert (A : Acc (fun t s => inlines g s t) s).
      { assert (X : exists t, inlines g s t).
        { apply clos_trans_t1n_iff in T. inversion T as [y E'|y z E' T']; subst; eauto. }
        destruct X as (t & r & n & F & I & Tn).
        assert (Gs : good g (target g) s).
        { apply (good_some g (target g) s r); [apply search_first, F|]. intros m u Im Tm.
          apply (H r m u); [apply (first_rule_In _ _ _ F)|exact Im|exact Tm]. }
        clear -Gs. unfold good in Gs. induction Gs as [s _ IH]. constructor. intros t (r & n & F & I & Tn). apply IH.
        exists r, n. split; [apply search_first, F|split; assumption]. }
      exact (acc_irrefl (inlines g) s A T).
    + intros (q & n & s & r & b & Iq & In' & Tn & F & B). destruct (H q n s Iq In' Tn) as (P & _).
      unfold plain, operator_symbol in P. rewrite (proj2 (search_first g s r) F) in P. unfold is_operator in P. rewrite B in P. discriminate P.
  - intros (NC & NO). destruct (rules_silent g NC NO fuel _ _ _ (fun x h => h) E (fun n => eq_refl)) as (c' & X & A & B).
    injection X as <-. cbn in A, B. lia.
Qed.

(** Walks end. *)
Section W.
Variable g : grammar.
Variable follow : bool.
Definition wstep (fuel : nat) (n : nat) : option (list event) :=
    match target g n with
    | None => Some []
    | Some s =>
      match search g s with
      | None => Some []
      | Some r => match fuel with 0 => None | S f => do l <- walk g follow f (ritem r); Some (chain follow (rdecls r) ++ l) end
      end
    end.
Lemma walk_eq fuel i : walk g follow fuel i = walk_item (wstep fuel) i.
Proof. destruct fuel; reflexivity. Qed.
Lemma walk_item_more inl inl' i l : (forall n l, inlined n i -> inl n = Some l -> inl' n = Some l) -> walk_item inl i = Some l -> walk_item inl' i = Some l.
Proof.
  revert l. induction i; intros l0 H E; cbn [walk_item] in *; try exact E; try (apply IHi; [intros n0 l1 X; apply H; constructor; exact X|exact E]).
  - apply H; [constructor|exact E].
  - destruct (walk_item inl i1) as [a|] eqn:E1; cbn [obind] in E; [|discriminate E].
    destruct (walk_item inl i2) as [b|] eqn:E2; cbn [obind] in E; [|discriminate E].
    rewrite (IHi1 a), (IHi2 b); auto; intros n0 l1 X; apply H; [apply in_alt_r|apply in_alt_l]; exact X.
  - destruct (walk_item inl i1) as [a|] eqn:E1; cbn [obind] in E; [|discriminate E].
    destruct (walk_item inl i2) as [b|] eqn:E2; cbn [obind] in E; [|discriminate E].
    rewrite (IHi1 a), (IHi2 b); auto; intros n0 l1 X; apply H; [apply in_cons_r|apply in_cons_l]; exact X.
  - destruct (walk_item inl i1) as [a|] eqn:E1; cbn [obind] in E; [|discriminate E].
    destruct (walk_item inl i2) as [b|] eqn:E2; cbn [obind] in E; [|discriminate E].
    rewrite (IHi1 a), (IHi2 b); auto; intros n0 l1 X; apply H; [apply in_roll_r|apply in_roll_l]; exact X.
Qed.
Lemma walk_more : forall f i l f', walk g follow f i = Some l -> f <= f' -> walk g follow f' i = Some l.
Proof.
  induction f as [|f IH]; intros i l f' E L; rewrite walk_eq in *;
    [apply (walk_item_more (wstep 0) (wstep f') i l); [|exact E]|apply (walk_item_more (wstep (S f)) (wstep f') i l); [|exact E]];
    intros n m _; unfold wstep; destruct (target g n) as [s|]; auto; destruct (search g s) as [r|]; auto.
  - intros X; discriminate X.
  - destruct f' as [|f']; [lia|]. destruct (walk g follow f (ritem r)) as [x|] eqn:X; cbn [obind]; [|intros Y; discriminate Y].
    rewrite (IH _ _ f' X) by lia. auto.
Qed.
Lemma walk_ends i : (forall n, inlined n i -> exists f, wstep f n <> None) -> exists f, walk g follow f i <> None.
Proof.
  assert (U : forall f i f', walk g follow f i <> None -> f <= f' -> walk g follow f' i <> None).
  { intros f j f' N L. destruct (walk g follow f j) as [x|] eqn:X; [|contradiction]. rewrite (walk_more _ _ _ f' X L). discriminate. }
  assert (B : forall i1 i2, (exists f, walk g follow f i1 <> None) -> (exists f, walk g follow f i2 <> None) ->
    exists f, (do a <- walk g follow f i1; do b <- walk g follow f i2; Some (a ++ b)) <> None).
  { intros i1 i2 (f1 & N1) (f2 & N2). exists (f1 + f2).
    assert (M1 : walk g follow (f1 + f2) i1 <> None) by (apply (U f1); [exact N1|lia]).
    assert (M2 : walk g follow (f1 + f2) i2 <> None) by (apply (U f2); [exact N2|lia]).
    destruct (walk g follow (f1 + f2) i1); [|contradiction]. destruct (walk g follow (f1 + f2) i2); [|contradiction]. discriminate. }
  induction i; intros H; try (exists 0; rewrite walk_eq; discriminate);
    try (destruct IHi as (f & N); [intros n0 X; apply H; constructor; exact X|exists f; rewrite walk_eq in *; exact N]).
  - destruct (H n) as (f & N); [constructor|]. exists f. rewrite walk_eq. exact N.
  - destruct (B i1 i2) as (f & N); [apply IHi1; intros m X; apply H, in_alt_l, X|apply IHi2; intros m X; apply H, in_alt_r, X|].
    exists f. rewrite !walk_eq in *. exact N.
  - destruct (B i1 i2) as (f & N); [apply IHi1; intros m X; apply H, in_cons_l, X|apply IHi2; intros m X; apply H, in_cons_r, X|].
    exists f. rewrite !walk_eq in *. exact N.
  - destruct (B i1 i2) as (f & N); [apply IHi1; intros m X; apply H, in_roll_l, X|apply IHi2; intros m X; apply H, in_roll_r, X|].
    exists f. rewrite !walk_eq in *. exact N.
Qed.
Lemma good_wstep s : good g (target g) s -> forall n, target g n = Some s -> exists f, wstep f n <> None.
Proof.
  unfold good. induction 1 as [s _ IH]. intros n T. unfold wstep. rewrite T.
  destruct (search g s) as [r|] eqn:R; [|exists 0; discriminate].
  destruct (walk_ends (ritem r)) as (f & N).
  - intros m I. destruct (target g m) as [t|] eqn:Tm; [|exists 0; unfold wstep; rewrite Tm; discriminate].
    apply (IH t); [exists r, m; split; [exact R|split; assumption]|exact Tm].
  - exists (S f). destruct (walk g follow f (ritem r)); [discriminate|contradiction].
Qed.
End W.

Lemma walk_after g c follow : (forall n, csym c n = target g n) -> forall f i l, walk g follow f i = Some l -> walk (after g c) follow f i = Some l.
Proof.
  intros K. induction f as [|f IH]; intros i l E; rewrite walk_eq in *.
  - apply (walk_item_more (wstep g follow 0)); [|exact E]. intros n m _. unfold wstep. cbn [after target]. rewrite K. auto.
  - apply (walk_item_more (wstep g follow (S f))); [|exact E]. intros n m _. unfold wstep. cbn [after target]. rewrite K.
    destruct (target g n) as [s|]; auto. change (search (after g c) s) with (search g s). destruct (search g s) as [r|]; auto.
    destruct (walk g follow f (ritem r)) as [x|] eqn:X; cbn [obind]; [|intros Y; discriminate Y]. rewrite (IH _ _ X). auto.
Qed.
Lemma inline_walks g fuel c follow : inline_check g fuel = Some (Some c) -> ccyclic c + coper c = 0 ->
  (forall n, csym c n = target g n) /\ exists f, forall r, In r (rules g) -> walk_rule (after g c) follow f r <> None.
Proof.
  intros E Z. unfold inline_check in E. destruct (rules_good g fuel (target g) _ _ _ E (fun n => eq_refl)) as (K & H); [cbn; lia|cbn; lia|].
  split; [exact K|].
  assert (A : forall l, incl l (rules g) -> exists f, forall r, In r l -> walk g follow f (ritem r) <> None).
  { induction l as [|q l IH]; intros I; [exists 0; intros r []|].
    destruct IH as (f1 & N1); [intros y J; apply I; right; exact J|].
    destruct (walk_ends g follow (ritem q)) as (f2 & N2).
    - intros m Im. destruct (target g m) as [s|] eqn:Tm; [|exists 0; unfold wstep; rewrite Tm; discriminate].
      apply (good_wstep g follow s); [|exact Tm]. apply (H q m s); [apply I; left; reflexivity|exact Im|exact Tm].
    - exists (f1 + f2). intros r [<-|J].
      + destruct (walk g follow f2 (ritem q)) as [x|] eqn:X; [|contradiction]. rewrite (walk_more g follow _ _ _ (f1 + f2) X) by lia. discriminate.
      + specialize (N1 r J). destruct (walk g follow f1 (ritem r)) as [x|] eqn:X; [|contradiction]. rewrite (walk_more g follow _ _ _ (f1 + f2) X) by lia. discriminate. }
  destruct (A (rules g) (incl_refl _)) as (f & N). exists f. intros r I. unfold walk_rule. specialize (N r I).
  destruct (walk g follow f (ritem r)) as [l|] eqn:X; [|contradiction]. rewrite (walk_after g c follow K f _ _ X). discriminate.
Qed.
