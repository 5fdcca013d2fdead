(** The AST of a text is that of a derivation. *)
From Coq Require Import List Bool PeanoNat Lia Wf_nat.
From Verif Require Import Base GrammarModel GrammarSpec GrammarProofs ParserModel ParserSpec ParserProofs TreeModel TreeSpec.
Import ListNotations.

(** ** Variables *)
Lemma var_eqb_refl x : var_eqb x x = true.
Proof. unfold var_eqb. rewrite Nat.eqb_refl, Bool.eqb_reflx. reflexivity. Qed.
Lemma var_eqb_eq x y : var_eqb x y = true -> x = y.
Proof. unfold var_eqb. intros E. apply andb_prop in E. destruct E as (A & B). apply Nat.eqb_eq in A. apply Bool.eqb_prop in B. destruct x, y. cbn in *. congruence. Qed.
Definition assigns (cs : list capture) (vs : store) : store := fold_left (fun vs c => assign (fst c) (snd c) vs) cs vs.
Lemma assigns_app a b vs : assigns (a ++ b) vs = assigns b (assigns a vs).
Proof. apply fold_left_app. Qed.
Lemma pieces_app x a b : pieces x (a ++ b) = pieces x a ++ pieces x b.
Proof. unfold pieces. rewrite filter_app, map_app. reflexivity. Qed.
Lemma lookup_assign x y v vs : lookup x (assign y v vs) = if var_eqb x y then (if snd x then lookup x vs ++ [v] else [v]) else lookup x vs.
Proof. unfold assign. cbn [lookup]. destruct (var_eqb x y) eqn:E; [|reflexivity]. apply var_eqb_eq in E. subst y. reflexivity. Qed.
Lemma lookup_assigns x cs : forall vs, lookup x (assigns cs vs) = if snd x then lookup x vs ++ pieces x cs else match rev (pieces x cs) with [] => lookup x vs | v :: _ => [v] end.
Proof.
  induction cs as [|c cs IH] using rev_ind; intros vs.
  - cbn. rewrite app_nil_r. destruct (snd x); reflexivity.
  - rewrite assigns_app. cbn [assigns fold_left]. rewrite lookup_assign, pieces_app. unfold pieces at 2 4. cbn [filter].
    fold (assigns cs vs). rewrite IH. destruct (var_eqb x (fst c)) eqn:E; cbn [map].
    + destruct (snd x); [rewrite app_assoc; reflexivity|]. rewrite rev_unit. reflexivity.
    + rewrite !app_nil_r. reflexivity.
Qed.
Lemma lookup_content x cs : lookup x (assigns cs []) = content x cs.
Proof. rewrite lookup_assigns. unfold content, last_of. cbn [lookup app]. reflexivity. Qed.

Section G.
Variable g : grammar.
Variable first follow : table.
Variable tok : nat -> id.
Variable cond : nat -> bool.
Variable decl : id -> var.
Notation kind := (kind g).
Notation run := (run g first follow tok cond).
Notation trun := (trun g first follow tok cond decl).
Notation matches := (matches g tok decl).
Notation good := (good tok).

(** ** Building the tree does not change the parse *)
Definition strip (o : toutcome) : outcome := match o with TDone ts => Done (fst ts) | TFail ts => Fail (fst ts) | TOut => Out | TOdd => Odd end.
Definition plain (j : job) : Prop := match j with Item _ | Rules _ | Branches _ => True | _ => False end.
Lemma strip_next o k k' : (forall st vs, strip (k (st, vs)) = k' st) -> strip (tnext o k) = next_do (strip o) k'.
Proof. intros H. destruct o as [[st vs]|[st vs]| |]; cbn; auto. Qed.
Lemma strip_tof o vs : strip (tof o vs) = o.
Proof. destruct o; reflexivity. Qed.
Lemma trun_run : no_operators g -> forall f cur cc j st vs, plain j -> strip (trun f cur cc j (st, vs)) = run f cur cc j st.
Proof.
  intros NO. induction f as [f IH0] using lt_wf_ind. destruct f as [|f]; intros cur cc j st vs P; [reflexivity|]. cbn [TreeModel.trun ParserModel.run].
  assert (IH := IH0 f (Nat.lt_succ_diag_r f)).
  destruct j as [n|es|ns|? ? ?|? ? ?]; try contradiction.
  - destruct (kind n) as [| | |s|s|i c a|i c a|ii|l r|l r|i s|t c|i|i|b ops x|] eqn:K; try reflexivity.
    + destruct (Nat.eqb (ptok st) n); reflexivity.
    + rewrite <- (IH s false (Rules (env g s)) st [] I). destruct (trun f s false _ _) as [[st' ws]|[st' ws]| |]; reflexivity.
    + destruct (search_rule g s) as [e|]; [|reflexivity]. destruct (kind e); try reflexivity. destruct (guarded _ _ _ _ st) as [go st1]. destruct go; [|reflexivity].
      rewrite <- (IH cur cc (Item i) st1 vs I). apply strip_next. intros st2 vs2. cbn [fst]. destruct (mem _ _ && _); reflexivity.
    + rewrite <- (IH cur cc (Item i) st vs I). apply strip_next. intros st2 vs2. cbn [fst]. destruct (test _ _ _ _); [apply IH; exact I|reflexivity].
    + destruct (test _ _ _ _); [|reflexivity]. rewrite <- (IH cur cc (Item i) st vs I). apply strip_next. intros st2 vs2. apply IH. exact I.
    + destruct ii; [apply IH; exact I|reflexivity].
    + destruct (flatten g f [l; r]); [apply IH; exact I|reflexivity].
    + rewrite <- (IH cur cc (Item l) st vs I). apply strip_next. intros st2 vs2. apply IH. exact I.
    + destruct c as [c|].
      * rewrite <- (IH cur true (Item t) (block true st) vs I). destruct (trun f cur true (Item t) (block true st, vs)) as [[st' ws]|[st' ws]| |]; try reflexivity. apply IH. exact I.
      * rewrite <- (IH cur true (Item t) st vs I). destruct (trun f cur true (Item t) (st, vs)) as [[st' ws]|[st' ws]| |]; try reflexivity. apply strip_tof.
    + destruct f as [|f']; [destruct (kind i); reflexivity|]. destruct (kind i) eqn:Ki; try reflexivity; cbn [ParserModel.run]; rewrite Ki.
      * destruct (Nat.eqb (ptok st) i); reflexivity.
      * rewrite <- (IH0 f' ltac:(lia) s false (Rules (env g s)) st [] I). destruct (trun f' s false _ _) as [[st' ws]|[st' ws]| |]; reflexivity.
    + apply IH. exact I.
    + destruct (NO n b ops x K).
  - destruct es as [|e es]; [reflexivity|]. destruct (kind e); try (apply IH; exact I). destruct (guarded _ _ _ _ st) as [go st1]. destruct go; [|apply IH; exact I].
    rewrite <- (IH cur cc (Item i) st1 vs I). apply strip_next. intros st2 vs2. cbn [fst]. destruct (mem _ _ && _); reflexivity.
  - destruct ns as [|n ns]; [reflexivity|]. destruct (guarded _ _ _ _ st) as [go st1]. destruct go; apply IH; exact I.
Qed.

(** ** Quiet items store nothing *)
Section Q.
Variable Q : id -> Prop.
Hypothesis QA : forall n, Q n -> forall i, kind n <> NAnn i.
Hypothesis QC : forall n m, Q n -> child g n m -> Q m.
Hypothesis QI : forall n s e b, Q n -> kind n = NInl s -> In e (grules g) -> kind e = NEvolve b s -> Q b.
Definition keeps (vs : store) (o : toutcome) : Prop := match o with TDone (_, ws) | TFail (_, ws) => ws = vs | _ => True end.
Lemma keeps_next vs o k : keeps vs o -> (forall st, keeps vs (k (st, vs))) -> keeps vs (tnext o k).
Proof. intros H K. destruct o as [[st ws]|[st ws]| |]; cbn in *; subst; auto. Qed.
Lemma quiet_keeps f : forall cur cc st vs, (forall n, Q n -> keeps vs (trun f cur cc (Item n) (st, vs))) /\ (forall ns, (forall n, In n ns -> Q n) -> keeps vs (trun f cur cc (Branches ns) (st, vs))).
Proof.
  induction f as [|f IH]; intros cur cc st vs; [split; intros; exact I|]. split; cbn [TreeModel.trun].
  - intros n QN. destruct (kind n) as [| | |s|s|i c a|i c a|ii|l r|l r|i s|t c|i|i|b ops x|] eqn:K; try exact I; try reflexivity.
    + destruct (Nat.eqb (ptok st) n); reflexivity.
    + destruct (trun f s false _ _) as [[st' ws]|[st' ws]| |]; try exact I; reflexivity.
    + destruct (search_rule g s) as [e|] eqn:SR; [|exact I]. destruct (kind e) as [| | |?|?|? ? ?|? ? ?|?|? ?|? ?|b s'|? ?|?|?|? ? ?|] eqn:Ke; try exact I.
      destruct (guarded _ _ _ _ st) as [go st1]. destruct go; [|reflexivity]. apply find_some in SR. destruct SR as (IE & RE). unfold rule_of in RE. rewrite Ke in RE. apply Nat.eqb_eq in RE. subst s'.
      apply keeps_next; [apply IH; exact (QI n s e b QN K IE Ke)|]. intros st2. cbn [fst]. destruct (mem _ _ && _); reflexivity.
    + assert (Qi : Q i) by (apply (QC n); [exact QN|unfold child; rewrite K; reflexivity]). apply keeps_next; [apply IH; exact Qi|]. intros st2. cbn [fst]. destruct (test _ _ _ _); [apply IH; exact QN|reflexivity].
    + assert (Qi : Q i) by (apply (QC n); [exact QN|unfold child; rewrite K; reflexivity]). destruct (test _ _ _ _); [|reflexivity]. apply keeps_next; [apply IH; exact Qi|]. intros st2. apply IH. exact QN.
    + destruct ii as [i|]; [|reflexivity]. apply IH. apply (QC n); [exact QN|unfold child; rewrite K; reflexivity].
    + destruct (flatten g f [l; r]) as [ns|] eqn:F; [|exact I]. apply IH. apply (flatten_all g Q) with (f := f) (work := [l; r]); [|exact F|].
      * intros m l' r' Km Qm. split; apply (QC m); try exact Qm; unfold child; rewrite Km; auto.
      * intros m [<-|[<-|[]]]; apply (QC n); try exact QN; unfold child; rewrite K; auto.
    + apply keeps_next; [apply IH; apply (QC n); [exact QN|unfold child; rewrite K; auto]|]. intros st2. apply IH. apply (QC n); [exact QN|unfold child; rewrite K; auto].
    + assert (Qt : Q t) by (apply (QC n); [exact QN|unfold child; rewrite K; destruct c; auto]). destruct c as [c|].
      * pose proof (proj1 (IH cur true (block true st) vs) t Qt) as H. destruct (trun f cur true (Item t) (block true st, vs)) as [[st' ws]|[st' ws]| |]; try exact I; cbn in H; subst ws; [reflexivity|].
        apply IH. apply (QC n); [exact QN|unfold child; rewrite K; auto].
      * pose proof (proj1 (IH cur true st vs) t Qt) as H. destruct (trun f cur true (Item t) (st, vs)) as [[st' ws]|[st' ws]| |]; try exact I; cbn in H; subst ws; [reflexivity|].
        destruct (skip _ _ _ _ _ _); try exact I; reflexivity.
    + destruct (QA n QN i K).
    + apply IH. apply (QC n); [exact QN|unfold child; rewrite K; auto].
  - intros ns QN. destruct ns as [|n ns]; [reflexivity|]. destruct (guarded _ _ _ _ st) as [go st1]. destruct go; apply IH; [apply QN; left; reflexivity|intros m M; apply QN; right; exact M].
Qed.
End Q.

(** ** The tree is that of a derivation *)
Hypothesis NOREC : no_recovery g.
Hypothesis INLINED : inlined_can_go g tok decl.
Hypothesis ATT : plain_attempts g.
Definition tclaim (cur : id) (j : job) (a b : nat) (cs : list capture) : Prop :=
  match j with
  | Item n => matches n a b cs
  | Rules es => (forall e, In e es -> In e (grules g) /\ rule_of g cur e = true) -> exists e i, In e (grules g) /\ kind e = NEvolve i cur /\ matches i a b cs
  | Branches ns => exists n, In n ns /\ matches n a b cs
  | _ => False
  end.
Lemma trun_sound f : forall cur cc j st vs st' vs', trun f cur cc j (st, vs) = TDone (st', vs') -> good st ->
  good st' /\ pidx st <= pidx st' /\ exists cs, vs' = assigns cs vs /\ tclaim cur j (pidx st - 1) (pidx st' - 1) cs.
Proof.
  induction f as [f IH0] using lt_wf_ind. destruct f as [|f]; intros cur cc j st vs st' vs' E G; [discriminate|]. pose proof (proj1 G) as G1.
  assert (IH := IH0 f (Nat.lt_succ_diag_r f)). cbn [TreeModel.trun] in E.
  assert (SELF : forall n, Nat.eqb (ptok st) n = true -> tok (pidx st - 1) = n /\ good (yylex tok st) /\ pidx st <= pidx (yylex tok st) /\ pidx (yylex tok st) - 1 = S (pidx st - 1)).
  { intros n T. apply Nat.eqb_eq in T. split; [rewrite <- T; symmetry; apply G|]. split; [apply yylex_good|]. cbn [yylex pidx]. lia. }
  assert (CALL : forall f' s st2 ws, f' < S f -> trun f' s false (Rules (env g s)) (st, []) = TDone (st2, ws) ->
    good st2 /\ pidx st <= pidx st2 /\ exists e i cs, In e (grules g) /\ kind e = NEvolve i s /\ matches i (pidx st - 1) (pidx st2 - 1) cs /\ forall x, lookup x ws = content x cs).
  { intros f' s st2 ws L R. destruct (IH0 f' L _ _ _ _ _ _ _ R G) as (A & B & cs & W & C). split; [exact A|]. split; [exact B|].
    destruct (C (env_rules g s)) as (e & i & C1 & C2 & C3). exists e, i, cs. repeat (split; [assumption|]). intros x. rewrite W. apply lookup_content. }
  destruct j as [n|es|ns|n b ops|n b ops]; try discriminate.
  - unfold tclaim. destruct (kind n) as [| | |s|s|i c a|i c a|ii|l r|l r|i s|t c|i|i|b ops x|] eqn:K; try discriminate.
    + injection E as <- <-. split; [exact G|]. split; [lia|]. exists []. split; [reflexivity|]. apply k_zero. exact K.
    + destruct (Nat.eqb (ptok st) n) eqn:T; [|discriminate]. injection E as <- <-. destruct (SELF n T) as (T1 & T2 & T3 & T4). split; [exact T2|]. split; [exact T3|].
      exists []. split; [reflexivity|]. rewrite T4. apply k_term; assumption.
    + destruct (trun f s false (Rules (env g s)) (st, [])) as [[st2 ws]|[st2 ws]| |] eqn:R; try discriminate. cbn [returns] in E. injection E as <- <-.
      destruct (CALL f s st2 ws (Nat.lt_succ_diag_r f) R) as (A & B & e & i & cs & C1 & C2 & C3 & C4). split; [exact A|]. split; [exact B|]. exists []. split; [reflexivity|].
      exact (k_non g tok decl n s e i _ _ cs K C1 C2 C3).
    + destruct (search_rule g s) as [e|] eqn:SR; [|discriminate]. destruct (kind e) as [| | |?|?|? ? ?|? ? ?|?|? ?|? ?|b s'|? ?|?|?|? ? ?|] eqn:Ke; try discriminate.
      apply find_some in SR. destruct SR as (IE & RE). unfold rule_of in RE. rewrite Ke in RE. apply Nat.eqb_eq in RE. subst s'.
      destruct (guarded _ _ _ _ st) as [go st1] eqn:GE. destruct (guarded_same _ _ _ _ _ _ _ GE) as [S1 _]. pose proof (same_good tok _ _ S1 G) as G2. pose proof (proj1 S1) as P1. destruct go.
      * destruct (trun f cur cc (Item b) (st1, vs)) as [[st2 ws]|[st2 ws]| |] eqn:R; try discriminate. cbn [tnext fst] in E.
        destruct (mem s (gstart g) && negb (Nat.eqb (ptok st2) (geof g))); [discriminate|]. injection E as <- <-.
        destruct (IH _ _ _ _ _ _ _ R G2) as (A & B & cs & W & C). split; [exact A|]. split; [lia|]. exists cs. split; [exact W|]. rewrite P1. exact (k_inl g tok decl n s e b _ _ cs K IE Ke C).
      * injection E as <- <-. split; [exact G2|]. split; [lia|]. exists []. split; [reflexivity|]. rewrite P1. destruct (INLINED n s K) as (e2 & b2 & I2 & K2 & M2).
        exact (k_inl g tok decl n s e2 b2 _ _ [] K I2 K2 (M2 _)).
    + destruct (trun f cur cc (Item i) (st, vs)) as [[st1 vs1]|[st1 vs1]| |] eqn:R; try discriminate. cbn [tnext fst] in E. destruct (IH _ _ _ _ _ _ _ R G) as (A & B & cs & W & C).
      destruct (test g first n (ptok st1)).
      * destruct (IH _ _ _ _ _ _ _ E A) as (A2 & B2 & ds & W2 & C2). split; [exact A2|]. split; [lia|]. exists (cs ++ ds). split; [rewrite assigns_app, <- W; exact W2|].
        exact (k_plus g tok decl n i c a _ _ _ cs ds K C C2).
      * injection E as <- <-. split; [exact A|]. split; [exact B|]. exists cs. split; [exact W|]. exact (k_plus_one g tok decl n i c a _ _ cs K C).
    + destruct (test g first n (ptok st)).
      * destruct (trun f cur cc (Item i) (st, vs)) as [[st1 vs1]|[st1 vs1]| |] eqn:R; try discriminate. cbn [tnext fst] in E. destruct (IH _ _ _ _ _ _ _ R G) as (A & B & cs & W & C).
        destruct (IH _ _ _ _ _ _ _ E A) as (A2 & B2 & ds & W2 & C2). split; [exact A2|]. split; [lia|]. exists (cs ++ ds). split; [rewrite assigns_app, <- W; exact W2|].
        exact (k_star g tok decl n i c a _ _ _ cs ds K C C2).
      * injection E as <- <-. split; [exact G|]. split; [lia|]. exists []. split; [reflexivity|]. exact (k_star_none g tok decl n i c a _ K).
    + destruct ii as [i|].
      * destruct (IH _ _ _ _ _ _ _ E G) as (A & B & cs & W & C). split; [exact A|]. split; [exact B|]. exists cs. split; [exact W|]. exact (k_act g tok decl n i _ _ cs K C).
      * injection E as <- <-. split; [exact G|]. split; [lia|]. exists []. split; [reflexivity|]. exact (k_code g tok decl n _ K).
    + destruct (flatten g f [l; r]) as [ns|] eqn:F; [|discriminate]. destruct (IH _ _ _ _ _ _ _ E G) as (A & B & cs & W & m & Im & C). split; [exact A|]. split; [exact B|]. exists cs. split; [exact W|].
      assert (ALL : forall m, In m ns -> forall i j cs, matches m i j cs -> matches n i j cs).
      { apply (flatten_all g (fun m => forall i j cs, matches m i j cs -> matches n i j cs)) with (f := f) (work := [l; r]); [|exact F|].
        - intros m' l' r' Km P. split; intros u v ds D; apply P; [exact (k_left g tok decl m' l' r' u v ds Km D)|exact (k_right g tok decl m' l' r' u v ds Km D)].
        - intros m' [<-|[<-|[]]] u v ds D; [exact (k_left g tok decl n l r u v ds K D)|exact (k_right g tok decl n l r u v ds K D)]. }
      exact (ALL m Im _ _ _ C).
    + destruct (trun f cur cc (Item l) (st, vs)) as [[st1 vs1]|[st1 vs1]| |] eqn:R; try discriminate. cbn [tnext fst] in E. destruct (IH _ _ _ _ _ _ _ R G) as (A & B & cs & W & C).
      destruct (IH _ _ _ _ _ _ _ E A) as (A2 & B2 & ds & W2 & C2). split; [exact A2|]. split; [lia|]. exists (cs ++ ds). split; [rewrite assigns_app, <- W; exact W2|].
      exact (k_cons g tok decl n l r _ _ _ cs ds K C C2).
    + destruct c as [c|]; [|destruct (NOREC n t K)]. destruct ATT as (Q & Q1 & Q2 & Q3 & Q4).
      pose proof (proj1 (quiet_keeps Q Q2 Q3 Q4 f cur true (block true st) vs) t (Q1 n t c K)) as QK.
      destruct (trun f cur true (Item t) (block true st, vs)) as [[st1 vs1]|[st1 vs1]| |] eqn:R; try discriminate.
      * injection E as <- <-. destruct (IH _ _ _ _ _ _ _ R G) as (A & B & cs & W & C). split; [exact A|]. split; [exact B|]. exists cs. split; [exact W|]. exact (k_try g tok decl n t (Some c) _ _ cs K C).
      * cbn in QK. subst vs1. destruct (IH _ _ _ _ _ _ _ E) as (A & B & cs & W & C); [apply yylex_good|]. split; [exact A|].
        cbn [rewind yylex pidx] in B. split; [lia|]. exists cs. split; [exact W|]. apply (k_catch g tok decl n t c _ _ cs K).
        unfold tclaim in C. cbn [rewind yylex pidx] in C. replace (S (pidx st - 1) - 1) with (pidx st - 1) in C by lia. exact C.
    + destruct f as [|f']; [destruct (kind i); discriminate|]. destruct (kind i) as [| | |s|s|? ? ?|? ? ?|?|? ?|? ?|? ?|? ?|?|?|? ? ?|] eqn:Ki; try discriminate.
      * destruct (Nat.eqb (ptok st) i) eqn:T; [|discriminate]. injection E as <- <-. destruct (SELF i T) as (T1 & T2 & T3 & T4). split; [exact T2|]. split; [exact T3|].
        exists [(decl n, VTok (pidx st - 1))]. split; [reflexivity|]. rewrite T4. exact (k_token g tok decl n i _ K Ki T1).
      * destruct (trun f' s false (Rules (env g s)) (st, [])) as [[st2 ws]|[st2 ws]| |] eqn:R; try discriminate. cbn [returns] in E. injection E as <- <-.
        destruct (CALL f' s st2 ws ltac:(lia) R) as (A & B & e & b & cs & C1 & C2 & C3 & C4). split; [exact A|]. split; [exact B|].
        exists [(decl n, VNode s (pidx st - 1) (pidx st2 - 1) ws)]. split; [reflexivity|]. exact (k_node g tok decl n i s e b _ _ cs ws K Ki C1 C2 C3 C4).
    + destruct (IH _ _ _ _ _ _ _ E G) as (A & B & cs & W & C). split; [exact A|]. split; [exact B|]. exists cs. split; [exact W|]. exact (k_cond g tok decl n i _ _ cs K C).
  - unfold tclaim. destruct es as [|e es]; [discriminate|].
    destruct (kind e) as [| | |?|?|? ? ?|? ? ?|?|? ?|? ?|i s|? ?|?|?|? ? ?|] eqn:K;
      try (destruct (IH _ _ _ _ _ _ _ E G) as (A & B & cs & W & C); split; [exact A|]; split; [exact B|]; exists cs; split; [exact W|]; intros RS; apply C; intros e' I'; apply RS; right; exact I').
    destruct (guarded _ _ _ _ st) as [go st1] eqn:GE. destruct (guarded_same _ _ _ _ _ _ _ GE) as [S1 _]. pose proof (same_good tok _ _ S1 G) as G2. pose proof (proj1 S1) as P1. destruct go.
    + destruct (trun f cur cc (Item i) (st1, vs)) as [[st2 ws]|[st2 ws]| |] eqn:R; try discriminate. cbn [tnext fst] in E.
      destruct (mem s (gstart g) && negb (Nat.eqb (ptok st2) (geof g))); [discriminate|]. injection E as <- <-.
      destruct (IH _ _ _ _ _ _ _ R G2) as (A & B & cs & W & C). split; [exact A|]. split; [lia|]. exists cs. split; [exact W|]. intros RS.
      destruct (RS e (or_introl eq_refl)) as (Ie & Re). unfold rule_of in Re. rewrite K in Re. apply Nat.eqb_eq in Re. subst s. exists e, i. rewrite P1. repeat split; assumption.
    + destruct (IH _ _ _ _ _ _ _ E G2) as (A & B & cs & W & C). split; [exact A|]. split; [lia|]. exists cs. split; [exact W|]. intros RS. rewrite P1. apply C. intros e' I'. apply RS. right. exact I'.
  - unfold tclaim. destruct ns as [|n ns]; [discriminate|]. destruct (guarded _ _ _ _ st) as [go st1] eqn:GE. destruct (guarded_same _ _ _ _ _ _ _ GE) as [S1 _].
    pose proof (same_good tok _ _ S1 G) as G2. pose proof (proj1 S1) as P1. destruct go; destruct (IH _ _ _ _ _ _ _ E G2) as (A & B & cs & W & C); (split; [exact A|]); (split; [lia|]); exists cs; (split; [exact W|]); rewrite P1.
    + exists n. split; [left; reflexivity|exact C].
    + destruct C as (m & Im & C). exists m. split; [right; exact Im|exact C].
Qed.

End G.

(** ** Nesting *)
Lemma order_weak l : forall i i' j j', in_order i j l -> i' <= i -> j <= j' -> in_order i' j' l.
Proof. induction l as [|v l IH]; intros i i' j j' H A B; cbn [in_order] in *; [lia|]. destruct H as (X & Y & Z). split; [lia|]. split; [exact Y|]. apply (IH _ _ _ _ Z); lia. Qed.
Lemma order_le l : forall i j, in_order i j l -> i <= j.
Proof. induction l as [|v l IH]; intros i j H; cbn [in_order] in H; [exact H|]. destruct H as (X & Y & Z). apply IH in Z. lia. Qed.
Lemma order_app a : forall b i j k, in_order i j a -> in_order j k b -> in_order i k (a ++ b).
Proof.
  induction a as [|v a IH]; intros b i j k H K; cbn [in_order app] in *; [apply (order_weak b j i k k K); lia|]. destruct H as (X & Y & Z). split; [exact X|]. split; [exact Y|]. exact (IH _ _ _ _ Z K).
Qed.
Lemma order_filter {A} (f : A -> val) p l : forall i j, in_order i j (map f l) -> in_order i j (map f (filter p l)).
Proof.
  induction l as [|v l IH]; intros i j H; [exact H|]. cbn [map in_order filter] in *. destruct H as (X & Y & Z). destruct (p v).
  - cbn [map in_order]. split; [exact X|]. split; [exact Y|]. exact (IH _ _ Z).
  - apply (order_weak _ (hi (f v)) i j j); [exact (IH _ _ Z)|lia|lia].
Qed.
Lemma order_last l : forall i j, in_order i j l -> in_order i j (last_of l).
Proof.
  intros i j H. unfold last_of. destruct (rev l) as [|v r] eqn:E; [exact (order_le l i j H)|]. assert (L : l = rev r ++ [v]) by (rewrite <- (rev_involutive l), E; reflexivity). rewrite L in H.
  clear E L. revert i H. induction (rev r) as [|u q IH]; intros i H; [exact H|]. cbn [app in_order] in H. destruct H as (X & Y & Z). apply (order_weak [v] (hi u) i j j); [exact (IH _ Z)|lia|lia].
Qed.
Lemma content_in x cs v : In v (content x cs) -> In v (map snd cs).
Proof.
  unfold content. assert (P : In v (pieces x cs) -> In v (map snd cs)).
  { unfold pieces. rewrite !in_map_iff. intros (c & E & I). apply filter_In in I. exists c. tauto. }
  destruct (snd x); [exact P|]. intros H. apply P. unfold last_of in H. destruct (rev (pieces x cs)) as [|u r] eqn:E; [destruct H|]. destruct H as [->|[]]. apply in_rev. rewrite E. left. reflexivity.
Qed.
Lemma content_order x cs i j : in_order i j (map snd cs) -> in_order i j (content x cs).
Proof. intros H. unfold content, pieces. destruct (snd x); [apply order_filter; exact H|apply order_last, order_filter; exact H]. Qed.
Lemma matches_nested g tok decl n i j cs : TreeSpec.matches g tok decl n i j cs -> in_order i j (map snd cs) /\ forall v, In v (map snd cs) -> well_nested v.
Proof.
  assert (APP : forall i j k cs ds, in_order i j (map snd cs) /\ (forall v, In v (map snd cs) -> well_nested v) -> in_order j k (map snd ds) /\ (forall v, In v (map snd ds) -> well_nested v) ->
    in_order i k (map (@snd var val) (cs ++ ds)) /\ forall v, In v (map snd (cs ++ ds)) -> well_nested v).
  { intros i0 j0 k0 cs0 ds0 (A & B) (C & D). rewrite map_app. split; [exact (order_app _ _ _ _ _ A C)|]. intros v H. apply in_app_or in H. destruct H; auto. }
  assert (NIL : forall i j, i <= j -> in_order i j (map snd (@nil capture)) /\ forall v, In v (map snd (@nil capture)) -> well_nested v) by (intros; split; [assumption|intros v []]).
  intros M. induction M as [n i K|n i K T|n s e b i j cs K I Ke M IH|n s e b i j cs K I Ke M IH|n b x y i j cs K M IH|n b x y i j k cs ds K M1 IH1 M2 IH2
    |n b x y i K|n b x y i j k cs ds K M1 IH1 M2 IH2|n i K|n b i j cs K M IH|n b i j cs K M IH|n l r i j cs K M IH|n l r i j cs K M IH|n l r i j k cs ds K M1 IH1 M2 IH2
    |n t c i j cs K M IH|n t c i j cs K M IH|n t i K Kt T|n m s e b i j cs vs K Km I Ke M IH V]; try exact IH; try (exact (APP _ _ _ _ _ IH1 IH2)); try (apply NIL; lia).
  - apply NIL. exact (order_le _ _ _ (proj1 IH)).
  - split; [cbn; lia|]. intros v [<-|[]]. constructor.
  - destruct IH as (A & B). pose proof (order_le _ _ _ A) as L. split; [cbn; lia|]. intros v [<-|[]]. cbn [snd]. constructor; [exact L| |].
    + intros x. rewrite V. apply content_order. exact A.
    + intros x v H. rewrite V in H. apply B. exact (content_in x cs v H).
Qed.
