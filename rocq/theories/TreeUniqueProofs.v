(** A careful grammar gives a text one tree at most. *)
From Coq Require Import List Bool PeanoNat Lia.
From Verif Require Import Base GrammarModel GrammarSpec GrammarProofs FirstProofs ParserModel ParserSpec ParserProofs ParserKeepProofs CheckerModel CompleteSpec CompleteProofs TreeModel TreeSpec.
Import ListNotations.

Section G.
Variable g : grammar.
Variables first follow : table.
Variable w0 : list id.
Variable decl : id -> var.
Notation kind := (kind g).
Notation derives := (derives g).
Notation occurs := (occurs g).
Notation written := (written g).
Notation next := (next g).
Notation tok := (stream g w0).
Notation matches := (matches g tok decl).
Notation yes := (fun _ : nat => true).

Hypothesis WF : well_formed g = true.
Hypothesis TOP : operators_on_top g.
Hypothesis FC : forall n x w, kind n = NSym \/ written n -> derives n (x :: w) -> first n x = true.
Hypothesis EC : forall n, derives n [] -> (forall i s, kind n <> NEvolve i s) -> eps g first n = true.
Hypothesis OC : forall n w, occurs n w -> kind (next w) = NTerm /\ (kind n <> NTerm -> kind n <> NZero -> follow n (next w) = true).
Hypothesis AL : forall n l r x, written n -> kind n = NAlt l r -> kind x = NTerm -> first l x = true \/ first r x = true -> first n x = true.
Hypothesis FA : forall n l r x, written n -> kind n = NAlt l r -> kind x = NTerm -> first l x = true -> first r x = false.
Hypothesis FR : forall s e e' x, In e (env g s) -> In e' (env g s) -> e <> e' -> kind x = NTerm -> first e x = true -> first e' x = false.
Hypothesis FS : forall n i c a x, written n -> kind n = NStar i c a -> kind x = NTerm -> first n x = true -> follow n x = false.
Hypothesis ONE : operands_not_empty g.
Hypothesis OK : careful g first follow = true.
Hypothesis LOOPS : loops_not_empty g.

(** ** What is matched is derived *)
Definition seg (i j : nat) : list id := slice tok i (j - i).
Lemma seg_nil i : seg i i = []. Proof. unfold seg. rewrite Nat.sub_diag. reflexivity. Qed.
Lemma seg_one i : seg i (S i) = [tok i]. Proof. unfold seg. replace (S i - i) with 1 by lia. reflexivity. Qed.
Lemma seg_app i j k : i <= j -> j <= k -> seg i k = seg i j ++ seg j k.
Proof.
  intros A B. unfold seg, slice. replace (k - i) with ((j - i) + (k - j)) by lia. rewrite seq_app, map_app. replace (i + (j - i)) with j by lia. reflexivity.
Qed.
Lemma seg_length i j : length (seg i j) = j - i. Proof. unfold seg, slice. rewrite map_length, seq_length. reflexivity. Qed.
Lemma skipn_step i : i < length w0 -> skipn i w0 = tok i :: skipn (S i) w0.
Proof.
  unfold stream. revert w0. induction i as [|i IH]; intros [|x l] L; cbn [length] in L; try lia; [reflexivity|]. cbn [skipn nth]. apply IH. lia.
Qed.
Lemma seg_skipn i j : i <= j -> j <= length w0 -> skipn i w0 = seg i j ++ skipn j w0.
Proof.
  intros A B. remember (j - i) as k eqn:E. revert i A E. induction k as [|k IH]; intros i A E.
  - assert (i = j) by lia. subst i. rewrite seg_nil. reflexivity.
  - rewrite (skipn_step i) by lia. rewrite (seg_app i (S i) j), seg_one by lia. cbn [app]. f_equal. apply IH; lia.
Qed.
Lemma matches_derives n i j cs : matches n i j cs -> i <= j /\ derives n (seg i j).
Proof.
  assert (SYM : forall n s e b w, kind n = NNon s \/ kind n = NInl s -> In e (grules g) -> kind e = NEvolve b s -> derives b w -> derives n w).
  { intros n' s e b w K I Ke D. pose proof (sym_of g WF n' s K) as KS. assert (D2 : derives s w) by (exact (d_sym g s e b w KS I Ke D)).
    destruct K; [eapply d_non|eapply d_inl]; eassumption. }
  intros M. induction M as [n i K|n i K T|n s e b i j cs K I Ke M IH|n s e b i j cs K I Ke M IH|n b x y i j cs K M IH|n b x y i j k cs ds K M1 IH1 M2 IH2
    |n b x y i K|n b x y i j k cs ds K M1 IH1 M2 IH2|n i K|n b i j cs K M IH|n b i j cs K M IH|n l r i j cs K M IH|n l r i j cs K M IH|n l r i j k cs ds K M1 IH1 M2 IH2
    |n t c i j cs K M IH|n t c i j cs K M IH|n t i K Kt T|n m s e b i j cs vs K Km I Ke M IH V];
    try (destruct IH as [L D]; split; [exact L|]); try (destruct IH1 as [L1 D1]; destruct IH2 as [L2 D2]; split; [lia|]; rewrite (seg_app i j k) by lia);
    try (split; [lia|]); rewrite ?seg_nil, ?seg_one.
  - apply d_zero. exact K.
  - rewrite T. apply d_term. exact K.
  - apply (SYM n s e b); auto.
  - apply (SYM n s e b); auto.
  - eapply d_plus1; eassumption.
  - eapply d_plus; eassumption.
  - eapply d_star0; eassumption.
  - eapply d_star; eassumption.
  - apply d_act0. exact K.
  - eapply d_act; eassumption.
  - eapply d_cond; eassumption.
  - eapply d_altl; eassumption.
  - eapply d_altr; eassumption.
  - eapply d_cons; eassumption.
  - eapply d_try; eassumption.
  - eapply d_catch; eassumption.
  - rewrite T. apply (d_ann g n t); [exact K|]. apply d_term. exact Kt.
  - apply (d_ann g n m); [exact K|]. apply (SYM m s e b); auto.
Qed.

(** ** How far an item reaches *)
Definition here (i : nat) : pstate := PS (S i) (tok i) false 0 0.
Lemma at_here i : i <= length w0 -> at_ g w0 (here i) (skipn i w0).
Proof.
  intros L. unfold at_, here. cbn [pidx ptok]. rewrite skipn_length. split; [lia|]. replace (S i - 1) with i by lia. split; [reflexivity|].
  destruct (Nat.eq_dec i (length w0)) as [->|N].
  - rewrite skipn_all. unfold stream. rewrite nth_overflow by lia. reflexivity.
  - rewrite (skipn_step i) by lia. reflexivity.
Qed.
Variable cur : id.
Hypothesis LIVE : live g follow cur.
Lemma reach n i j k cs ds : matches n i j cs -> matches n i k ds -> j <= length w0 -> k <= length w0 -> written n -> (forall b ops x, kind n <> NOper b ops x) ->
  kind n <> NSym -> (forall i s, kind n <> NEvolve i s) -> occurs n (skipn j w0) -> occurs n (skipn k w0) -> j = k.
Proof.
  intros M1 M2 L1 L2 W NO N1 N2 O1 O2. assert (PL : placed g cur n) by (intros b ops x K; destruct (NO b ops x K)).
  assert (ONE' : forall m c, matches n i m c -> m <= length w0 -> occurs n (skipn m w0) -> exists f st, run g first follow tok yes f cur false (Item n) (here i) = Done st /\ pidx st = S m).
  { intros m c M L O. destruct (matches_derives n i m c M) as [B D].
    destruct (complete g first follow w0 yes WF TOP (fun _ => eq_refl) FC EC OC AL FA FR FS ONE OK n (seg i m) D) as (RI & _).
    destruct (RI N1 N2 cur false (skipn m w0) (here i) LIVE W O PL) as (f & st & E & ((A1 & A2) & A3 & A4)).
    - rewrite <- seg_skipn by lia. apply at_here. lia.
    - exists f, st. split; [exact E|]. rewrite skipn_length in A2. lia. }
  destruct (ONE' j cs M1 L1 O1) as (f1 & s1 & E1 & P1). destruct (ONE' k ds M2 L2 O2) as (f2 & s2 & E2 & P2).
  pose proof (run_more g first follow tok yes f1 (Nat.max f1 f2) (Nat.le_max_l _ _) _ _ _ _ _ E1 ltac:(discriminate)) as X1.
  pose proof (run_more g first follow tok yes f2 (Nat.max f1 f2) (Nat.le_max_r _ _) _ _ _ _ _ E2 ltac:(discriminate)) as X2.
  rewrite X1 in X2. injection X2 as ->. lia.
Qed.

(** ** Which rule, which branch *)
Lemma rule_unique s e b e' b' w : kind s = NSym -> In e (grules g) -> In e' (grules g) -> kind e = NEvolve b s -> kind e' = NEvolve b' s -> derives b w -> derives b' w -> e = e'.
Proof.
  intros KS I1 I2 K1 K2 D1 D2. destruct (Nat.eq_dec e e') as [E|NE]; [exact E|exfalso].
  assert (IE : forall e b, In e (grules g) -> kind e = NEvolve b s -> In e (env g s)) by (intros a c I K; unfold env; rewrite <- in_rev, filter_In; split; [exact I|unfold rule_of; rewrite K; apply Nat.eqb_refl]).
  pose proof (IE e b I1 K1) as E1. pose proof (IE e' b' I2 K2) as E2. destruct w as [|x w].
  - pose proof (rules_fine g first follow OK s (sym_inside g WF s KS)) as RO. revert E1 E2 RO. generalize (env g s) as es. intros es.
    pose proof (EC b D1 (evolve_item g WF e b s K1)) as P1. pose proof (EC b' D2 (evolve_item g WF e' b' s K2)) as P2.
    induction es as [|a es IH]; intros A B RO; [destruct A|]. cbn [rules_ok] in RO. apply andb_true_iff in RO. destruct RO as [R1 R2]. rewrite forallb_forall in R1.
    destruct A as [->|A], B as [->|B]; [congruence| | |exact (IH A B R2)].
    + specialize (R1 e' B). unfold pair_ok in R1. rewrite K1, K2, P1, P2 in R1. cbn in R1. rewrite !andb_false_r in R1. discriminate.
    + specialize (R1 e A). unfold pair_ok in R1. rewrite K1, K2, P1, P2 in R1. cbn in R1. rewrite !andb_false_r in R1. discriminate.
  - assert (KX : kind x = NTerm) by (apply (derives_terms g WF b (x :: w) D1); left; reflexivity).
    pose proof (FC e x w (or_intror (w_rule g e I1)) (d_evolve g e b s _ K1 D1)) as F1. pose proof (FC e' x w (or_intror (w_rule g e' I2)) (d_evolve g e' b' s _ K2 D2)) as F2.
    rewrite (FR s e e' x E1 E2 NE KX F1) in F2. discriminate.
Qed.
Lemma branch_unique n l r b b' w : kind n = NAlt l r -> written n -> leaf g n b -> leaf g n b' -> derives b w -> derives b' w ->
  (forall i s, kind b <> NEvolve i s) -> (forall i s, kind b' <> NEvolve i s) -> b = b'.
Proof.
  intros K W L L' D D' NE NE'. destruct (Nat.eq_dec b b') as [E|N]; [exact E|exfalso].
  pose proof (item_fine g first follow OK n (inside_written g WF n W)) as IF. unfold item_ok in IF. rewrite K in IF. apply andb_true_iff in IF. destruct IF as [_ IF].
  destruct (flatten g (S (size g) * S (size g)) [l; r]) as [ns|] eqn:F; [|discriminate].
  assert (Wl : written l) by (apply (w_child g n); auto; unfold child; rewrite K; auto).
  assert (Wr : written r) by (apply (w_child g n); auto; unfold child; rewrite K; auto).
  assert (IN : forall c, leaf g n c -> In c ns).
  { intros c Lc. inversion Lc as [? X|? l' r' ? K' L1|? l' r' ? K' L1]; subst; [destruct (X l r K)| |]; rewrite K in K'; injection K' as <- <-.
    - apply (flatten_leaf g _ _ _ F l); [left; reflexivity|exact L1].
    - apply (flatten_leaf g _ _ _ F r); [right; left; reflexivity|exact L1]. }
  assert (DI : ForallOrdPairs (distinct g first) ns).
  { apply (flatten_distinct g first AL FA _ _ _ F).
    - intros m [<-|[<-|[]]]; assumption.
    - constructor; [constructor; [|constructor]|constructor; [constructor|constructor]]. intros y KY FL. exact (FA n l r y W K KY FL). }
  pose proof (IN b L) as I1. pose proof (IN b' L') as I2. destruct w as [|x w].
  - pose proof (EC b D NE) as P1. pose proof (EC b' D' NE') as P2. clear - I1 I2 IF P1 P2 N. induction ns as [|m ns IH]; [destruct I1|].
    destruct ns as [|m' ns]; [destruct I1 as [<-|[]]; destruct I2 as [<-|[]]; congruence|].
    cbn [branches_ok] in IF. repeat rewrite andb_true_iff in IF. destruct IF as [[B1 _] B3].
    destruct I1 as [<-|I1]; [rewrite P1 in B1; discriminate|]. destruct I2 as [<-|I2]; [rewrite P2 in B1; discriminate|]. exact (IH B3 I1 I2).
  - assert (KX : kind x = NTerm) by (apply (derives_terms g WF b (x :: w) D); left; reflexivity).
    pose proof (FC b x w (or_intror (leaf_written g n b L W)) D) as F1. pose proof (FC b' x w (or_intror (leaf_written g n b' L' W)) D') as F2.
    clear - I1 I2 DI F1 F2 KX N. induction DI as [|m ns A _ IH]; [destruct I1|]. rewrite Forall_forall in A.
    destruct I1 as [<-|I1], I2 as [E2|I2]; [congruence| | |exact (IH I1 I2)].
    + rewrite (A b' I2 x KX F1) in F2. discriminate.
    + subst m. rewrite (A b I1 x KX F2) in F1. discriminate.
Qed.
Lemma matches_leaf n i j cs : matches n i j cs -> exists b, leaf g n b /\ matches b i j cs.
Proof.
  intros M. induction M; try (eexists; split; [apply lf_self; congruence|]; econstructor; eassumption).
  - destruct IHM as (c & L & Mc). exists c. split; [eapply lf_l; eassumption|exact Mc].
  - destruct IHM as (c & L & Mc). exists c. split; [eapply lf_r; eassumption|exact Mc].
Qed.

(** ** Pieces *)
Definition cap_alike (a b : capture) : Prop := fst a = fst b /\ alike (snd a) (snd b).
Lemma pieces_alike x cs ds : Forall2 cap_alike cs ds -> Forall2 alike (pieces x cs) (pieces x ds).
Proof.
  unfold pieces. induction 1 as [|a b cs ds [A B] _ IH]; [constructor|]. cbn [filter]. rewrite <- A. destruct (var_eqb x (fst a)); [cbn [map]; constructor; assumption|exact IH].
Qed.
Lemma last_alike a b : Forall2 alike a b -> Forall2 alike (last_of a) (last_of b).
Proof.
  intros H. assert (R : Forall2 alike (rev a) (rev b)).
  { induction H as [|x y a b A _ IH]; [constructor|]. cbn [rev]. apply Forall2_app; [exact IH|constructor; [exact A|constructor]]. }
  unfold last_of. destruct R as [|x y u v A R]; constructor; [exact A|constructor].
Qed.
Lemma content_alike x cs ds : Forall2 cap_alike cs ds -> Forall2 alike (content x cs) (content x ds).
Proof. intros H. unfold content. destruct (snd x); [apply pieces_alike; exact H|apply last_alike, pieces_alike; exact H]. Qed.

(** ** One tree *)
Definition one (n : id) (i j : nat) (cs : list capture) : Prop := forall ds, j <= length w0 -> written n -> occurs n (skipn j w0) -> (forall b ops x, kind n <> NOper b ops x) ->
  kind n <> NSym -> (forall i s, kind n <> NEvolve i s) -> matches n i j ds -> Forall2 cap_alike cs ds.
Hypothesis NOP : no_operators g.
Lemma below_ok n m : written n -> child g n m -> (forall i s, kind n <> NEvolve i s) -> written m /\ kind m <> NSym /\ forall i s, kind m <> NEvolve i s.
Proof. intros W C NE. destruct (item_below g WF TOP n m W C NE) as (A & _ & B & C'). auto. Qed.
Lemma body_ok e b s : In e (grules g) -> kind e = NEvolve b s -> written b /\ kind b <> NSym /\ forall i s, kind b <> NEvolve i s.
Proof.
  intros I Ke. split; [apply (w_child g e); [apply w_rule; exact I|unfold child; rewrite Ke; reflexivity]|]. split; [|exact (evolve_item g WF e b s Ke)].
  assert (SH : shape g e = true) by (apply (shaped g WF); rewrite Ke; discriminate). unfold shape in SH. rewrite Ke in SH.
  destruct (inside g e); [|discriminate]. apply andb_true_iff in SH. destruct SH as [SH _]. unfold below in SH. apply andb_true_iff in SH. destruct SH as [_ SH].
  unfold is_item in SH. intro E. rewrite E in SH. discriminate.
Qed.
Lemma leaf_ok n b : leaf g n b -> written n -> kind n <> NSym -> (forall i s, kind n <> NEvolve i s) -> written b /\ kind b <> NSym /\ forall i s, kind b <> NEvolve i s.
Proof.
  induction 1 as [n N|n l r b K _ IH|n l r b K _ IH]; intros W N1 N2; [auto| |];
    (destruct (below_ok n l W) as (W1 & A1 & A2); [unfold child; rewrite K; auto|exact N2|]);
    (destruct (below_ok n r W) as (W2 & A3 & A4); [unfold child; rewrite K; auto|exact N2|]); auto.
Qed.
Lemma plus_long n b x y u v ws : kind n = NPlus b x y -> matches n u v ws -> u < v.
Proof.
  intros K MM. assert (NE : forall p q cs, matches b p q cs -> p < q).
  { intros p q cs M. destruct (matches_derives _ _ _ _ M) as [L D]. destruct (Nat.eq_dec p q) as [->|]; [|lia]. rewrite seg_nil in D. destruct (LOOPS n b x y (or_intror K) D). }
  inversion MM as [| | | |? b' ? ? ? ? ? K' Mb'|? b' ? ? ? m ? ? ? K' Mb' Mr'| | | | | | | | | | | |]; subst; try congruence; rewrite K in K'; injection K' as <- <- <-.
  - exact (NE _ _ _ Mb').
  - pose proof (NE _ _ _ Mb'). destruct (matches_derives _ _ _ _ Mr'). lia.
Qed.
Lemma one_tree : forall n i j cs, matches n i j cs -> one n i j cs /\ exists b, leaf g n b /\ matches b i j cs /\ one b i j cs.
Proof.
  assert (SIMPLE : forall n i j cs, (forall l r, kind n <> NAlt l r) -> matches n i j cs -> one n i j cs -> one n i j cs /\ exists b, leaf g n b /\ matches b i j cs /\ one b i j cs).
  { intros n0 i0 j0 cs0 N M O. split; [exact O|]. exists n0. split; [apply lf_self; exact N|auto]. }
  assert (PASS : forall n m i j cs, child g n m -> (forall i s, kind n <> NEvolve i s) -> (forall rest, occurs n rest -> occurs m rest) -> one m i j cs ->
    (forall ds, matches n i j ds -> matches m i j ds) -> one n i j cs).
  { intros n0 m i0 j0 cs0 C NE O IH INV ds L W OCC _ _ _ M. destruct (below_ok n0 m W C NE) as (Wm & K1 & K2). apply (IH ds L Wm (O _ OCC)); auto. }
  assert (ALT : forall n l r i j cs, kind n = NAlt l r -> matches n i j cs -> (exists b, leaf g n b /\ matches b i j cs /\ one b i j cs) ->
    one n i j cs /\ exists b, leaf g n b /\ matches b i j cs /\ one b i j cs).
  { intros n l r i j cs K M (b & L & Mb & Ob). split; [|exists b; auto]. intros ds LE W OCC _ N1 N2 M'. destruct (matches_leaf _ _ _ _ M') as (b' & L' & Mb').
    destruct (matches_derives _ _ _ _ Mb) as [_ D1]. destruct (matches_derives _ _ _ _ Mb') as [_ D2].
    destruct (leaf_ok n b L W N1 N2) as (Wb & B1 & B2). destruct (leaf_ok n b' L' W N1 N2) as (_ & _ & B3).
    pose proof (branch_unique n l r b b' _ K W L L' D1 D2 B2 B3). subst b'. apply (Ob ds LE Wb (leaf_occurs g n b _ L OCC)); auto. }
  intros n i j cs M. induction M as [n i K|n i K T|n s e b i j cs K I Ke M IH|n s e b i j cs K I Ke M IH|n b x y i j cs K M IH|n b x y i j k cs ds K M1 IH1 M2 IH2
    |n b x y i K|n b x y i j k cs ds K M1 IH1 M2 IH2|n i K|n b i j cs K M IH|n b i j cs K M IH|n l r i j cs K M IH|n l r i j cs K M IH|n l r i j k cs ds K M1 IH1 M2 IH2
    |n t c i j cs K M IH|n t c i j cs K M IH|n t i K Kt T|n m s e b i j cs vs K Km I Ke M IH V].
  - apply SIMPLE; [congruence|apply k_zero; exact K|]. intros ds _ _ _ _ _ _ M. inversion M; subst; try congruence. constructor.
  - apply SIMPLE; [congruence|apply k_term; assumption|]. intros ds _ _ _ _ _ _ M. inversion M; subst; try congruence. constructor.
  - apply SIMPLE; [congruence|eapply k_non; eassumption|]. intros ds _ _ _ _ _ _ M'. inversion M'; subst; try congruence. constructor.
  - apply SIMPLE; [congruence|eapply k_inl; eassumption|]. intros ds L W OCC _ _ _ M'. inversion M' as [| | |? s' e' b' ? ? ? K' I' Ke' Mb| | | | | | | | | | | | | |]; subst; try congruence.
    rewrite K in K'. injection K' as <-. pose proof (sym_of g WF n s (or_intror K)) as KS.
    destruct (matches_derives _ _ _ _ M) as [_ D1]. destruct (matches_derives _ _ _ _ Mb) as [_ D2].
    pose proof (rule_unique s e b e' b' _ KS I I' Ke Ke' D1 D2). subst e'. rewrite Ke in Ke'. injection Ke' as <-. destruct (body_ok e b s I Ke) as (Wb & B1 & B2).
    apply (proj1 IH ds L Wb); auto. eapply o_evolve; [exact (o_rule g s e b _ (o_inl g n s _ OCC K) KS I Ke)|exact Ke].
  - apply SIMPLE; [congruence|eapply k_plus_one; eassumption|]. intros ds L W OCC _ _ _ M'.
    destruct (below_ok n b W) as (Wb & B1 & B2); [unfold child; rewrite K; reflexivity|congruence|].
    inversion M' as [| | | |? b' ? ? ? ? ? K' Mb|? b' ? ? ? m ? ds1 ds2 K' Mb Mr| | | | | | | | | | | |]; subst; try congruence; rewrite K in K'; injection K' as <- <- <-.
    + apply (proj1 IH ds L Wb); auto; exact (o_plus g n b x y _ OCC K).
    + exfalso. destruct (matches_derives _ _ _ _ Mb) as [L1 D1]. destruct (matches_derives _ _ _ _ Mr) as [L2 D2].
      assert (E : j = m). { apply (reach b i j m cs ds1 M Mb L ltac:(lia) Wb); auto; [exact (o_plus g n b x y _ OCC K)|].
        rewrite (seg_skipn m j) by lia. exact (o_plus2 g n b x y _ _ OCC K D2). }
      subst m. pose proof (plus_long n b x y _ _ _ K Mr). lia.
  - apply SIMPLE; [congruence|eapply k_plus; eassumption|]. intros es L W OCC NO N1 N2 M'.
    destruct (below_ok n b W) as (Wb & B1 & B2); [unfold child; rewrite K; reflexivity|congruence|].
    destruct (matches_derives _ _ _ _ M1) as [L1 D1]. destruct (matches_derives _ _ _ _ M2) as [L2 D2].
    assert (OB : occurs b (skipn j w0)) by (rewrite (seg_skipn j k) by lia; exact (o_plus2 g n b x y _ _ OCC K D2)).
    inversion M' as [| | | |? b' ? ? ? ? ? K' Mb|? b' ? ? ? m ? ds1 ds2 K' Mb Mr| | | | | | | | | | | |]; subst; try congruence; rewrite K in K'; injection K' as <- <- <-.
    + exfalso. assert (E : j = k) by (apply (reach b i j k cs es M1 Mb ltac:(lia) L Wb); auto; exact (o_plus g n b x y _ OCC K)).
      subst k. pose proof (plus_long n b x y _ _ _ K M2). lia.
    + destruct (matches_derives _ _ _ _ Mb) as [L3 D3]. destruct (matches_derives _ _ _ _ Mr) as [L4 D4].
      assert (E : j = m). { apply (reach b i j m cs ds1 M1 Mb ltac:(lia) ltac:(lia) Wb); auto. rewrite (seg_skipn m k) by lia. exact (o_plus2 g n b x y _ _ OCC K D4). }
      subst m. apply Forall2_app; [apply (proj1 IH1 ds1 ltac:(lia) Wb OB); auto|apply (proj1 IH2 ds2 L W OCC); auto].
  - apply SIMPLE; [congruence|eapply k_star_none; eassumption|]. intros es L W OCC NO N1 N2 M'.
    inversion M' as [| | | | | |? b' ? ? ? K'|? b' ? ? ? m ? ds1 ds2 K' Mb Mr| | | | | | | | | |]; subst; try congruence; [constructor|]. rewrite K in K'; injection K' as <- <- <-.
    exfalso. destruct (matches_derives _ _ _ _ Mb) as [L3 D3]. destruct (matches_derives _ _ _ _ Mr) as [L4 D4]. match type of D3 with derives _ (seg ?u ?v) => replace v with u in D3 by lia end. rewrite seg_nil in D3. exact (LOOPS n b x y (or_introl K) D3).
  - apply SIMPLE; [congruence|eapply k_star; eassumption|]. intros es L W OCC NO N1 N2 M'.
    destruct (below_ok n b W) as (Wb & B1 & B2); [unfold child; rewrite K; reflexivity|congruence|].
    destruct (matches_derives _ _ _ _ M1) as [L1 D1]. destruct (matches_derives _ _ _ _ M2) as [L2 D2].
    assert (OB : occurs b (skipn j w0)) by (rewrite (seg_skipn j k) by lia; exact (o_star g n b x y _ _ OCC K D2)).
    inversion M' as [| | | | | |? b' ? ? ? K'|? b' ? ? ? m ? ds1 ds2 K' Mb Mr| | | | | | | | | |]; subst; try congruence; rewrite K in K'; injection K' as <- <- <-.
    + exfalso. match type of D1 with derives _ (seg ?u ?v) => replace v with u in D1 by lia end. rewrite seg_nil in D1. exact (LOOPS n b x y (or_introl K) D1).
    + destruct (matches_derives _ _ _ _ Mb) as [L3 D3]. destruct (matches_derives _ _ _ _ Mr) as [L4 D4].
      assert (E : j = m). { apply (reach b i j m cs ds1 M1 Mb ltac:(lia) ltac:(lia) Wb); auto. rewrite (seg_skipn m k) by lia. exact (o_star g n b x y _ _ OCC K D4). }
      subst m. apply Forall2_app; [apply (proj1 IH1 ds1 ltac:(lia) Wb OB); auto|apply (proj1 IH2 ds2 L W OCC); auto].
  - apply SIMPLE; [congruence|apply k_code; exact K|]. intros ds _ _ _ _ _ _ M. inversion M; subst; try congruence. constructor.
  - apply SIMPLE; [congruence|eapply k_act; eassumption|]. apply (PASS n b); [unfold child; rewrite K; reflexivity|congruence|intros rest O; exact (o_act g n b rest O K)|exact (proj1 IH)|].
    intros ds M'. inversion M'; subst; congruence.
  - apply SIMPLE; [congruence|eapply k_cond; eassumption|]. apply (PASS n b); [unfold child; rewrite K; reflexivity|congruence|intros rest O; exact (o_cond g n b rest O K)|exact (proj1 IH)|].
    intros ds M'. inversion M'; subst; congruence.
  - apply (ALT n l r i j cs K (k_left g tok decl n l r i j cs K M)). destruct IH as (_ & b & L & B). exists b. split; [exact (lf_l g n l r b K L)|exact B].
  - apply (ALT n l r i j cs K (k_right g tok decl n l r i j cs K M)). destruct IH as (_ & b & L & B). exists b. split; [exact (lf_r g n l r b K L)|exact B].
  - apply SIMPLE; [congruence|eapply k_cons; eassumption|]. intros es L W OCC NO N1 N2 M'.
    destruct (below_ok n l W) as (Wl & A1 & A2); [unfold child; rewrite K; auto|congruence|].
    destruct (below_ok n r W) as (Wr & B1 & B2); [unfold child; rewrite K; auto|congruence|].
    destruct (matches_derives _ _ _ _ M1) as [L1 D1]. destruct (matches_derives _ _ _ _ M2) as [L2 D2].
    assert (OB : occurs l (skipn j w0)) by (rewrite (seg_skipn j k) by lia; exact (o_consl g n l r _ _ OCC K D2)).
    inversion M' as [| | | | | | | | | | | | |? l' r' ? m ? ds1 ds2 K' Mb Mr| | | |]; subst; try congruence; rewrite K in K'; injection K' as <- <-.
    destruct (matches_derives _ _ _ _ Mb) as [L3 D3]. destruct (matches_derives _ _ _ _ Mr) as [L4 D4].
    assert (E : j = m). { apply (reach l i j m cs ds1 M1 Mb ltac:(lia) ltac:(lia) Wl); auto. rewrite (seg_skipn m k) by lia. exact (o_consl g n l r _ _ OCC K D4). }
    subst m. apply Forall2_app; [apply (proj1 IH1 ds1 ltac:(lia) Wl OB); auto|apply (proj1 IH2 ds2 L Wr (o_consr g n l r _ OCC K)); auto].
  - apply SIMPLE; [congruence|eapply k_try; eassumption|]. intros ds L W OCC NO N1 N2 M'.
    pose proof (item_fine g first follow OK n (inside_written g WF n W)) as IF. unfold item_ok in IF. rewrite K in IF. destruct c as [c|]; [discriminate|].
    destruct (below_ok n t W) as (Wt & B1 & B2); [unfold child; rewrite K; reflexivity|congruence|].
    apply (proj1 IH ds L Wt (o_try g n t None _ OCC K)); auto. inversion M'; subst; congruence.
  - apply SIMPLE; [congruence|eapply k_catch; eassumption|]. intros ds L W OCC NO N1 N2 M'.
    pose proof (item_fine g first follow OK n (inside_written g WF n W)) as IF. unfold item_ok in IF. rewrite K in IF. discriminate.
  - apply SIMPLE; [congruence|eapply k_token; eassumption|]. intros ds L W OCC NO N1 N2 M'. inversion M'; subst; try congruence.
    constructor; [split; [reflexivity|constructor]|constructor].
  - apply SIMPLE; [congruence|eapply k_node; eassumption|]. intros ds L W OCC NO N1 N2 M'.
    inversion M' as [| | | | | | | | | | | | | | | | |? m' s' e' b' ? ? cs' vs' K' Km' I' Ke' Mb V']; subst; try congruence.
    rewrite K in K'. injection K' as <-. rewrite Km in Km'. injection Km' as <-. pose proof (sym_of g WF m s (or_introl Km)) as KS.
    destruct (matches_derives _ _ _ _ M) as [_ D1]. destruct (matches_derives _ _ _ _ Mb) as [_ D2].
    pose proof (rule_unique s e b e' b' _ KS I I' Ke Ke' D1 D2). subst e'. rewrite Ke in Ke'. injection Ke' as <-. destruct (body_ok e b s I Ke) as (Wb & B1 & B2).
    constructor; [|constructor]. split; [reflexivity|]. constructor. intros z. rewrite V, V'. apply content_alike.
    apply (proj1 IH cs' L Wb); auto. eapply o_evolve; [exact (o_rule g s e b _ (o_non g m s _ (o_ann g n m _ OCC K) Km) KS I Ke)|exact Ke].
Qed.
End G.
