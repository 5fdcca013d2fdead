(** FIRST holds nothing else, where reducesToEpsilon is right. *)
From Coq Require Import List Bool PeanoNat Lia.
From Verif Require Import Base GrammarModel GrammarSpec GrammarProofs FirstProofs FollowProofs.
Import ListNotations.

Ltac eapply_all :=
  first [eapply d_zero; eassumption|eapply d_term; eassumption|eapply d_sym; eassumption|eapply d_evolve; eassumption|eapply d_non; eassumption
    |eapply d_inl; eassumption|eapply d_plus1; eassumption|eapply d_plus; eassumption|eapply d_star0; eassumption|eapply d_star; eassumption
    |eapply d_act0; eassumption|eapply d_act; eassumption|eapply d_try; eassumption|eapply d_catch; eassumption|eapply d_ann; eassumption
    |eapply d_cond; eassumption|eapply d_base; eassumption|eapply d_pre; eassumption|eapply d_post; eassumption|eapply d_bin; eassumption
    |eapply d_tern; eassumption|eapply d_paren; eassumption].
Section G.
Variable g : grammar.
Notation kind := (kind g).
Notation derives := (derives g).
Notation met := (met g).
Hypothesis WF : well_formed g = true.
Hypothesis OPERANDS : operands_not_empty g.
Hypothesis APART : heads_apart g.
Hypothesis PRODUCTIVE : productive g.

(** ** What the added nodes describe, the other way *)
Lemma term_word n w : kind n = NTerm -> derives n w -> w = [n].
Proof. intros K D. inversion D; subst; congruence. Qed.
Lemma zero_word n w : kind n = NZero -> derives n w -> w = [].
Proof. intros K D. inversion D; subst; congruence. Qed.
Lemma star_outer n i c a : kind n = NStar i c a -> forall m w, derives m w ->
  (m = a -> derives n w) /\ (m = c -> exists u v, w = u ++ v /\ derives i u /\ derives n v).
Proof.
  intros K. destruct (star_shape g WF n i c a (or_introl K)) as (_ & _ & KC & KA).
  induction 1; split; intros E; subst; try congruence.
  - match goal with D : derives ?x ?w, H : kind a = NAlt ?x ?y |- _ => rewrite KA in H; injection H as <- <- end.
    rewrite (zero_word _ _ (zero_kind g WF) H0). eapply d_star0; exact K.
  - rewrite KA in H. injection H as <- <-. destruct (proj2 IHderives eq_refl) as (u & v & -> & Di & Dn). eapply d_star; eassumption.
  - rewrite KC in H. injection H as <- <-. exists u, w. split; [reflexivity|]. split; [assumption|]. apply IHderives2. reflexivity.
Qed.
Lemma plus_outer n i c a : kind n = NPlus i c a -> forall m w, derives m w ->
  (m = c -> derives n w) /\ (m = a -> w = [] \/ derives n w).
Proof.
  intros K. destruct (star_shape g WF n i c a (or_intror K)) as (_ & _ & KC & KA).
  induction 1; split; intros E; subst; try congruence.
  - rewrite KA in H. injection H as <- <-. left. exact (zero_word _ _ (zero_kind g WF) H0).
  - rewrite KA in H. injection H as <- <-. right. apply IHderives. reflexivity.
  - rewrite KC in H. injection H as <- <-. destruct (proj2 IHderives2 eq_refl) as [-> | Dn].
    + rewrite app_nil_r. eapply d_plus1; eassumption.
    + eapply d_plus; eassumption.
Qed.
Lemma tok_not_outside s : is_tok g s = true -> outside g s = false.
Proof.
  unfold is_tok, inside, outside. rewrite andb_true_iff, Nat.ltb_lt. intros [H _].
  destruct (Nat.leb (gregular g) s) eqn:E; [apply Nat.leb_le in E; lia|reflexivity].
Qed.
Lemma oper_outer n b ops x : kind n = NOper b ops x -> forall m w, derives m w ->
  (forall ops', incl ops' ops -> chain g x m b ops' = true -> derives n w) /\
  (forall s, is_tok g s = true -> kind m = NCons s x -> exists v, w = s :: v /\ derives n v) /\
  (forall s, is_tok g s = true -> kind m = NCons x s -> exists v, w = v ++ [s] /\ derives n v) /\
  (forall s r, is_tok g s = true -> kind m = NCons x r -> kind r = NCons s x -> exists u v, w = u ++ s :: v /\ derives n u /\ derives n v) /\
  (forall s u r, is_tok g s = true -> is_tok g u = true -> kind m = NCons s r -> kind r = NCons x u -> exists v, w = s :: v ++ [u] /\ derives n v) /\
  (forall s u r2 r3, is_tok g s = true -> is_tok g u = true -> kind m = NCons s r2 -> kind r2 = NCons x r3 -> kind r3 = NCons u x ->
     exists v y, w = s :: v ++ u :: y /\ derives n v /\ derives n y) /\
  (forall s u r1 r2 r3, is_tok g s = true -> is_tok g u = true -> kind m = NCons x r1 -> kind r1 = NCons s r2 -> kind r2 = NCons x r3 -> kind r3 = NCons u x ->
     exists z v y, w = z ++ s :: v ++ u :: y /\ derives n z /\ derives n v /\ derives n y).
Proof.
  intros K. destruct (oper_shape g WF n b ops x K) as (_ & BB & CH).
  assert (TOP : forall m w, m = x -> (forall ops', incl ops' ops -> chain g x m b ops' = true -> derives n w) -> derives n w).
  { intros m w -> H. eapply H; [apply incl_refl|exact CH]. }
  assert (BASE : forall m w ops', chain g x m b ops' = true -> derives m w -> (forall l r, kind m <> NAlt l r) -> derives n w).
  { intros m w ops' C D N. destruct (chain_top g x m b ops' C) as [-> | (l & r & E)]; [|exfalso; eapply N; exact E]. eapply d_base; eassumption. }
  (* the clauses for sequences do not apply to other nodes *)
  assert (OTHER : forall m w, derives m w -> (forall l r, kind m <> NCons l r) ->
    (forall ops', incl ops' ops -> chain g x m b ops' = true -> derives n w) ->
    (forall ops', incl ops' ops -> chain g x m b ops' = true -> derives n w) /\
  (forall s, is_tok g s = true -> kind m = NCons s x -> exists v, w = s :: v /\ derives n v) /\
  (forall s, is_tok g s = true -> kind m = NCons x s -> exists v, w = v ++ [s] /\ derives n v) /\
  (forall s r, is_tok g s = true -> kind m = NCons x r -> kind r = NCons s x -> exists u v, w = u ++ s :: v /\ derives n u /\ derives n v) /\
  (forall s u r, is_tok g s = true -> is_tok g u = true -> kind m = NCons s r -> kind r = NCons x u -> exists v, w = s :: v ++ [u] /\ derives n v) /\
  (forall s u r2 r3, is_tok g s = true -> is_tok g u = true -> kind m = NCons s r2 -> kind r2 = NCons x r3 -> kind r3 = NCons u x ->
     exists v y, w = s :: v ++ u :: y /\ derives n v /\ derives n y) /\
  (forall s u r1 r2 r3, is_tok g s = true -> is_tok g u = true -> kind m = NCons x r1 -> kind r1 = NCons s r2 -> kind r2 = NCons x r3 -> kind r3 = NCons u x ->
     exists z v y, w = z ++ s :: v ++ u :: y /\ derives n z /\ derives n v /\ derives n y)).
  { intros m w D N C. split; [exact C|]. repeat split; intros; exfalso; eapply N; eassumption. }
  induction 1 as [m Km|m Km|s e i w Ks He Ke D IH|e i s w Ke D IH|m s w Km D IH|m s w Km D IH
    |m i c a w Km D IH|m i c a u w Km Du IHu Dw IHw|m i c a Km|m i c a u w Km Du IHu Dw IHw
    |m Km|m i w Km D IH|m l r w Km D IH|m l r w Km D IH|m l r u w Km Du IHu Dw IHw
    |m tt c w Km D IH|m tt c w Km D IH|m i w Km D IH|m i w Km D IH
    |m b' ops' x' w Km D IH|m b' ops' x' tk w Km I D IH|m b' ops' x' tk w Km I D IH|m b' ops' x' tk u w Km I Du IHu Dw IHw
    |m b' ops' x' s0 t0 u v w Km I Du IHu Dv IHv Dw IHw|m b' ops' x' s0 t0 w Km I D IH];
  match goal with
  | H : kind ?m = NAlt _ _ |- _ => idtac
  | H : kind ?m = NCons _ _ |- _ => idtac
  | |- (forall ops'', _ -> chain g x ?m b ops'' = true -> derives n ?w) /\ _ =>
    let DM := fresh "DM" in
    assert (DM : derives m w) by (eapply_all);
    apply OTHER; [exact DM|intros l0 r0; congruence|intros oo1 _ CC1; apply (BASE m w oo1 CC1 DM); intros l0 r0; congruence]
  end.
  - (* left branch: one of the operators *)
    assert (DM : derives m w) by (eapply d_altl; eassumption).
    apply OTHER; [exact DM|intros l0 r0; congruence|]. intros ops' IN C. destruct ops' as [|o ops']; [eapply d_base; [exact K|]; cbn [chain] in C; apply Nat.eqb_eq in C; subst m; exact DM|].
    cbn [chain] in C. rewrite Km in C. repeat rewrite andb_true_iff in C. destruct C as [_ [[[_ _] SP] C]].
    assert (INo : In o ops) by (apply IN; left; reflexivity).
    destruct IH as (_ & H1 & H2 & H3 & H4 & H5 & H6).
    destruct o as [s|s|s|s u|s u].
    + destruct (pre_spelled g _ _ _ SP) as (KL & T). destruct (H1 s T KL) as (v & -> & Dv). eapply d_pre; eassumption.
    + destruct (post_spelled g _ _ _ SP) as (KL & T). destruct (H2 s T KL) as (v & -> & Dv). eapply d_post; eassumption.
    + destruct (bin_spelled g _ _ _ SP) as (q & KL & KR & T). destruct (H3 s q T KL KR) as (u & v & -> & Du & Dv). eapply d_bin; eassumption.
    + destruct (tern_spelled g _ _ _ _ SP) as (r1 & r2 & r3 & KL & K1 & K2 & K3 & T1 & T2).
      destruct (H6 s u r1 r2 r3 T1 T2 KL K1 K2 K3) as (z & v & y & -> & Dz & Dv & Dy). eapply d_tern; eassumption.
    + destruct (paren_spelled g _ _ _ _ SP) as (q & KL & KR & T1 & T2). destruct (H4 s u q T1 T2 KL KR) as (v & -> & Dv). eapply d_paren; eassumption.
  - assert (DM : derives m w) by (eapply d_altr; eassumption).
    apply OTHER; [exact DM|intros l0 r0; congruence|]. intros ops' IN C. destruct ops' as [|o ops']; [eapply d_base; [exact K|]; cbn [chain] in C; apply Nat.eqb_eq in C; subst m; exact DM|].
    cbn [chain] in C. rewrite Km in C. repeat rewrite andb_true_iff in C. destruct C as [_ [[[_ _] SP] C]].
    apply (proj1 IH ops'); [|exact C]. intros q Hq. apply IN. right; exact Hq.
  - (* sequences *)
    destruct IHu as (U0 & _). destruct IHw as (W0 & W1 & W2 & W3 & W4 & W5 & W6).
    assert (DM : derives m (u ++ w)) by (eapply d_cons; eassumption).
    assert (LT : forall s, is_tok g s = true -> l = s -> u = [s]).
    { intros s T E. subst l. apply term_word; [apply (tok_in g WF s T)|exact Du]. }
    split; [intros ops' _ C'; apply (BASE m _ ops' C' DM); intros l0 r0; congruence|].
    split; [|split; [|split; [|split; [|split]]]].
    + intros s T E. rewrite Km in E. injection E as E1 E2. rewrite (LT s T E1). exists w. split; [reflexivity|]. eapply TOP; [exact E2|exact W0].
    + intros s T E. rewrite Km in E. injection E as E1 E2. exists u. subst r. rewrite (term_word s w (proj2 (tok_in g WF s T)) Dw).
      split; [reflexivity|]. eapply TOP; [exact E1|exact U0].
    + intros s r' T E KR. rewrite Km in E. injection E as E1 E2. subst r'. destruct (W1 s T KR) as (v & -> & Dv).
      exists u, v. split; [reflexivity|]. split; [|exact Dv]. eapply TOP; [exact E1|exact U0].
    + intros s q r' T T' E KR. rewrite Km in E. injection E as E1 E2. subst r'. rewrite (LT s T E1). destruct (W2 q T' KR) as (v & -> & Dv).
      exists v. split; [reflexivity|exact Dv].
    + intros s q r2 r3 T T' E KR KR3. rewrite Km in E. injection E as E1 E2. subst r2. rewrite (LT s T E1).
      destruct (W3 q r3 T' KR KR3) as (v & y & -> & Dv & Dy). exists v, y. split; [reflexivity|auto].
    + intros s q r1 r2 r3 T T' E KR1 KR2 KR3. rewrite Km in E. injection E as E1 E2. subst r1.
      destruct (W5 s q r2 r3 T T' KR1 KR2 KR3) as (v & y & -> & Dv & Dy). exists u, v, y. split; [reflexivity|]. split; [|auto].
      eapply TOP; [exact E1|exact U0].
Qed.
Lemma oper_top n b ops x w : kind n = NOper b ops x -> derives x w -> derives n w.
Proof.
  intros K D. destruct (oper_shape g WF n b ops x K) as (_ & BB & CH).
  apply (proj1 (oper_outer n b ops x K x w D) ops (incl_refl _) CH).
Qed.

(** ** reducesToEpsilon finds nothing that is not empty *)
Definition sound (f : table) : Prop := forall n x, f n x = true ->
  (x = gzero g /\ derives n []) \/ (kind x = NTerm /\ exists w, derives n (x :: w)).
Lemma sound_zero f n : sound f -> f n (gzero g) = true -> derives n [].
Proof. intros S0 H. destruct (S0 n (gzero g) H) as [[_ D]|[K _]]; [exact D|]. rewrite (zero_kind g WF) in K. discriminate. Qed.
Lemma heads_inside n x : heads g n x -> inside g n = true -> inside g x = true.
Proof.
  induction 1 as [n|n s x K H IH|n i c a x K H IH|n i x K H IH|n l r x K H IH|n l r x K H IH|n l r x K H IH|n l r x K Dl H IH|n t c x K H IH|n t c x K H IH|n i x K H IH|n i x K H IH];
    intros I; [exact I|..]; apply IH;
    assert (SH : shape g n = true) by (apply (shaped g WF); try (destruct K as [K|K]); rewrite K; discriminate);
    unfold shape in SH; rewrite I in SH; try (destruct K as [K|K]); rewrite K in SH; repeat rewrite andb_true_iff in SH.
  - unfold is_sym in SH. apply andb_true_iff in SH. apply SH.
  - unfold is_sym in SH. apply andb_true_iff in SH. apply SH.
  - destruct SH as [[[[B _] _] _] _]. eapply below_inside; eassumption.
  - eapply below_inside; eassumption.
  - destruct SH as [B _]. eapply below_inside; eassumption.
  - destruct SH as [_ B]. eapply below_inside; eassumption.
  - destruct SH as [B _]. eapply below_inside; eassumption.
  - destruct SH as [_ B]. eapply below_inside; eassumption.
  - destruct c; repeat rewrite andb_true_iff in SH; [destruct SH as [B _]; eapply below_inside; eassumption|eapply below_inside; eassumption].
  - destruct SH as [_ B]. eapply below_inside; eassumption.
  - eapply below_inside; eassumption.
  - eapply below_inside; eassumption.
Qed.
Lemma heads_le n x : heads g n x -> inside g n = true -> kind x = NSym \/ x <= n.
Proof.
  induction 1 as [n|n s x K H IH|n i c a x K H IH|n i x K H IH|n l r x K H IH|n l r x K H IH|n l r x K H IH|n l r x K Dl H IH|n t c x K H IH|n t c x K H IH|n i x K H IH|n i x K H IH];
    intros I; [right; apply le_n|..];
    assert (SH : shape g n = true) by (apply (shaped g WF); try (destruct K as [K|K]); rewrite K; discriminate);
    unfold shape in SH; rewrite I in SH.
  - left. assert (SY : is_sym g s = true) by (destruct K as [K|K]; rewrite K in SH; exact SH).
    unfold is_sym in SY. apply andb_true_iff in SY. destruct SY as [_ SY].
    assert (KS : kind s = NSym) by (destruct (kind s); congruence).
    inversion H; subst; try congruence. destruct H0; congruence.
  - rewrite K in SH. repeat rewrite andb_true_iff in SH. destruct SH as [[[[B _] _] _] _]. pose proof (below_inside g _ _ B I) as J. apply below_lt in B. destruct (IH J); [auto|right; lia].
  - rewrite K in SH. pose proof (below_inside g _ _ SH I) as J. apply below_lt in SH. destruct (IH J); [auto|right; lia].
  - rewrite K in SH. apply andb_true_iff in SH. destruct SH as [B _]. pose proof (below_inside g _ _ B I) as J. apply below_lt in B. destruct (IH J); [auto|right; lia].
  - rewrite K in SH. apply andb_true_iff in SH. destruct SH as [_ B]. pose proof (below_inside g _ _ B I) as J. apply below_lt in B. destruct (IH J); [auto|right; lia].
  - rewrite K in SH. apply andb_true_iff in SH. destruct SH as [B _]. pose proof (below_inside g _ _ B I) as J. apply below_lt in B. destruct (IH J); [auto|right; lia].
  - rewrite K in SH. apply andb_true_iff in SH. destruct SH as [_ B]. pose proof (below_inside g _ _ B I) as J. apply below_lt in B. destruct (IH J); [auto|right; lia].
  - rewrite K in SH. assert (B : below g t n = true) by (destruct c; [apply andb_true_iff in SH; apply SH|exact SH]).
    pose proof (below_inside g _ _ B I) as J. apply below_lt in B. destruct (IH J); [auto|right; lia].
  - rewrite K in SH. apply andb_true_iff in SH. destruct SH as [_ B]. pose proof (below_inside g _ _ B I) as J. apply below_lt in B. destruct (IH J); [auto|right; lia].
  - rewrite K in SH. pose proof (below_inside g _ _ SH I) as J. apply below_lt in SH. destruct (IH J); [auto|right; lia].
  - rewrite K in SH. pose proof (below_inside g _ _ SH I) as J. apply below_lt in SH. destruct (IH J); [auto|right; lia].
Qed.
Lemma eps_sound f : sound f -> forall k n v b v', eps_visit g k f n v = Some (b, v') -> inside g n = true ->
  (forall x, In x v -> heads g n x -> derives x []) ->
  (b = true -> derives n []) /\ (forall x, In x v' -> In x v \/ heads g n x).
Proof.
  intros S0. destruct APART as (AP1 & AP2 & AP3).
  induction k as [|k IH]; intros n v b v' E I H; [discriminate|]. cbn [eps_visit] in E.
  destruct (mem n v) eqn:M.
  { injection E as <- <-. apply mem_in in M. split; [intros _; apply (H n M), h_self|auto]. }
  assert (SELF : forall x, In x (n :: v) -> In x v \/ heads g n x) by (intros x [<- | Hx]; [right; apply h_self|left; exact Hx]).
  assert (KS : kind n <> NOther -> shape g n = true) by apply (shaped g WF). unfold shape in KS. rewrite I in KS.
  assert (NEW : kind n <> NSym -> forall m, below g m n = true -> forall x, heads g m x -> x <> n).
  { intros NS m B x Hh E'. subst x. pose proof (below_inside g _ _ B I) as J. apply below_lt in B.
    destruct (heads_le m n Hh J); [contradiction|lia]. }
  (* one thing inside *)
  assert (ONE : forall m, inside g m = true -> (forall x, heads g m x -> heads g n x) -> (derives m [] -> derives n []) ->
    (forall x, heads g m x -> x <> n) -> eps_visit g k f m (n :: v) = Some (b, v') ->
    (b = true -> derives n []) /\ (forall x, In x v' -> In x v \/ heads g n x)).
  { intros m Im HM DM NE E'. destruct (IH m (n :: v) b v' E' Im) as [B1 B2].
    - intros x [<- | Hx] Hh; [exfalso; eapply NE; [exact Hh|reflexivity]|]. apply H; auto.
    - split; [intros B; apply DM, B1, B|]. intros x Hx. destruct (B2 x Hx) as [Y|Y]; [apply SELF; exact Y|right; apply HM; exact Y]. }
  assert (LEAF : forall c, Some (c, n :: v) = Some (b, v') -> (c = true -> derives n []) ->
    (b = true -> derives n []) /\ (forall x, In x v' -> In x v \/ heads g n x)).
  { intros c E' D. injection E' as <- <-. split; [exact D|exact SELF]. }
  (* two, the second looked at after the first *)
  assert (LEFT : forall l b1 v1, below g l n = true -> kind n <> NSym -> (forall x, heads g l x -> heads g n x) ->
    eps_visit g k f l (n :: v) = Some (b1, v1) ->
    (b1 = true -> derives l []) /\ (forall x, In x v1 -> In x v \/ x = n \/ heads g l x)).
  { intros l b1 v1 BL NS HL E1. pose proof (below_inside g _ _ BL I) as J. destruct (IH l (n :: v) b1 v1 E1 J) as [B1 B2].
    - intros x [<- | Hx] Hh; [exfalso; eapply (NEW NS l BL); [exact Hh|reflexivity]|]. apply H; auto.
    - split; [exact B1|]. intros x Hx. destruct (B2 x Hx) as [[Y|Y]|Y]; auto. }
  assert (RIGHT : forall l r v1 b2 v2, below g r n = true -> kind n <> NSym -> (forall x, heads g l x -> heads g n x) -> (forall x, heads g r x -> heads g n x) ->
    (forall x, In x v1 -> In x v \/ x = n \/ heads g l x) -> (forall x, heads g l x -> heads g r x -> derives x []) ->
    eps_visit g k f r v1 = Some (b2, v2) ->
    (b2 = true -> derives r []) /\ (forall x, In x v2 -> In x v \/ heads g n x)).
  { intros l r v1 b2 v2 BR NS HL HR V1 AP E2. pose proof (below_inside g _ _ BR I) as J. destruct (IH r v1 b2 v2 E2 J) as [B1 B2].
    - intros x Hx Hh. destruct (V1 x Hx) as [Y|[Y|Y]].
      + apply H; auto.
      + exfalso. eapply (NEW NS r BR); eassumption.
      + apply AP; assumption.
    - split; [exact B1|]. intros x Hx. destruct (B2 x Hx) as [Y|Y]; [|right; apply HR; exact Y].
      destruct (V1 x Y) as [Z|[-> | Z]]; [left; exact Z|right; apply h_self|right; apply HL; exact Z]. }
  assert (DONE : forall l v1 (Q : Prop), (forall x, In x v1 -> In x v \/ x = n \/ heads g l x) -> (forall x, heads g l x -> heads g n x) -> forall x, In x v1 -> In x v \/ heads g n x).
  { intros l v1 _ V1 HL x Hx. destruct (V1 x Hx) as [Z|[-> | Z]]; [left; exact Z|right; apply h_self|right; apply HL; exact Z]. }
  destruct (kind n) as [| | |s|s|i c a|i c a|[i|]|l r|l r|i s|tt [c|]|i|i|bb ops x|] eqn:K;
    try (apply (LEAF _ E); intros Q; discriminate Q).
  - apply (LEAF _ E). intros _. apply d_zero; exact K.
  - apply (LEAF _ E). intros Z. exact (sound_zero f n S0 Z).
  - specialize (KS ltac:(discriminate)). assert (KY : kind s = NSym) by (unfold is_sym in KS; apply andb_true_iff in KS; destruct KS as [_ Y]; destruct (kind s); congruence).
    apply (ONE s); [unfold is_sym in KS; apply andb_true_iff in KS; apply KS| | | |exact E].
    + intros x Hx. eapply h_non; [left; exact K|exact Hx].
    + intros D. eapply d_non; eassumption.
    + intros x Hx Ex. subst x. inversion Hx; subst; try congruence. destruct H0; congruence.
  - specialize (KS ltac:(discriminate)). assert (KY : kind s = NSym) by (unfold is_sym in KS; apply andb_true_iff in KS; destruct KS as [_ Y]; destruct (kind s); congruence).
    apply (ONE s); [unfold is_sym in KS; apply andb_true_iff in KS; apply KS| | | |exact E].
    + intros x Hx. eapply h_non; [right; exact K|exact Hx].
    + intros D. eapply d_inl; eassumption.
    + intros x Hx Ex. subst x. inversion Hx; subst; try congruence. destruct H0; congruence.
  - specialize (KS ltac:(discriminate)). repeat rewrite andb_true_iff in KS. destruct KS as [[[[B _] _] _] _].
    apply (ONE i); [eapply below_inside; eassumption| | | |exact E].
    + intros x Hx. eapply h_plus; eassumption.
    + intros D. eapply d_plus1; eassumption.
    + apply NEW; [discriminate|exact B].
  - apply (LEAF _ E). intros _. eapply d_star0; exact K.
  - specialize (KS ltac:(discriminate)).
    apply (ONE i); [eapply below_inside; eassumption| | | |exact E].
    + intros x Hx. eapply h_act; eassumption.
    + intros D. eapply d_act; eassumption.
    + apply NEW; [discriminate|exact KS].
  - apply (LEAF _ E). intros _. eapply d_act0; exact K.
  - specialize (KS ltac:(discriminate)). apply andb_true_iff in KS. destruct KS as [BL BR].
    assert (HL : forall x, heads g l x -> heads g n x) by (intros x Hx; eapply h_altl; eassumption).
    assert (HR : forall x, heads g r x -> heads g n x) by (intros x Hx; eapply h_altr; eassumption).
    apply obind_inv in E. destruct E as ([b1 v1] & E1 & E). cbn [fst snd] in E.
    destruct (LEFT l b1 v1 BL ltac:(discriminate) HL E1) as [D1 V1]. destruct b1.
    + injection E as <- <-. split; [intros _; eapply d_altl; [exact K|apply D1; reflexivity]|]. eapply DONE; [exact True|exact V1|exact HL].
    + destruct (RIGHT l r v1 b v' BR ltac:(discriminate) HL HR V1) as [D2 V2]; [|exact E|].
      * intros x. apply (AP1 n l r x I (or_introl K)).
      * split; [intros B; eapply d_altr; [exact K|apply D2; exact B]|exact V2].
  - specialize (KS ltac:(discriminate)). apply andb_true_iff in KS. destruct KS as [BL BR].
    assert (HL : forall x, heads g l x -> heads g n x) by (intros x Hx; eapply h_consl; eassumption).
    apply obind_inv in E. destruct E as ([b1 v1] & E1 & E). cbn [fst snd] in E.
    destruct (LEFT l b1 v1 BL ltac:(discriminate) HL E1) as [D1 V1]. destruct b1.
    + specialize (D1 eq_refl).
      assert (HR : forall x, heads g r x -> heads g n x) by (intros x Hx; eapply h_consr; eassumption).
      destruct (RIGHT l r v1 b v' BR ltac:(discriminate) HL HR V1) as [D2 V2]; [|exact E|].
      * intros x. apply (AP2 n l r x I K D1).
      * split; [intros B; change (@nil id) with (@nil id ++ []); eapply d_cons; [exact K|exact D1|apply D2; exact B]|exact V2].
    + injection E as <- <-. split; [discriminate|]. eapply DONE; [exact True|exact V1|exact HL].
  - specialize (KS ltac:(discriminate)). apply andb_true_iff in KS. destruct KS as [BL BR].
    assert (HL : forall x, heads g tt x -> heads g n x) by (intros x Hx; eapply h_try; eassumption).
    assert (HR : forall x, heads g c x -> heads g n x) by (intros x Hx; eapply h_catch; eassumption).
    apply obind_inv in E. destruct E as ([b1 v1] & E1 & E). cbn [fst snd] in E.
    destruct (LEFT tt b1 v1 BL ltac:(discriminate) HL E1) as [D1 V1]. destruct b1.
    + injection E as <- <-. split; [intros _; eapply d_try; [exact K|apply D1; reflexivity]|]. eapply DONE; [exact True|exact V1|exact HL].
    + destruct (RIGHT tt c v1 b v' BR ltac:(discriminate) HL HR V1) as [D2 V2]; [|exact E|].
      * intros x. apply (AP1 n tt c x I (or_intror K)).
      * split; [intros B; eapply d_catch; [exact K|apply D2; exact B]|exact V2].
  - specialize (KS ltac:(discriminate)).
    assert (HL : forall x, heads g tt x -> heads g n x) by (intros x Hx; eapply h_try; eassumption).
    apply obind_inv in E. destruct E as ([b1 v1] & E1 & E). cbn [fst snd] in E.
    destruct (LEFT tt b1 v1 KS ltac:(discriminate) HL E1) as [D1 V1].
    assert (E' : Some (b1, v1) = Some (b, v')) by (destruct b1; exact E). injection E' as <- <-.
    split; [intros B; eapply d_try; [exact K|apply D1; exact B]|]. eapply DONE; [exact True|exact V1|exact HL].
  - specialize (KS ltac:(discriminate)).
    apply (ONE i); [eapply below_inside; eassumption| | | |exact E].
    + intros x Hx. eapply h_ann; eassumption.
    + intros D. eapply d_ann; eassumption.
    + apply NEW; [discriminate|exact KS].
  - specialize (KS ltac:(discriminate)).
    apply (ONE i); [eapply below_inside; eassumption| | | |exact E].
    + intros x Hx. eapply h_cond; eassumption.
    + intros D. eapply d_cond; eassumption.
    + apply NEW; [discriminate|exact KS].
Qed.
Lemma eps_right f n : sound f -> inside g n = true -> eps g f n = true -> derives n [].
Proof.
  intros S0 I E. destruct (eps_runs g f n) as (v' & R). rewrite E in R.
  apply (proj1 (eps_sound f S0 _ n [] true v' R I (fun x Hx => match Hx with end))). reflexivity.
Qed.

(** The expression node of an operator is never taken for empty. *)
Definition low (v : list id) (m : id) : Prop := forall x, In x v -> outside g x = true -> x < m.
Definition rest_ok (v : list id) (b : id) (ops : list op) : Prop := forall x, In x v -> inside g x = true -> ~ In x (map op_head ops) /\ ~ heads g b x.
Lemma in_out x : inside g x = true -> outside g x = false.
Proof.
  unfold inside, outside. rewrite Nat.ltb_lt. intros H. destruct (Nat.leb (gregular g) x) eqn:E; [apply Nat.leb_le in E; lia|reflexivity].
Qed.
Lemma outside_kind x : outside g x = true -> x < size g.
Proof. unfold outside. rewrite andb_true_iff, Nat.ltb_lt. tauto. Qed.
Lemma tok_eps f k s v p : is_tok g s = true -> mem s v = false -> eps_visit g k f s v = Some p -> p = (false, s :: v).
Proof.
  intros T M E. destruct k; [discriminate|]. cbn [eps_visit] in E. rewrite M in E. rewrite (proj2 (tok_in g WF s T)) in E. congruence.
Qed.
Lemma visited_eps f k s v p : mem s v = true -> eps_visit g k f s v = Some p -> p = (true, v).
Proof. intros M E. destruct k; [discriminate|]. cbn [eps_visit] in E. rewrite M in E. congruence. Qed.
Lemma chain_eps f x b : sound f -> inside g b = true -> ~ derives b [] -> forall ops m, chain g x m b ops = true ->
  NoDup (map op_head ops) ->
  forall k v c v', inside g m = true \/ low v m -> (In x v \/ m = x) -> outside g x = true -> x <= m \/ m = b -> rest_ok v b ops -> (forall s, In s (map op_head ops) -> ~ heads g b s) ->
  eps_visit g k f m v = Some (c, v') -> c = false.
Proof.
  intros S0 Ib Nb. induction ops as [|o ops IH]; intros m C ND k v c v' LOW0 TOP OX XM RO HB E.
  - cbn [chain] in C. apply Nat.eqb_eq in C. subst m.
    destruct c; [|reflexivity]. exfalso. apply Nb. apply (proj1 (eps_sound f S0 k b v true v' E Ib
      (fun y Hy Hh => match (proj2 (RO y Hy (heads_inside b y Hh Ib)) Hh) with end))). reflexivity.
  - cbn [chain] in C. apply andb_true_iff in C. destruct C as [OM C].
    assert (LOW : low v m) by (destruct LOW0 as [Q|Q]; [apply in_out in Q; congruence|exact Q]).
    destruct (kind m) as [| | |s|s|i cc a|i cc a|ii|l r|l r|i s|tt cc|i|i|bb oo xx|] eqn:K; try discriminate.
    repeat rewrite andb_true_iff in C. destruct C as [[[AL LR] SP] C]. unfold after in AL. apply andb_true_iff in AL. destruct AL as [AL OL]. apply Nat.ltb_lt in AL.
    cbn [map] in ND. apply NoDup_cons_iff in ND. destruct ND as [ND1 ND2].
    destruct k as [|k]; [discriminate|]. cbn [eps_visit] in E.
    assert (Mm : mem m v = false) by (apply mem_not; intros Q; pose proof (LOW m Q OM); lia). rewrite Mm, K in E.
    apply obind_inv in E. destruct E as ([c1 v1] & E1 & E). cbn [fst snd] in E.
    set (h := op_head o) in *.
    assert (TH : is_tok g h = true) by (pose proof (spells_toks g x l o SP) as T; unfold h; destruct o; cbn [op_head]; tauto).
    assert (IH' : inside g h = true) by (unfold is_tok in TH; apply andb_true_iff in TH; apply TH).
    assert (Hh : mem h v = false) by (apply mem_not; intros Q; destruct (RO h Q IH') as [Q1 _]; apply Q1; left; reflexivity).
    assert (TX : In x (m :: v)) by (destruct TOP as [TOP|TOP]; [right; exact TOP|left; exact TOP]).
    assert (XLM : x <= m) by (destruct XM as [XM|XM]; [exact XM|subst m; apply in_out in Ib; congruence]).
    (* what the operator leaves *)
    assert (OUT : c1 = false /\ (forall y, In y v1 -> In y v \/ y = m \/ y = l \/ y = h \/ (y = right_of g l /\ outside g y = true)) /\ incl (m :: v) v1).
    { destruct k as [|k]; [discriminate|]. cbn [eps_visit] in E1.
      assert (Ml : mem l (m :: v) = false).
      { apply mem_not. intros [Q|Q]; [lia|]. pose proof (LOW l Q OL). lia. }
      rewrite Ml in E1.
      assert (HIN : forall w, (forall y, In y w -> outside g y = true \/ In y v) -> mem h w = false).
      { intros w HW. apply mem_not. intros Q. destruct (HW h Q) as [Z|Z]; [rewrite (in_out h IH') in Z; discriminate|]. apply mem_in in Z. congruence. }
      (* a token in front *)
      assert (FRONT : forall q, kind l = NCons h q -> c1 = false /\ (forall y, In y v1 -> In y v \/ y = m \/ y = l \/ y = h \/ (y = right_of g l /\ outside g y = true)) /\ incl (m :: v) v1).
      { intros q KL. rewrite KL in E1. apply obind_inv in E1. destruct E1 as ([c2 v2] & E2 & E3). cbn [fst snd] in E3.
        assert (P : (c2, v2) = (false, h :: l :: m :: v)).
        { eapply tok_eps; [exact TH| |exact E2]. apply HIN. intros y [<- | [<- | Hy]]; auto. }
        injection P as -> ->. injection E3 as <- <-. split; [reflexivity|]. split; [|intros y Hy; right; right; exact Hy]. intros y [<- | [<- | [<- | Hy]]]; auto 6. }
      (* the expression in front *)
      assert (BACK : forall q, kind l = NCons x q -> (forall k' p, eps_visit g k' f q (l :: m :: v) = Some p -> fst p = false /\ (forall y, In y (snd p) -> In y v \/ y = m \/ y = l \/ y = h \/ (y = q /\ outside g y = true)) /\ incl (m :: v) (snd p)) ->
        c1 = false /\ (forall y, In y v1 -> In y v \/ y = m \/ y = l \/ y = h \/ (y = right_of g l /\ outside g y = true)) /\ incl (m :: v) v1).
      { intros q KL HQ. rewrite KL in E1. apply obind_inv in E1. destruct E1 as ([c2 v2] & E2 & E3). cbn [fst snd] in E3.
        assert (P : (c2, v2) = (true, l :: m :: v)) by (eapply visited_eps; [apply mem_in; right; exact TX|exact E2]).
        injection P as -> ->. destruct (HQ k (c1, v1) E3) as (Q1 & Q2 & Q3). cbn [fst snd] in Q1, Q2, Q3. split; [exact Q1|]. split; [|exact Q3].
        intros y Hy. unfold right_of. rewrite KL. apply Q2. exact Hy. }
      assert (INNER : forall q z, after g l q = true -> kind q = NCons h z -> forall k' p, eps_visit g k' f q (l :: m :: v) = Some p -> fst p = false /\ (forall y, In y (snd p) -> In y v \/ y = m \/ y = l \/ y = h \/ (y = q /\ outside g y = true)) /\ incl (m :: v) (snd p)).
      { intros q z A KQ k' p EQ. unfold after in A. apply andb_true_iff in A. destruct A as [A OQ]. apply Nat.ltb_lt in A.
        destruct k' as [|k']; [discriminate|]. cbn [eps_visit] in EQ.
        assert (Mq : mem q (l :: m :: v) = false) by (apply mem_not; intros [Q|[Q|Q]]; [lia|lia|pose proof (LOW q Q OQ); lia]).
        rewrite Mq, KQ in EQ. apply obind_inv in EQ. destruct EQ as ([c2 v2] & E2 & E3). cbn [fst snd] in E3.
        assert (P : (c2, v2) = (false, h :: q :: l :: m :: v)).
        { eapply tok_eps; [exact TH| |exact E2]. apply HIN. intros y [<- | [<- | [<- | Hy]]]; auto. }
        injection P as -> ->. injection E3 as <-. cbn [fst snd]. split; [reflexivity|]. split; [|intros y Hy; do 3 right; exact Hy]. intros y [<- | [<- | [<- | [<- | Hy]]]]; auto 8. }
      assert (RIGHT : forall q z, is_cons g q h z = true -> after g l q = true -> after g l q = true /\ kind q = NCons h z).
      { intros q z Q1 Q2. split; [exact Q2|]. apply is_cons_kind in Q1. exact Q1. }
      destruct o as [s|s|s|s u|s u]; cbn [op_head] in h.
      - destruct (pre_spelled g _ _ _ SP) as (KL & T). apply (FRONT x). exact KL.
      - destruct (post_spelled g _ _ _ SP) as (KL & T). apply (BACK h KL). intros k' [p1 p2] EQ.
        assert (P : (p1, p2) = (false, h :: l :: m :: v)).
        { eapply tok_eps; [exact TH| |exact EQ]. apply HIN. intros y [<- | [<- | Hy]]; auto. }
        injection P as -> ->. cbn [fst snd]. split; [reflexivity|]. split; [|intros y Hy; do 2 right; exact Hy].
        intros y [<- | [<- | [<- | Hy]]]; auto 8.
      - destruct (bin_spelled g _ _ _ SP) as (q & KL & KR & T). apply (BACK q KL). apply (INNER q x); [|exact KR].
        unfold spells in SP. rewrite KL in SP. repeat rewrite andb_true_iff in SP. tauto.
      - destruct (tern_spelled g _ _ _ _ SP) as (r1 & r2 & r3 & KL & K1 & K2 & K3 & T1 & T2). apply (BACK r1 KL). apply (INNER r1 r2); [|exact K1].
        unfold spells in SP. rewrite KL in SP. repeat rewrite andb_true_iff in SP. tauto.
      - destruct (paren_spelled g _ _ _ _ SP) as (q & KL & KR & T1 & T2). apply (FRONT q). exact KL. }
    destruct OUT as (-> & V1 & V2).
    assert (REST : ops = [] /\ r = b \/ outside g r = true).
    { destruct ops as [|o' ops']; [left; cbn [chain] in C; apply Nat.eqb_eq in C; auto|right; cbn [chain] in C; apply andb_true_iff in C; apply C]. }
    assert (LOWr : inside g r = true \/ (l < r /\ right_of g l < r)).
    { apply orb_true_iff in LR. destruct LR as [Q|Q]; [left; exact Q|right]. apply andb_true_iff in Q. rewrite !Nat.ltb_lt in Q. exact Q. }
    apply (IH r C ND2 k v1 c v').
    + destruct LOWr as [Q|[Q1 Q2]]; [left; exact Q|right]. intros y Hy Oy. destruct (V1 y Hy) as [Y|[-> | [-> | [-> | [-> _]]]]]; try lia.
      * pose proof (LOW y Y Oy). lia.
      * rewrite (in_out h IH') in Oy. discriminate.
    + left. apply V2. exact TX.
    + exact OX.
    + destruct REST as [[_ Q]|Q]; [right; exact Q|left]. destruct LOWr as [Q'|[Q1 Q2]]; [apply in_out in Q'; congruence|lia].
    + intros y Hy Iy. destruct (V1 y Hy) as [Y|[-> | [-> | [-> | [-> Q]]]]].
      * destruct (RO y Y Iy) as [R1 R2]. split; [intros Q; apply R1; right; exact Q|exact R2].
      * apply in_out in Iy. congruence.
      * apply in_out in Iy. congruence.
      * split; [exact ND1|]. apply HB. left. reflexivity.
      * apply in_out in Iy. congruence.
    + intros s Hs. apply HB. right. exact Hs.
    + exact E.
Qed.
Lemma oper_eps f n b ops x : sound f -> kind n = NOper b ops x -> eps g f x = false.
Proof.
  intros S0 K. destruct APART as (_ & _ & AP3). destruct (AP3 n b ops x K) as [ND HB].
  destruct (oper_shape g WF n b ops x K) as (A1 & A2 & A3). destruct (eps_runs g f x) as (v' & R).
  destruct (eps g f x) eqn:EX; [|reflexivity].
  assert (Ib : inside g b = true) by (eapply below_inside; eassumption).
  destruct (outside g x) eqn:OX.
  - apply (chain_eps f x b S0 Ib (OPERANDS n b ops x K) ops x A3 ND (S (S (size g))) [] true v'); try assumption; auto.
    + right. intros y [].
    + intros y [].
  - destruct ops as [|o ops]; cbn [chain] in A3; [|rewrite OX in A3; discriminate]. apply Nat.eqb_eq in A3. subst x.
    exfalso. apply (OPERANDS n b [] b K). apply (eps_right f b S0 Ib EX).
Qed.
Lemma oper_not_empty n w : derives n w -> w = [] -> forall b ops x, kind n <> NOper b ops x.
Proof.
  induction 1; intros E bb oo xx KK; subst; try congruence;
    try (eapply (OPERANDS n _ _ _ H); rewrite KK in H; injection H as <- <- <-; assumption).
  - apply app_eq_nil in E. destruct E; discriminate.
  - apply app_eq_nil in E. destruct E; discriminate.
  - apply app_eq_nil in E. destruct E; discriminate.
Qed.

(** ** Where a node stands *)
Inductive opcons (x : id) : id -> Prop :=
| oc n l r : kind n = NCons l r -> l = x \/ is_tok g l = true -> r = x \/ is_tok g r = true \/ opcons x r -> opcons x n.
Lemma spells_opcons x l o : spells g x l o = true -> opcons x l.
Proof.
  intros SP. destruct o as [s|s|s|s u|s u].
  - destruct (pre_spelled g _ _ _ SP) as (KL & T). eapply oc; eauto.
  - destruct (post_spelled g _ _ _ SP) as (KL & T). eapply oc; eauto.
  - destruct (bin_spelled g _ _ _ SP) as (q & KL & KR & T). eapply oc; [exact KL|auto|]. right; right. eapply oc; eauto.
  - destruct (tern_spelled g _ _ _ _ SP) as (r1 & r2 & r3 & KL & K1 & K2 & K3 & T1 & T2). eapply oc; [exact KL|auto|]. right; right.
    eapply oc; [exact K1|auto|]. right; right. eapply oc; [exact K2|auto|]. right; right. eapply oc; eauto.
  - destruct (paren_spelled g _ _ _ _ SP) as (q & KL & KR & T1 & T2). eapply oc; [exact KL|auto|]. right; right. eapply oc; eauto.
Qed.
Definition role (n : id) : Prop := inside g n = true \/
  (exists p i c a, (kind p = NStar i c a \/ kind p = NPlus i c a) /\ (n = c \/ n = a)) \/
  (exists p b ops x, kind p = NOper b ops x /\ (opcons x n \/ exists ops', chain g x n b ops' = true)).
Lemma tok_inside s : is_tok g s = true -> inside g s = true.
Proof. unfold is_tok. rewrite andb_true_iff. tauto. Qed.
Lemma role_kid n m : role n -> In m (kids g n) -> role m.
Proof.
  intros R H. destruct R as [I|[(p & i & c & a & K & E)|(p & b & ops & x & K & E)]].
  - assert (KN : kind n <> NOther) by (intro E; unfold kids in H; rewrite E in H; exact H).
    pose proof (shaped g WF n KN) as SH. unfold shape in SH. rewrite I in SH. unfold kids in H.
    assert (IN : forall m, below g m n = true -> role m) by (intros m' B; left; eapply below_inside; eassumption).
    destruct (kind n) as [| | |s|s|i c a|i c a|[i|]|l r|l r|i s|tt [c|]|i|i|bb ops x|] eqn:Kn; try (destruct H; fail);
      repeat rewrite andb_true_iff in SH.
    + destruct H as [<- | []]. right; left. exists n, i, c, a. auto.
    + destruct H as [<- | []]. right; left. exists n, i, c, a. auto.
    + destruct H as [<- | []]. auto.
    + destruct H as [<- | [<- | []]]; apply IN; tauto.
    + destruct H as [<- | [<- | []]]; apply IN; tauto.
    + destruct H as [<- | []]. apply IN; tauto.
    + destruct H as [<- | [<- | []]]; apply IN; tauto.
    + destruct H as [<- | []]. auto.
    + destruct H as [<- | []]. auto.
    + destruct H as [<- | []]. auto.
    + destruct H as [<- | []]. right; right. exists n, bb, ops, x. split; [exact Kn|]. right. exists ops. apply SH.
  - destruct (star_shape g WF p i c a K) as (Ip & Bi & KC & KA). unfold kids in H. destruct E as [-> | ->].
    + rewrite KC in H. destruct H as [<- | [<- | []]]; [left; eapply below_inside; eassumption|]. right; left. exists p, i, c, a. auto.
    + rewrite KA in H. destruct H as [<- | [<- | []]]; [left; exact (proj1 (proj1 (proj2 (wf_parts g WF))))|]. right; left. exists p, i, c, a. auto.
  - destruct (oper_shape g WF p b ops x K) as (Ip & Bb & CH). assert (Ib : inside g b = true) by (eapply below_inside; eassumption).
    assert (OP : forall y, y = x \/ is_tok g y = true \/ opcons x y -> role y).
    { intros y [-> | [T|O]]; [|left; apply tok_inside; exact T|]; right; right; exists p, b, ops, x; split; auto. right. eauto. }
    unfold kids in H. destruct E as [O|(ops' & C)].
    + destruct O as [n l r KN L R]. rewrite KN in H. destruct H as [<- | [<- | []]]; apply OP; [destruct L; auto|exact R].
    + destruct ops' as [|o ops']; cbn [chain] in C.
      * apply Nat.eqb_eq in C. subst n. 
        assert (In m (kids g b)) by exact H. clear H.
        assert (R : role b) by (left; exact Ib).
        assert (KN : kind b <> NOther) by (intro E; unfold kids in H0; rewrite E in H0; exact H0).
        pose proof (shaped g WF b KN) as SH. unfold shape in SH. rewrite Ib in SH. unfold kids in H0.
        assert (IN : forall m, below g m b = true -> role m) by (intros m' B; left; eapply below_inside; eassumption).
        destruct (kind b) as [| | |s|s|i c a|i c a|[i|]|l r|l r|i s|tt [c|]|i|i|bb oo xx|] eqn:Kn; try (destruct H0; fail);
          repeat rewrite andb_true_iff in SH.
        -- destruct H0 as [<- | []]. right; left. exists b, i, c, a. auto.
        -- destruct H0 as [<- | []]. right; left. exists b, i, c, a. auto.
        -- destruct H0 as [<- | []]. auto.
        -- destruct H0 as [<- | [<- | []]]; apply IN; tauto.
        -- destruct H0 as [<- | [<- | []]]; apply IN; tauto.
        -- destruct H0 as [<- | []]. apply IN; tauto.
        -- destruct H0 as [<- | [<- | []]]; apply IN; tauto.
        -- destruct H0 as [<- | []]. auto.
        -- destruct H0 as [<- | []]. auto.
        -- destruct H0 as [<- | []]. auto.
        -- destruct H0 as [<- | []]. right; right. exists b, bb, oo, xx. split; [exact Kn|]. right. exists oo. apply SH.
      * apply andb_true_iff in C. destruct C as [_ C]. destruct (kind n) eqn:KN; try discriminate.
        repeat rewrite andb_true_iff in C. destruct C as [[_ SP] C]. destruct H as [<- | [<- | []]].
        -- apply OP. right; right. eapply spells_opcons; exact SP.
        -- right; right. exists p, b, ops, x. split; [exact K|]. right; eauto.
Qed.
Lemma met_role n : met n -> role n.
Proof. induction 1 as [e He|n m _ IH H]; [left; apply (rule_kind g WF e He)|eapply role_kid; eassumption]. Qed.

(** ** Sequences *)
Lemma cons_sound f n l r : sound f -> met n -> kind n = NCons l r ->
  (eps g f l = true -> derives l []) /\ (f l (gzero g) = true -> forall f', sound f' -> eps g f' r = true -> derives r []).
Proof.
  intros S0 M K. destruct (met_role n M) as [I|[(p & i & c & a & KP & E)|(p & b & ops & x & KP & E)]].
  - assert (SH : shape g n = true) by (apply (shaped g WF); rewrite K; discriminate). unfold shape in SH. rewrite I, K in SH.
    apply andb_true_iff in SH. destruct SH as [BL BR]. split.
    + apply eps_right; [exact S0|eapply below_inside; eassumption].
    + intros _ f' S'. apply eps_right; [exact S'|eapply below_inside; eassumption].
  - destruct (star_shape g WF p i c a KP) as (Ip & Bi & KC & KA). destruct E as [-> | ->]; [|congruence].
    rewrite KC in K. injection K as <- <-. split.
    + apply eps_right; [exact S0|eapply below_inside; eassumption].
    + intros _ f' S' _. eapply d_altl; [exact KA|]. apply d_zero, (zero_kind g WF).
  - assert (X : ~ derives x []).
    { intros D. apply (oper_not_empty p [] (oper_top p b ops x [] KP D) eq_refl b ops x KP). }
    assert (LX : l = x \/ is_tok g l = true \/ inside g n = true).
    { destruct E as [O|(ops' & C)]; [destruct O as [n l' r' KN L R]; rewrite K in KN; injection KN as <- <-; tauto|].
      destruct ops' as [|o ops']; cbn [chain] in C; [|rewrite K, andb_false_r in C; discriminate].
      apply Nat.eqb_eq in C. subst n. right; right. destruct (oper_shape g WF p b ops x KP) as (Ip & Bb & CH). eapply below_inside; eassumption. }
    destruct LX as [-> | [T|I]].
    + split; [rewrite (oper_eps f p b ops x S0 KP); discriminate|]. intros Z. exfalso. apply X, (sound_zero f x S0 Z).
    + assert (TL : ~ derives l []) by (intros D; apply term_word in D; [discriminate|apply (tok_in g WF l T)]).
      split; [intros Q; exfalso; apply TL; apply (eps_right f l S0 (tok_inside l T) Q)|].
      intros Z. exfalso. apply TL, (sound_zero f l S0 Z).
    + assert (SH : shape g n = true) by (apply (shaped g WF); rewrite K; discriminate). unfold shape in SH. rewrite I, K in SH.
      apply andb_true_iff in SH. destruct SH as [BL BR]. split.
      * apply eps_right; [exact S0|eapply below_inside; eassumption].
      * intros _ f' S'. apply eps_right; [exact S'|eapply below_inside; eassumption].
Qed.

(** ** The rounds *)
Lemma sound_add st d a : sound (fst st) ->
  (forall x, a x = true -> (x = gzero g /\ derives d []) \/ (kind x = NTerm /\ exists w, derives d (x :: w))) ->
  sound (fst (add_to g st d a)).
Proof.
  intros S0 H. unfold add_to. destruct (news g (fst st) d a); [|exact S0]. intros n x. cbn [fst]. unfold upd.
  destruct (Nat.eqb n d) eqn:E; [|apply S0]. apply Nat.eqb_eq in E. subst d. intros Q. apply orb_true_iff in Q. destruct Q as [Q|Q]; [apply S0; exact Q|apply H; exact Q].
Qed.
Lemma sound_copy b st d s : sound (fst st) -> (forall w, derives s w -> derives d w) -> sound (fst (fmerge g b st d s)).
Proof.
  intros S0 H. apply sound_add; [exact S0|]. intros x Q. apply andb_true_iff in Q. destruct Q as [Q _].
  destruct (S0 s x Q) as [[E D]|[E (w & D)]]; [left|right]; eauto.
Qed.
Lemma search_some s e : search_rule g s = Some e -> In e (grules g) /\ exists i, kind e = NEvolve i s.
Proof.
  unfold search_rule. intros H. apply find_some in H. destruct H as [H1 H2]. split; [exact H1|].
  unfold rule_of in H2. destruct (kind e); try discriminate. apply Nat.eqb_eq in H2. subst s. eauto.
Qed.
Lemma sound_rule s e w : search_rule g s = Some e -> is_sym g s = true -> derives e w -> derives s w.
Proof.
  intros Q SY D. destruct (search_some s e Q) as (He & i & K). unfold is_sym in SY. apply andb_true_iff in SY. destruct SY as [_ SY].
  assert (KS : kind s = NSym) by (destruct (kind s); congruence).
  eapply d_sym; [exact KS|exact He|exact K|]. inversion D; subst; congruence.
Qed.
Lemma first_node_sound : forall k b P n st st', first_node g k b P n st = Some st' -> met n -> sound (fst st) -> sound (fst st').
Proof.
  induction k as [|k IH]; intros b P n st st' E M S0; [discriminate|]. cbn [first_node] in E.
  assert (KID : forall m, In m (kids g n) -> met m) by (intros m Hm; eapply met_kid; eassumption).
  assert (V : forall b m st st', In m (kids g n) -> (if mem m P then Some st else first_node g k b (m :: P) m st) = Some st' -> sound (fst st) -> sound (fst st')).
  { intros b' m s s' Hm H Q. destruct (mem m P); [injection H as <-; exact Q|]. eapply IH; [exact H|apply KID; exact Hm|exact Q]. }
  assert (SH : kind n <> NOther -> shape g n = true) by apply (shaped g WF). unfold shape in SH.
  unfold kids in KID, V.
  destruct (kind n) as [| | |s|s|i c a|i c a|[i|]|l r|l r|i s|tt [c|]|i|i|bb ops x|] eqn:K;
    try (injection E as <-; exact S0);
    try specialize (SH ltac:(discriminate)).
  - injection E as <-. destruct (inside g n); [|discriminate]. pose proof SH as SY.
    assert (S1 : sound (fst (fmerge g b st n s))) by (apply sound_copy; [exact S0|]; intros w D; eapply d_non; eassumption).
    unfold fmerge_opt. destruct (search_rule g s) as [e|] eqn:SR; [|exact S1]. apply sound_copy; [exact S1|].
    intros w D. eapply d_non; [exact K|]. eapply sound_rule; eassumption.
  - injection E as <-. destruct (inside g n); [|discriminate]. pose proof SH as SY.
    assert (S1 : sound (fst (fmerge g b st n s))) by (apply sound_copy; [exact S0|]; intros w D; eapply d_inl; eassumption).
    unfold fmerge_opt. destruct (search_rule g s) as [e|] eqn:SR; [|exact S1]. apply sound_copy; [exact S1|].
    intros w D. eapply d_inl; [exact K|]. eapply sound_rule; eassumption.
  - apply obind_inv in E. destruct E as (s1 & E1 & E). injection E as <-. apply sound_copy.
    + eapply IH; [exact E1|apply KID; left; reflexivity|exact S0].
    + intros w D. apply (proj1 (plus_outer n i c a K c w D) eq_refl).
  - apply obind_inv in E. destruct E as (s1 & E1 & E). injection E as <-. apply sound_copy.
    + eapply IH; [exact E1|apply KID; left; reflexivity|exact S0].
    + intros w D. apply (proj1 (star_outer n i c a K a w D) eq_refl).
  - apply obind_inv in E. destruct E as (s1 & E1 & E). injection E as <-. apply sound_copy.
    + eapply IH; [exact E1|apply KID; left; reflexivity|exact S0].
    + intros w D. eapply d_act; eassumption.
  - apply obind_inv in E. destruct E as (s1 & E1 & E). apply obind_inv in E. destruct E as (s2 & E2 & E). injection E as <-.
    assert (S1 : sound (fst s1)) by (eapply V; [left; reflexivity|exact E1|exact S0]).
    assert (S2 : sound (fst s2)) by (eapply V; [right; left; reflexivity|exact E2|exact S1]).
    apply sound_copy; [apply sound_copy; [exact S2|]|]; intros w D; [eapply d_altl; eassumption|eapply d_altr; eassumption].
  - apply obind_inv in E. destruct E as (s1 & E1 & E). apply obind_inv in E. destruct E as (s2 & E2 & E).
    assert (S1 : sound (fst s1)) by (eapply V; [right; left; reflexivity|exact E1|exact S0]).
    assert (S2 : sound (fst s2)) by (eapply V; [left; reflexivity|exact E2|exact S1]).
    set (b1 := if eps g (fst s1) r then b else true) in *.
    assert (PR : exists v, derives r v).
    { apply PRODUCTIVE.
      - apply kind_lt. pose proof (kid_item g WF n r) as Q. unfold kids in Q. rewrite K in Q. specialize (Q (or_intror (or_introl eq_refl))). unfold is_item in Q. intro Z. rewrite Z in Q. discriminate.
      - pose proof (kid_item g WF n r) as Q. unfold kids in Q. rewrite K in Q. specialize (Q (or_intror (or_introl eq_refl))). unfold is_item in Q. intro Z. rewrite Z in Q. discriminate. }
    assert (S3 : sound (fst (fmerge g b1 s2 n l))).
    { apply sound_add; [exact S2|]. intros x Q. apply andb_true_iff in Q. destruct Q as [Q1 Q2].
      destruct (S2 l x Q1) as [[-> D]|[KX (w & D)]].
      - left. split; [reflexivity|]. change (@nil id) with (@nil id ++ []). eapply d_cons; [exact K|exact D|].
        destruct (cons_sound (fst s2) n l r S2 M K) as [_ CR]. apply (CR Q1 (fst s1) S1).
        unfold b1 in Q2. destruct (eps g (fst s1) r); [reflexivity|]. unfold is_zero in Q2. rewrite (zero_kind g WF) in Q2. discriminate.
      - right. split; [exact KX|]. destruct PR as (v & Dv). exists (w ++ v). change (x :: w ++ v) with ((x :: w) ++ v). eapply d_cons; eassumption. }
    destruct (eps g (fst (fmerge g b1 s2 n l)) l) eqn:EL; [|injection E as <-; exact S3].
    destruct (cons_sound _ n l r S3 M K) as [CL _]. specialize (CL EL).
    apply obind_inv in E. destruct E as (s3 & E3 & E). injection E as <-.
    apply sound_copy; [eapply V; [right; left; reflexivity|exact E3|exact S3]|].
    intros w D. change w with ([] ++ w). eapply d_cons; eassumption.
  - apply obind_inv in E. destruct E as (s1 & E1 & E). injection E as <-.
    assert (S1 : sound (fst s1)) by (eapply V; [left; reflexivity|exact E1|exact S0]).
    assert (S2 : sound (fst (fmerge g b s1 n i))) by (apply sound_copy; [exact S1|]; intros w D; eapply d_evolve; eassumption).
    assert (IR : In n (grules g)).
    { destruct M as [e He|p m Hp Hm]; [exact He|]. apply (kid_item g WF) in Hm. unfold is_item in Hm. rewrite K in Hm. discriminate. }
    destruct (inside g n); [|discriminate]. apply andb_true_iff in SH. destruct SH as [_ SY]. unfold is_sym in SY. apply andb_true_iff in SY. destruct SY as [_ SY].
    assert (KS : kind s = NSym) by (destruct (kind s); congruence).
    apply sound_copy; [exact S2|]. intros w D. eapply d_sym; [exact KS|exact IR|exact K|]. inversion D; subst; congruence.
  - apply obind_inv in E. destruct E as (s1 & E1 & E). apply obind_inv in E. destruct E as (s2 & E2 & E). injection E as <-.
    assert (S1 : sound (fst s1)) by (eapply V; [left; reflexivity|exact E1|exact S0]).
    assert (S2 : sound (fst s2)) by (eapply V; [right; left; reflexivity|exact E2|exact S1]).
    apply sound_copy; [apply sound_copy; [exact S2|]|]; intros w D; [eapply d_try; eassumption|eapply d_catch; eassumption].
  - apply obind_inv in E. destruct E as (s1 & E1 & E). injection E as <-. apply sound_copy.
    + eapply IH; [exact E1|apply KID; left; reflexivity|exact S0].
    + intros w D. eapply d_try; eassumption.
  - apply obind_inv in E. destruct E as (s1 & E1 & E). injection E as <-. apply sound_copy.
    + eapply V; [left; reflexivity|exact E1|exact S0].
    + intros w D. eapply d_ann; eassumption.
  - apply obind_inv in E. destruct E as (s1 & E1 & E). injection E as <-. apply sound_copy.
    + eapply V; [left; reflexivity|exact E1|exact S0].
    + intros w D. eapply d_cond; eassumption.
  - apply obind_inv in E. destruct E as (s1 & E1 & E). injection E as <-. apply sound_copy.
    + eapply IH; [exact E1|apply KID; left; reflexivity|exact S0].
    + intros w D. eapply oper_top; eassumption.
Qed.
Lemma each_rule_sound k l : (forall e, In e l -> In e (grules g)) -> forall st st', each_rule (first_rule g k) l st = Some st' -> sound (fst st) -> sound (fst st').
Proof.
  induction l as [|e l IH]; intros H st st' E S0; cbn [each_rule] in E; [injection E as <-; exact S0|].
  apply obind_inv in E. destruct E as (s1 & E1 & E). apply (IH (fun x Hx => H x (or_intror Hx)) _ _ E).
  eapply first_node_sound; [exact E1|apply met_rule; apply H; left; reflexivity|exact S0].
Qed.
Lemma first_loop_sound : forall rounds fuel f t, first_loop g rounds fuel f = Some t -> sound f -> sound t.
Proof.
  induction rounds as [|k IH]; intros fuel f t E S0; [discriminate|]. cbn [first_loop] in E.
  apply obind_inv in E. destruct E as (st & E1 & E).
  assert (S1 : sound (fst st)) by (apply (each_rule_sound fuel (grules g) (fun e He => He) _ _ E1 S0)).
  destruct (snd st); [eapply IH; eassumption|injection E as <-; exact S1].
Qed.
Lemma first_init_sound : sound (first_init g).
Proof.
  intros n x H. unfold first_init in H. apply andb_true_iff in H. destruct H as [H1 H2]. apply Nat.eqb_eq in H1. subst x.
  apply orb_true_iff in H2. destruct H2 as [H2|H2].
  - apply Nat.eqb_eq in H2. left. split; [exact H2|]. subst n. apply d_zero, (zero_kind g WF).
  - apply mem_in in H2. destruct (wf_parts g WF) as (_ & _ & _ & T & _). destruct (T n H2) as [_ K]. right. split; [exact K|]. exists []. apply d_term. exact K.
Qed.
Theorem compute_first_sound rounds fuel t : compute_first g rounds fuel = Some t -> sound t.
Proof. intros E. eapply first_loop_sound; [exact E|apply first_init_sound]. Qed.
End G.
