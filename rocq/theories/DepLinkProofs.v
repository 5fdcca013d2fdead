(** What is noted while the FOLLOW sets are computed is where they come from. *)
From Coq Require Import List Bool PeanoNat Lia.
From Verif Require Import Base GrammarModel GrammarSpec GrammarProofs FirstProofs FollowProofs GrammarLoopProofs DepModel DepSpec DepProofs.
Import ListNotations.

Lemma leads_front D a b d : In (false, (a, b)) D -> leads D b d -> leads D a d.
Proof. intros H L. induction L as [|d m L IH Hm]; [eapply ld_step; [apply ld_self|exact H]|eapply ld_step; eassumption]. Qed.

Lemma some_eq {A} (x y : A) : Some x = Some y -> x = y. Proof. congruence. Qed.
Section G.
Variable g : grammar.
Notation kind := (kind g).
Hypothesis WF : well_formed g = true.
Variable t : table.

Lemma non_sym n s : kind n = NNon s \/ kind n = NInl s -> kind s = NSym.
Proof.
  intros K. assert (SH : shape g n = true) by (apply (shaped g WF); destruct K as [-> | ->]; discriminate). unfold shape in SH.
  destruct (inside g n); [|destruct K as [K|K]; rewrite K in SH; discriminate].
  assert (SY : is_sym g s = true) by (destruct K as [K|K]; rewrite K in SH; exact SH). unfold is_sym in SY. apply andb_true_iff in SY. destruct SY as [_ SY]. destruct (kind s); congruence.
Qed.
Lemma evolve_sym n i s : kind n = NEvolve i s -> kind s = NSym.
Proof.
  intros K. assert (SH : shape g n = true) by (apply (shaped g WF); rewrite K; discriminate). unfold shape in SH. rewrite K in SH.
  destruct (inside g n); [|discriminate]. apply andb_true_iff in SH. destruct SH as [_ SY]. unfold is_sym in SY. apply andb_true_iff in SY. destruct SY as [_ SY]. destruct (kind s); congruence.
Qed.

(** ** Every member has a cause *)
Section D.
Variable D : deps.
Definition noted_rules : Prop := forall e i s, In e (grules g) -> kind e = NEvolve i s -> In (false, (e, s)) D.
Definition caused (k x : id) : Prop := x = geof g \/ exists d m, leads D k d /\ In (true, (d, m)) D /\ t m x = true.
Definition accounted (o : table) : Prop := forall n x, o n x = true -> caused (key g n) x.
Lemma caused_front a b x : In (false, (a, b)) D -> caused b x -> caused a x.
Proof. intros H [-> | (d & m & L & Hm & F)]; [left; reflexivity|right]. exists d, m. split; [eapply leads_front; eassumption|auto]. Qed.
Lemma accounted_merge st d s : accounted (fst st) -> (forall x, s x = true -> caused (key g d) x) -> accounted (fst (omerge g st d s)).
Proof.
  intros A H. unfold omerge. destruct (is_zero g d || is_term g d); [exact A|]. unfold add_to. destruct (news _ _ _ _); [|exact A]. cbn [fst].
  intros n x. unfold upd. destruct (Nat.eqb n d) eqn:E; [|apply A]. apply Nat.eqb_eq in E. subst n. intros X. apply orb_true_iff in X. destruct X as [X|X]; [apply A; exact X|].
  apply andb_true_iff in X. apply H, X.
Qed.
Lemma accounted_down st d n : accounted (fst st) -> key g n = n -> In (false, (key g d, n)) D -> accounted (fst (down g st d n)).
Proof. intros A K H. apply accounted_merge; [exact A|]. intros x X. eapply caused_front; [exact H|]. rewrite <- K. apply A. exact X. Qed.
End D.
Ltac inc I := let e := fresh in intros e ?; apply I; rewrite ?in_app_iff; cbn [from_follow from_first In]; tauto.
Lemma follow_dep : forall f P n st st', follow_node g f t P n st = Some st' ->
  exists d, dep_node g f t P n = Some d /\ forall D, noted_rules D -> incl d D -> accounted D (fst st) -> accounted D (fst st').
Proof.
  induction f as [|f IH]; intros P n st st' E; [discriminate|]. cbn [follow_node] in E. cbn [dep_node].
  assert (V : forall m st st', (if mem m P then Some st else follow_node g f t (m :: P) m st) = Some st' ->
    exists d, (if mem m P then Some [] else dep_node g f t (m :: P) m) = Some d /\ forall D, noted_rules D -> incl d D -> accounted D (fst st) -> accounted D (fst st')).
  { intros m s s' H. destruct (mem m P); [injection H as <-; exists []; split; [reflexivity|auto]|]. eapply IH; eassumption. }
  assert (KEY : (forall s, kind n <> NNon s) -> key g n = n) by (intros Q; unfold key; destruct (kind n) eqn:K; try reflexivity; exfalso; exact (Q _ eq_refl)).
  assert (ONE : forall D d st, key g n = n -> (forall e, In e (from_follow g d n) -> In e D) -> accounted D (fst st) -> accounted D (fst (down g st d n))).
  { intros D d s K H A. apply accounted_down; [exact A|exact K|]. apply H. left. reflexivity. }
  assert (SYM : forall s, kind n = NNon s \/ kind n = NInl s -> st' = down g (omerge_opt g st (search_rule g s) n) s n ->
    forall D, noted_rules D -> incl (match search_rule g s with Some e => from_follow g e n | None => [] end ++ from_follow g s n) D -> accounted D (fst st) -> accounted D (fst st')).
  { clear E. intros s KS -> D R I A. pose proof (non_sym n s KS) as SY. assert (KY : key g s = s) by (unfold key; rewrite SY; reflexivity).
    assert (C : forall o x, accounted D o -> o n x = true -> caused D s x).
    { intros o x AO X. apply AO in X. destruct KS as [KS|KS]; unfold key in X; rewrite KS in X; [exact X|].
      eapply caused_front; [|exact X]. apply I, in_or_app. right. unfold from_follow. rewrite KY. left. reflexivity. }
    assert (A1 : accounted D (fst (omerge_opt g st (search_rule g s) n))).
    { unfold omerge_opt. destruct (search_rule g s) as [e|] eqn:SR; [|exact A]. unfold search_rule in SR. apply find_some in SR. destruct SR as [Ie RO]. unfold rule_of in RO.
      destruct (kind e) as [| | | | | | | | | |i s'| | | | | ] eqn:KE; try discriminate. apply Nat.eqb_eq in RO. subst s'.
      apply accounted_merge; [exact A|]. intros x X. unfold key. rewrite KE. eapply caused_front; [exact (R e i s Ie KE)|]. exact (C _ x A X). }
    unfold down. apply accounted_merge; [exact A1|]. intros x X. rewrite KY. exact (C _ x A1 X). }
  destruct (kind n) as [| | |s|s|i c a|i c a|[i|]|l r|l r|i s|tt [c|]|i|i|bb ops x|] eqn:KN.
  1-3,9,18: injection E as <-; exists []; split; [reflexivity|auto].
  1-2: injection E as E; eexists; split; [reflexivity|]; intros D R I A; exact (SYM s ltac:(auto) (eq_sym E) D R I A).
  all: specialize (KEY ltac:(intros; discriminate)).
  1-3,8,11: destruct (IH _ _ _ _ E) as (d & -> & H); cbn [obind]; eexists; (split; [reflexivity|]); intros D R I A; apply (H D R); [inc I|]; apply ONE; [exact KEY|inc I|exact A].
  - apply obind_inv in E. destruct E as (s1 & E1 & E). destruct (V _ _ _ E1) as (d & -> & H1). destruct (V _ _ _ E) as (e & -> & H2). cbn [obind]. eexists. split; [reflexivity|].
    intros D R I A. apply (H2 D R); [inc I|]. apply (H1 D R); [inc I|]. apply ONE; [exact KEY|inc I|]. apply ONE; [exact KEY|inc I|exact A].
  - apply obind_inv in E. destruct E as (s1 & E1 & E). destruct (V _ _ _ E1) as (d & -> & H1). destruct (V _ _ _ E) as (e & -> & H2). cbn [obind]. eexists. split; [reflexivity|].
    intros D R I A. apply (H2 D R); [inc I|]. apply (H1 D R); [inc I|].
    assert (A1 : accounted D (fst (omerge g (down g st r n) l (t r)))).
    { apply accounted_merge; [apply ONE; [exact KEY|inc I|exact A]|]. intros x X. right. exists (key g l), r. split; [apply ld_self|]. split; [|exact X].
      apply I. apply in_or_app. right. left. reflexivity. }
    destruct (eps g t r); [|exact A1]. apply ONE; [exact KEY| |exact A1]. inc I.
  - destruct (V _ _ _ E) as (d & -> & H). cbn [obind]. eexists. split; [reflexivity|]. intros D R I A. apply (H D R); [inc I|].
    apply ONE; [exact KEY|inc I|]. apply accounted_merge; [exact A|]. intros x X. assert (KS : key g s = s) by (unfold key; rewrite (evolve_sym n i s KN); reflexivity).
    apply (caused_front D _ s); [apply I; left; reflexivity|]. apply A in X. rewrite KS in X. exact X.
  - apply obind_inv in E. destruct E as (s1 & E1 & E). destruct (V _ _ _ E1) as (d & -> & H1). destruct (V _ _ _ E) as (e & -> & H2). cbn [obind]. eexists. split; [reflexivity|].
    intros D R I A. apply (H2 D R); [inc I|]. apply (H1 D R); [inc I|]. apply ONE; [exact KEY|inc I|]. apply ONE; [exact KEY|inc I|exact A].
  - destruct (V _ _ _ E) as (d & -> & H). cbn [obind]. eexists. split; [reflexivity|]. intros D R I A. apply (H D R); [inc I|]. apply ONE; [exact KEY|inc I|exact A].
  - destruct (V _ _ _ E) as (d & -> & H). cbn [obind]. eexists. split; [reflexivity|]. intros D R I A. apply (H D R); [inc I|]. apply ONE; [exact KEY|inc I|exact A].
Qed.
Lemma rules_dep f : forall l st st', each_rule (follow_rule g f t) l st = Some st' ->
  exists d, dep_rules g f t l = Some d /\ forall D, noted_rules D -> incl d D -> accounted D (fst st) -> accounted D (fst st').
Proof.
  induction l as [|e l IH]; intros st st' E; cbn [each_rule] in E; [injection E as <-; exists []; split; [reflexivity|auto]|].
  apply obind_inv in E. destruct E as (s1 & E1 & E). destruct (follow_dep _ _ _ _ _ E1) as (d1 & Q1 & H1). destruct (IH _ _ E) as (d2 & Q2 & H2).
  exists (d1 ++ d2). cbn [dep_rules]. rewrite Q1. cbn [obind]. rewrite Q2. cbn [obind]. split; [reflexivity|]. intros D R I A.
  apply (H2 D R); [intros y Y; apply I, in_or_app; right; exact Y|]. apply (H1 D R); [intros y Y; apply I, in_or_app; left; exact Y|exact A].
Qed.
Lemma rules_noted f : forall l d, dep_rules g f t l = Some d -> forall e i s, In e l -> kind e = NEvolve i s -> In (false, (e, s)) d.
Proof.
  induction l as [|e0 l IH]; intros d E e i s Ie K; [destruct Ie|]. cbn [dep_rules] in E. apply obind_inv in E. destruct E as (d1 & E1 & E). apply obind_inv in E. destruct E as (d2 & E2 & Q). injection Q as <-.
  apply in_or_app. destruct Ie as [->|Ie]; [left|right; eapply IH; eassumption].
  destruct f as [|f]; [discriminate|]. cbn [dep_node] in E1. rewrite K in E1. apply obind_inv in E1. destruct E1 as (d' & _ & Q). injection Q as <-.
  left. unfold from_follow, key. rewrite K. reflexivity.
Qed.
Theorem follow_caused rounds fuel o : compute_follow g rounds fuel t = Some o ->
  exists D, compute_deps g fuel t = Some D /\ forall n x, o n x = true -> caused D (key g n) x.
Proof.
  unfold compute_follow. intros E.
  assert (X : exists D, compute_deps g fuel t = Some D).
  { destruct rounds as [|k]; [discriminate|]. cbn [follow_loop] in E. apply obind_inv in E. destruct E as (st & E1 & _). destruct (rules_dep _ _ _ _ E1) as (d & Q & _). exists d. exact Q. }
  destruct X as (D & Q). exists D. split; [exact Q|].
  assert (R : noted_rules D) by (intros e i s Ie K; eapply rules_noted; eassumption).
  assert (A0 : accounted D (follow_init g)).
  { intros n x H. unfold follow_init in H. apply andb_true_iff in H. destruct H as [H _]. apply Nat.eqb_eq in H. left. exact H. }
  change (follow_init g) with (fst (follow_init g, true)) in A0. revert E A0. generalize (follow_init g, true). induction rounds as [|k IH]; intros st E A0; [discriminate|].
  cbn [follow_loop] in E. apply obind_inv in E. destruct E as (st1 & E1 & E). destruct (rules_dep _ _ _ _ E1) as (d & Q' & H).
  assert (d = D) by (unfold compute_deps in Q; congruence). subst d. assert (A1 : accounted D (fst st1)) by (apply (H D R (incl_refl _) A0)).
  destruct (snd st1); [apply (IH _ E); exact A1|injection E as <-; exact A1].
Qed.

(** ** Every cause is one *)
Definition noted (n : id) : deps :=
  match kind n with
  | NZero | NTerm | NSym | NOther | NAct None => []
  | NNon s | NInl s => match search_rule g s with Some e => from_follow g e n | None => [] end ++ from_follow g s n
  | NPlus _ c _ => from_follow g c n
  | NStar _ _ a => from_follow g a n
  | NOper _ _ x => from_follow g x n
  | NAct (Some i) | NAnn i | NCond i | NTry i None => from_follow g i n
  | NAlt l r | NTry l (Some r) => from_follow g l n ++ from_follow g r n
  | NCons l r => from_follow g r n ++ from_first g l r ++ (if eps g t r then from_follow g l n else [])
  | NEvolve i s => from_follow g n s ++ from_follow g i n
  end.
Lemma dep_split : forall f P n d, dep_node g f t P n = Some d -> incl (noted n) d /\
  forall e, In e d -> In e (noted n) \/ exists m f' P' d', f' < f /\ In m (kids g n) /\ dep_node g f' t P' m = Some d' /\ In e d' /\ incl d' d.
Proof.
  intros [|f] P n d E; [discriminate|]. cbn [dep_node] in E.
  assert (V : forall m d', (if mem m P then Some [] else dep_node g f t (m :: P) m) = Some d' -> forall e, In e d' -> incl d' d -> In m (kids g n) ->
    exists m f' P' d', f' < S f /\ In m (kids g n) /\ dep_node g f' t P' m = Some d' /\ In e d' /\ incl d' d).
  { intros m d' H e Ie Id Im. destruct (mem m P); [injection H as <-; destruct Ie|]. exists m, f, (m :: P), d'. repeat split; auto. }
  assert (W : forall m d', dep_node g f t P m = Some d' -> forall e, In e d' -> incl d' d -> In m (kids g n) ->
    exists m f' P' d', f' < S f /\ In m (kids g n) /\ dep_node g f' t P' m = Some d' /\ In e d' /\ incl d' d).
  { intros m d' H e Ie Id Im. exists m, f, P, d'. repeat split; auto. }
  unfold noted. unfold kids in V, W |- *.
  destruct (kind n) as [| | |s|s|i c a|i c a|[i|]|l r|l r|i s|tt [c|]|i|i|bb ops x|] eqn:KN; try (injection E as <-; split; [apply incl_refl|auto]; fail);
    apply obind_inv in E; destruct E as (d1 & E1 & E); try (apply obind_inv in E; destruct E as (d2 & E2 & E)); apply some_eq in E; subst d;
    (split; [clear V W; intros e Ie; repeat rewrite in_app_iff in Ie; repeat rewrite in_app_iff; tauto|]; intros e Ie).
  all: repeat (apply in_app_or in Ie; destruct Ie as [Ie|Ie]); try (left; rewrite ?in_app_iff; tauto); right;
    first [ eapply (W _ _ E1); [exact Ie|intros y Y; rewrite ?in_app_iff; tauto|cbn; tauto] | eapply (V _ _ E1); [exact Ie|intros y Y; rewrite ?in_app_iff; tauto|cbn; tauto] | eapply (V _ _ E2); [exact Ie|intros y Y; rewrite ?in_app_iff; tauto|cbn; tauto] ].
Qed.
Lemma dep_from : forall f P n d, dep_node g f t P n = Some d -> met g n -> forall e, In e d -> exists m, met g m /\ In e (noted m).
Proof.
  induction f as [f IH] using (well_founded_induction Nat.lt_wf_0). intros P n d E M e Ie. destruct (dep_split f P n d E) as (_ & S0). destruct (S0 e Ie) as [H|(m & f' & P' & d' & L & K & E' & Ie' & _)]; [exists n; auto|].
  eapply (IH f' L); [exact E'|eapply met_kid; eassumption|exact Ie'].
Qed.
Lemma rules_from f : forall l d, incl l (grules g) -> dep_rules g f t l = Some d -> forall e, In e d -> exists m, met g m /\ In e (noted m).
Proof.
  induction l as [|e0 l IH]; intros d I E e Ie; cbn [dep_rules] in E; [injection E as <-; destruct Ie|].
  apply obind_inv in E. destruct E as (d1 & E1 & E). apply obind_inv in E. destruct E as (d2 & E2 & Q). injection Q as <-. apply in_app_or in Ie. destruct Ie as [Ie|Ie].
  - eapply dep_from; [exact E1|apply met_rule, I; left; reflexivity|exact Ie].
  - eapply IH; [|exact E2|exact Ie]. intros y Y. apply I. right. exact Y.
Qed.
Section O.
Variable o : table.
Hypothesis FQUIET : forall e, In e (grules g) -> exists f, fquiet g t o f [e] e.
Definition upward (d : id) (x : id) : Prop := plain g d -> o d x = true.
Lemma key_up l x : (kind l = NZero \/ kind l = NTerm \/ met g l \/ (forall s, kind l <> NNon s)) -> kind x = NTerm -> upward l x -> upward (key g l) x.
Proof.
  intros M K U. unfold key. destruct (kind l) as [| | |s| | | | | | | | | | | | ] eqn:KL; try exact U.
  destruct M as [M|[M|[M|M]]]; try congruence. pose proof (met_flocal g t o FQUIET l M) as F. unfold flocal in F. rewrite KL in F.
  intros _. apply F; [exact K| |]; [|unfold plain, is_zero, is_term; rewrite (non_sym l s (or_introl KL)); reflexivity].
  apply U. unfold plain, is_zero, is_term. rewrite KL. reflexivity.
Qed.
Lemma noted_right n : met g n -> forall b k m, In (b, (k, m)) (noted n) -> (b = false -> plain g m) /\ forall x, kind x = NTerm -> (if b then t m x else o m x) = true -> upward k x.
Proof.
  intros M b k m I. pose proof (met_flocal g t o FQUIET n M) as F. unfold flocal in F. unfold noted in I.
  assert (KID : forall l, In l (kids g n) -> met g l) by (intros l L; eapply met_kid; eassumption). unfold kids in KID.
  assert (ONE : forall l, met g l -> fcopy g o l n -> plain g n -> In (b, (k, m)) (from_follow g l n) -> (b = false -> plain g m) /\ forall x, kind x = NTerm -> (if b then t m x else o m x) = true -> upward k x).
  { intros l L C PN [Q|[]]. injection Q as <- <- <-. split; [auto|]. intros x K H. apply key_up; [auto|exact K|]. intros PL. exact (C x K H PL). }
  assert (PL : (kind n = NZero \/ kind n = NTerm -> False) -> plain g n) by (unfold plain, is_zero, is_term; destruct (kind n); auto; intros Q; exfalso; auto).
  assert (SYM : forall s, kind n = NNon s \/ kind n = NInl s -> fcopy g o s n -> In (b, (k, m)) (match search_rule g s with Some e => from_follow g e n | None => [] end ++ from_follow g s n) ->
    (b = false -> plain g m) /\ forall x, kind x = NTerm -> (if b then t m x else o m x) = true -> upward k x).
  { intros s KS C J. pose proof (non_sym n s KS) as SY. assert (PS : plain g s) by (unfold plain, is_zero, is_term; rewrite SY; reflexivity).
    assert (PN : plain g n) by (unfold plain, is_zero, is_term; destruct KS as [-> | ->]; reflexivity).
    apply in_app_or in J. destruct J as [J|J].
    - destruct (search_rule g s) as [e|] eqn:SR; [|destruct J]. unfold search_rule in SR. apply find_some in SR. destruct SR as [Ie RO]. unfold rule_of in RO.
      destruct (kind e) as [| | | | | | | | | |i s'| | | | | ] eqn:KE; try discriminate. apply Nat.eqb_eq in RO. subst s'.
      destruct J as [Q|[]]. unfold key in Q. rewrite KE in Q. injection Q as <- <- <-. split; [auto|]. intros x K H PE.
      pose proof (met_flocal g t o FQUIET e (met_rule g e Ie)) as FE. unfold flocal in FE. rewrite KE in FE. apply (proj1 FE); [exact K| |exact PE]. apply C; [exact K|exact H|exact PS].
    - destruct J as [Q|[]]. unfold key in Q. rewrite SY in Q. injection Q as <- <- <-. split; [auto|]. intros x K H _. apply C; [exact K|exact H|exact PS]. }
  destruct (kind n) as [| | |s|s|i c a|i c a|[i|]|l r|l r|i s|tt [c|]|i|i|bb ops x|] eqn:KN; try (destruct I; fail);
    try (eapply SYM; [eauto|exact F|exact I]); try specialize (PL ltac:(intros [Q|Q]; discriminate));
    try (eapply ONE; [apply KID; left; reflexivity|exact F|exact PL|exact I]);
    try (apply in_app_or in I; destruct I as [I|I]; [eapply ONE; [apply KID; left; reflexivity|apply F|exact PL|exact I]|eapply ONE; [apply KID; right; left; reflexivity|apply F|exact PL|exact I]]).
  - apply in_app_or in I. destruct I as [I|I]; [eapply ONE; [apply KID; right; left; reflexivity|apply F|exact PL|exact I]|]. apply in_app_or in I. destruct I as [I|I].
    + destruct I as [Q|[]]. injection Q as <- <- <-. split; [discriminate|]. intros x K H. apply key_up; [right; right; left; apply KID; left; reflexivity|exact K|]. intros Pl. apply (proj1 (proj2 F)); assumption.
    + destruct (eps g t r); [|destruct I]. eapply ONE; [apply KID; left; reflexivity|apply F; reflexivity|exact PL|exact I].
  - apply in_app_or in I. destruct I as [I|I]; [|eapply ONE; [apply KID; left; reflexivity|apply F|exact PL|exact I]].
    destruct I as [Q|[]]. unfold key in Q. rewrite KN in Q. injection Q as <- <- <-. split; [intros _; unfold plain, is_zero, is_term; rewrite (evolve_sym n i s KN); reflexivity|].
    intros x K H Pn. apply (proj1 F); assumption.
Qed.
Theorem cause_right fuel D : compute_deps g fuel t = Some D -> forall n m x, plain g n -> cause D n m -> kind x = NTerm -> t m x = true -> o n x = true.
Proof.
  intros E n m x PN (d & L & H) K F. assert (R : forall b k m, In (b, (k, m)) D -> (b = false -> plain g m) /\ forall x, kind x = NTerm -> (if b then t m x else o m x) = true -> upward k x).
  { intros b k m' I. destruct (rules_from _ _ _ (incl_refl _) E _ I) as (n' & M & I'). exact (noted_right n' M b k m' I'). }
  assert (X : plain g d -> o d x = true) by (intros PD; exact (proj2 (R _ _ _ H) x K F PD)). clear H F.
  assert (Y : plain g d /\ (o d x = true -> o n x = true)).
  { clear X. induction L as [|d k L IH Hk]; [auto|]. destruct IH as (PD & IH). destruct (R _ _ _ Hk) as (P1 & P2). split; [apply P1; reflexivity|]. intros H. apply IH. exact (P2 x K H PD). }
  destruct Y as (PD & Y). exact (Y (X PD)).
Qed.
End O.

(** ** Loops *)
Definition straight (f : table) : Prop := (forall n l r x, kind n = NAlt l r -> f n x = true -> f l x = true \/ f r x = true) /\ (forall n x, kind n = NZero -> f n x = true -> x = n) /\
  (forall n i c a x, (kind n = NStar i c a -> f n x = true -> f a x = true) /\ (kind n = NPlus i c a -> f n x = true -> f c x = true)).
Lemma straight_merge b st d s : straight (fst st) -> kind d <> NZero -> (forall l r, kind d = NAlt l r -> s = l \/ s = r) ->
  (forall i c a, (kind d = NStar i c a -> s = a) /\ (kind d = NPlus i c a -> s = c)) -> straight (fst (fmerge g b st d s)).
Proof.
  intros (A & Z & ST) KD H HS. unfold fmerge, add_to. destruct (news _ _ _ _); [|split; [|split]; assumption]. cbn [fst].
  assert (UP : forall n x, fst st n x = true -> upd (fst st) d (fun x => fst st d x || fst st s x && negb (b && is_zero g x)) n x = true).
  { intros n x X. unfold upd. destruct (Nat.eqb n d) eqn:E; [apply Nat.eqb_eq in E; subst n; rewrite X; reflexivity|exact X]. }
  assert (CC : forall n x, upd (fst st) d (fun x => fst st d x || fst st s x && negb (b && is_zero g x)) n x = true -> fst st n x = true \/ n = d /\ fst st s x = true).
  { intros n x X. unfold upd in X. destruct (Nat.eqb n d) eqn:E; [|left; exact X]. apply Nat.eqb_eq in E. subst n. apply orb_true_iff in X. destruct X as [X|X]; [left; exact X|right]. apply andb_true_iff in X. split; [reflexivity|apply X]. }
  split; [|split].
  - intros n l r x K X. destruct (CC n x X) as [C|(-> & C)]; [destruct (A n l r x K C) as [Q|Q]; [left|right]; apply UP; exact Q|]. destruct (H l r K) as [-> | ->]; [left|right]; apply UP; exact C.
  - intros n x K X. apply (Z n x K). unfold upd in X. destruct (Nat.eqb n d) eqn:E; [|exact X]. apply Nat.eqb_eq in E. congruence.
  - intros n i c a x. split; intros K X; destruct (CC n x X) as [C|(-> & C)]; apply UP.
    + exact (proj1 (ST n i c a x) K C).
    + rewrite <- (proj1 (HS i c a) K). exact C.
    + exact (proj2 (ST n i c a x) K C).
    + rewrite <- (proj2 (HS i c a) K). exact C.
Qed.
Lemma first_straight : forall f b P n st st', first_node g f b P n st = Some st' -> straight (fst st) -> straight (fst st').
Proof.
  induction f as [|f IH]; intros b P n st st' E S0; [discriminate|]. cbn [first_node] in E.
  assert (V : forall b m st st', (if mem m P then Some st else first_node g f b (m :: P) m st) = Some st' -> straight (fst st) -> straight (fst st')).
  { intros b' m s s' H. destruct (mem m P); [injection H as <-; auto|]. eapply IH; eassumption. }
  assert (ONE : forall b st s, (kind n <> NZero) -> (forall l r, kind n <> NAlt l r) -> (forall i c a, (kind n = NStar i c a -> s = a) /\ (kind n = NPlus i c a -> s = c)) -> straight (fst st) -> straight (fst (fmerge g b st n s))).
  { intros b' s0 s K1 K2 K3 S1. apply straight_merge; [exact S1|exact K1| |exact K3]. intros l r K. exfalso. exact (K2 l r K). }
  assert (ALT : forall b st l r s, kind n = NAlt l r -> s = l \/ s = r -> straight (fst st) -> straight (fst (fmerge g b st n s))).
  { intros b' s0 l r s K1 K2 S1. apply straight_merge; [exact S1|congruence| |intros; split; congruence]. intros l' r' K. rewrite K1 in K. injection K as <- <-. exact K2. }
  destruct (kind n) as [| | |s|s|i c a|i c a|[i|]|l r|l r|i s|tt [c|]|i|i|bb ops x|] eqn:KN;
    try (injection E as <-; exact S0);
    try (injection E as <-; unfold fmerge_opt; destruct (search_rule g s); repeat (apply ONE; [intros; congruence|intros; congruence|intros; split; congruence|]); exact S0);
    try (apply obind_inv in E; destruct E as (s1 & E1 & E); injection E as <-; apply ONE; [intros; congruence|intros; congruence|intros; split; congruence|]; first [eapply IH; eassumption|eapply V; eassumption]).
  - apply obind_inv in E. destruct E as (s1 & E1 & E). apply obind_inv in E. destruct E as (s2 & E2 & E). injection E as <-.
    apply (ALT _ _ l r); [congruence|auto|]. apply (ALT _ _ l r); [congruence|auto|]. eapply V; [exact E2|]. eapply V; eassumption.
  - apply obind_inv in E. destruct E as (s1 & E1 & E). cbv zeta in E. apply obind_inv in E. destruct E as (s2 & E2 & E).
    set (b' := if eps g (fst s1) r then b else true) in *.
    assert (S2 : straight (fst (fmerge g b' s2 n l))) by (apply ONE; [intros; congruence|intros; congruence|intros; split; congruence|]; eapply V; [exact E2|]; eapply V; eassumption).
    destruct (eps g _ l); [|injection E as <-; exact S2]. apply obind_inv in E. destruct E as (s3 & E3 & E). injection E as <-. apply ONE; [intros; congruence|intros; congruence|intros; split; congruence|]. eapply V; eassumption.
  - apply obind_inv in E. destruct E as (s1 & E1 & E). injection E as <-. pose proof (evolve_sym n i s KN) as SY.
    apply straight_merge; [apply ONE; [intros; congruence|intros; congruence|intros; split; congruence|]; eapply V; eassumption|congruence|intros; congruence|intros; split; congruence].
  - apply obind_inv in E. destruct E as (s1 & E1 & E). apply obind_inv in E. destruct E as (s2 & E2 & E). injection E as <-.
    apply ONE; [intros; congruence|intros; congruence|intros; split; congruence|]. apply ONE; [intros; congruence|intros; congruence|intros; split; congruence|]. eapply V; [exact E2|]. eapply V; eassumption.
Qed.
Lemma compute_straight rounds fuel f : compute_first g rounds fuel = Some f -> straight f.
Proof.
  assert (I0 : straight (first_init g)).
  { destruct (wf_parts g WF) as (_ & (_ & KZ) & _ & KT & _).
    assert (IK : forall n x, first_init g n x = true -> kind n = NZero \/ kind n = NTerm).
    { intros n x H. unfold first_init in H. apply andb_true_iff in H. destruct H as [_ H]. apply orb_true_iff in H. destruct H as [H|H]; [apply Nat.eqb_eq in H; subst n; auto|]. apply mem_in in H. destruct (KT n H). auto. }
    split; [|split].
    - intros n l r x K H. destruct (IK n x H); congruence.
    - intros n x K H. unfold first_init in H. apply andb_true_iff in H. destruct H as [H _]. apply Nat.eqb_eq in H. auto.
    - intros n i c a x. split; intros K H; destruct (IK n x H); congruence. }
  unfold compute_first. revert I0. generalize (first_init g). induction rounds as [|k IH]; intros f0 S0 E; [discriminate|]. cbn [first_loop] in E. apply obind_inv in E. destruct E as (st & E1 & E).
  assert (S1 : straight (fst st)).
  { change f0 with (fst (f0, false)) in S0. revert E1 S0. generalize (f0, false). induction (grules g) as [|e l IHl]; intros st0 E1 S0; cbn [each_rule] in E1; [injection E1 as <-; exact S0|].
    apply obind_inv in E1. destruct E1 as (s1 & E1 & E2). eapply IHl; [exact E2|]. eapply first_straight; eassumption. }
  destruct (snd st); [eapply IH; eassumption|injection E as <-; exact S1].
Qed.
Section L.
Hypothesis NOOP : forall n b ops x, kind n <> NOper b ops x.
Variable D : deps.
Definition owns (p i c a : id) : Prop := met g p /\ (kind p = NStar i c a /\ In (false, (a, p)) D \/ kind p = NPlus i c a /\ In (false, (c, p)) D).
Definition owned (n : id) : Prop := inside g n = true \/ exists p i c a, owns p i c a /\ (n = c \/ n = a).
Lemma owns_shape p i c a : owns p i c a -> inside g p = true /\ inside g i = true /\ kind c = NCons i a /\ kind a = NAlt (gzero g) c.
Proof.
  intros (_ & H). destruct (star_shape g WF p i c a) as (I & B & KC & KA); [tauto|]. split; [exact I|]. split; [eapply below_inside; eassumption|]. auto.
Qed.
Lemma loop_key n : (exists l r, kind n = NCons l r \/ kind n = NAlt l r) -> key g n = n.
Proof. intros (l & r & [K|K]); unfold key; rewrite K; reflexivity. Qed.
Lemma kid_owned n m : met g n -> owned n -> incl (noted n) D -> In m (kids g n) -> owned m.
Proof.
  intros M O I K. destruct O as [O|(p & i & c & a & W & N)].
  - assert (KN : kind n <> NOther) by (intro E; unfold kids in K; rewrite E in K; exact K). pose proof (shaped g WF n KN) as SH. unfold shape in SH. rewrite O in SH.
    assert (IN : forall m, below g m n = true -> owned m) by (intros m' B; left; eapply below_inside; eassumption).
    unfold kids in K. unfold noted in I. destruct (kind n) as [| | |s|s|i c a|i c a|[i|]|l r|l r|i s|tt [c|]|i|i|bb ops x|] eqn:E; try (destruct K; fail); try (exfalso; eapply NOOP; exact E).
    1: destruct (star_shape g WF n i c a) as (_ & _ & KC & KA); [rewrite E; auto|]; destruct K as [<- | []]; right; exists n, i, c, a; split; [|auto]; split; [exact M|]; right; split; [exact E|]; apply I; unfold from_follow; rewrite loop_key; [left; reflexivity|eauto].
    1: destruct (star_shape g WF n i c a) as (_ & _ & KC & KA); [rewrite E; auto|]; destruct K as [<- | []]; right; exists n, i, c, a; split; [|auto]; split; [exact M|]; left; split; [exact E|]; apply I; unfold from_follow; rewrite loop_key; [left; reflexivity|eauto].
    all: repeat rewrite andb_true_iff in SH; try (destruct K as [<- | [<- | []]]; apply IN; tauto); destruct K as [<- | []]; apply IN; tauto.
  - destruct (owns_shape p i c a W) as (_ & II & KC & KA). unfold kids in K. destruct N as [-> | ->]; [rewrite KC in K|rewrite KA in K]; destruct K as [<- | [<- | []]].
    + left. exact II.
    + right. exists p, i, c, a. auto.
    + left. destruct (wf_parts g WF) as (_ & (IZ & _) & _). exact IZ.
    + right. exists p, i, c, a. auto.
Qed.
Lemma key_inside l : inside g l = true -> inside g (key g l) = true.
Proof.
  intros I. unfold key. destruct (kind l) as [| | |s| | | | | | | | | | | | ] eqn:K; try exact I. assert (SH : shape g l = true) by (apply (shaped g WF); rewrite K; discriminate).
  unfold shape in SH. rewrite I, K in SH. unfold is_sym in SH. apply andb_true_iff in SH. apply SH.
Qed.
Definition resolved (m : id) : Prop := inside g m = true \/ exists p i c, owns p i c m /\ In (false, (m, c)) D.
Lemma noted_first n : owned n -> incl (noted n) D -> forall k m, In (true, (k, m)) (noted n) -> inside g k = true /\ resolved m.
Proof.
  intros O I k m H. assert (C : exists l r, kind n = NCons l r /\ k = key g l /\ m = r).
  { assert (FF : forall d e, In (true, (k, m)) (from_follow g d e) -> False) by (intros d e [Q|[]]; discriminate).
    unfold noted in H. destruct (kind n) as [| | |s|s|i c a|i c a|[i|]|l r|l r|i s|tt [c|]|i|i|bb ops x|]; try (destruct H; fail); try (exfalso; eapply FF; exact H; fail);
      try (exfalso; apply in_app_or in H; destruct H as [H|H]; [first [eapply FF; exact H|destruct (search_rule g s); [eapply FF; exact H|destruct H]]|eapply FF; exact H]; fail).
    apply in_app_or in H. destruct H as [H|H]; [exfalso; eapply FF; exact H|]. apply in_app_or in H. destruct H as [H|H]; [|exfalso; destruct (eps g t r); [eapply FF; exact H|destruct H]].
    destruct H as [Q|[]]. injection Q as <- <-. eauto. }
  destruct C as (l & r & KN & -> & ->). destruct O as [O|(p & i & c & a & W & N)].
  - pose proof (shaped g WF n ltac:(rewrite KN; discriminate)) as SH. unfold shape in SH. rewrite O, KN in SH. apply andb_true_iff in SH. destruct SH as [B1 B2].
    split; [apply key_inside|left]; eapply below_inside; eassumption.
  - destruct (owns_shape p i c a W) as (_ & II & KC & KA). destruct N as [-> | ->]; [|congruence]. rewrite KC in KN. injection KN as <- <-. split; [apply key_inside; exact II|].
    right. exists p, i, c. split; [exact W|]. apply I. unfold noted. rewrite KC. apply in_or_app. left. unfold from_follow. rewrite loop_key by eauto. left. reflexivity.
Qed.
Lemma dep_owned : forall f P n d, dep_node g f t P n = Some d -> met g n -> owned n -> incl d D -> forall k m, In (true, (k, m)) d -> inside g k = true /\ resolved m.
Proof.
  induction f as [f IH] using (well_founded_induction Nat.lt_wf_0). intros P n d E M O I k m H. destruct (dep_split f P n d E) as (S1 & S2). assert (IN : incl (noted n) D) by (eapply incl_tran; eassumption).
  destruct (S2 _ H) as [H'|(m' & f' & P' & d' & L & K & E' & H' & I')]; [exact (noted_first n O IN k m H')|].
  eapply (IH f' L); [exact E'|eapply met_kid; eassumption|eapply kid_owned; eassumption|eapply incl_tran; eassumption|exact H'].
Qed.
Lemma rules_owned f : forall l d, incl l (grules g) -> dep_rules g f t l = Some d -> incl d D -> forall k m, In (true, (k, m)) d -> inside g k = true /\ resolved m.
Proof.
  induction l as [|e0 l IH]; intros d I E J k m H; cbn [dep_rules] in E; [injection E as <-; destruct H|].
  apply obind_inv in E. destruct E as (d1 & E1 & E). apply obind_inv in E. destruct E as (d2 & E2 & Q). injection Q as <-. apply in_app_or in H. destruct H as [H|H].
  - eapply dep_owned; [exact E1|apply met_rule, I; left; reflexivity|left; apply (rule_kind g WF), I; left; reflexivity|intros y Y; apply J, in_or_app; left; exact Y|exact H].
  - eapply IH; [|exact E2| |exact H]; [intros y Y; apply I; right; exact Y|intros y Y; apply J, in_or_app; right; exact Y].
Qed.
Hypothesis QUIET : forall e, In e (grules g) -> exists f, quiet g t f false [e] e.
Hypothesis STRAIGHT : straight t.
Lemma inside_not n : inside g n = true -> internal g n = false.
Proof. intros I. apply inside_lt in I. unfold internal. apply andb_false_iff. left. apply Nat.leb_gt. exact I. Qed.
Lemma resolves m x : resolved m -> kind x = NTerm -> t m x = true -> exists y, thru (internal g) D m y /\ internal g y = false /\ t y x = true.
Proof.
  intros R K H. destruct R as [R|(p & i & c & W & E)]; [exists m; split; [apply th_self|]; split; [apply inside_not; exact R|exact H]|].
  destruct (owns_shape p i c m W) as (IP & _ & KC & KA).
  destruct (internal g m) eqn:IM; [|exists m; split; [apply th_self|auto]].
  destruct W as (MP & W). destruct (met_local g t QUIET p MP) as (b & LO). unfold local in LO.
  destruct W as [(KP & EP)|(KP & EP)]; rewrite KP in LO.
  - exists p. split; [eapply th_step; [apply th_self|exact IM|exact EP]|]. split; [apply inside_not; exact IP|]. eapply sub_tok; eassumption.
  - assert (HC : t c x = true).
    { destruct STRAIGHT as (A & Z & _). destruct (A m _ _ x KA H) as [Q|Q]; [|exact Q]. apply Z in Q; [|apply (zero_kind g WF)]. subst x. rewrite (zero_kind g WF) in K. discriminate. }
    assert (TC : thru (internal g) D m c) by (eapply th_step; [apply th_self|exact IM|exact E]).
    destruct (internal g c) eqn:IC; [|exists c; auto].
    exists p. split; [eapply th_step; [exact TC|exact IC|exact EP]|]. split; [apply inside_not; exact IP|]. eapply sub_tok; eassumption.
Qed.

(** ** What is named for a loop begins with nothing else *)
Lemma kids_noted n k m : In (false, (k, m)) (noted n) -> (exists l, In l (kids g n) /\ k = key g l /\ m = n) \/ kind k = NSym \/ exists i s, kind k = NEvolve i s.
Proof.
  intros I. unfold noted in I. unfold kids.
  assert (ONE : forall l (q : list id), In (false, (k, m)) (from_follow g l n) -> In l q -> (exists l, In l q /\ k = key g l /\ m = n)).
  { intros l q [Q|[]] H. injection Q as <- <-. exists l. auto. }
  assert (SYM : forall s, kind n = NNon s \/ kind n = NInl s -> In (false, (k, m)) (match search_rule g s with Some e => from_follow g e n | None => [] end ++ from_follow g s n) -> kind k = NSym \/ exists i s, kind k = NEvolve i s).
  { intros s KS J. apply in_app_or in J. destruct J as [J|J].
    - destruct (search_rule g s) as [e|] eqn:SR; [|destruct J]. unfold search_rule in SR. apply find_some in SR. destruct SR as [Ie RO]. unfold rule_of in RO.
      destruct (kind e) as [| | | | | | | | | |i s'| | | | | ] eqn:KE; try discriminate. destruct J as [Q|[]]. unfold key in Q. rewrite KE in Q. injection Q as <- <-. right. eauto.
    - destruct J as [Q|[]]. unfold key in Q. rewrite (non_sym n s KS) in Q. injection Q as <- <-. left. exact (non_sym n s KS). }
  destruct (kind n) as [| | |s|s|i c a|i c a|[i|]|l r|l r|i s|tt [c|]|i|i|bb ops x|] eqn:KN; try (destruct I; fail);
    try (right; eapply SYM; [eauto|exact I]); try (left; eapply ONE; [exact I|left; reflexivity]);
    try (left; apply in_app_or in I; destruct I as [I|I]; [eapply ONE; [exact I|left; reflexivity]|eapply ONE; [exact I|right; left; reflexivity]]).
  - apply in_app_or in I. destruct I as [I|I]; [left; eapply ONE; [exact I|right; left; reflexivity]|]. apply in_app_or in I. destruct I as [I|I]; [destruct I as [Q|[]]; discriminate|].
    destruct (eps g t r); [|destruct I]. left. eapply ONE; [exact I|left; reflexivity].
  - apply in_app_or in I. destruct I as [I|I]; [|left; eapply ONE; [exact I|left; reflexivity]]. right. right. destruct I as [Q|[]]. unfold key in Q. rewrite KN in Q. injection Q as <- <-. eauto.
Qed.
Lemma key_loop l z : In z [l] \/ True -> key g l = z -> (exists p q, kind z = NCons p q \/ kind z = NAlt p q) -> l = z.
Proof.
  intros _ E (p & q & K). unfold key in E. destruct (kind l) as [| | |s| | | | | | | | | | | | ] eqn:KL; try exact E. subst z. rewrite (non_sym l s (or_introl KL)) in K. destruct K; discriminate.
Qed.
(** All met nodes are the parser's or belong to loops. *)
Definition looped (n : id) : Prop := inside g n = true \/ exists p i c a, met g p /\ (kind p = NStar i c a \/ kind p = NPlus i c a) /\ (n = c \/ n = a).
Lemma loop_shape p i c a : kind p = NStar i c a \/ kind p = NPlus i c a -> inside g i = true /\ kind c = NCons i a /\ kind a = NAlt (gzero g) c.
Proof. intros H. destruct (star_shape g WF p i c a H) as (I & B & KC & KA). split; [eapply below_inside; eassumption|auto]. Qed.
Lemma met_looped n : met g n -> looped n.
Proof.
  induction 1 as [e He|n m M O K]; [left; apply (rule_kind g WF e He)|]. destruct O as [O|(p & i & c & a & MP & KP & N)].
  - assert (KN : kind n <> NOther) by (intro E; unfold kids in K; rewrite E in K; exact K). pose proof (shaped g WF n KN) as SH. unfold shape in SH. rewrite O in SH.
    assert (IN : forall m, below g m n = true -> looped m) by (intros m' B; left; eapply below_inside; eassumption).
    unfold kids in K. destruct (kind n) as [| | |s|s|i c a|i c a|[i|]|l r|l r|i s|tt [c|]|i|i|bb ops x|] eqn:E; try (destruct K; fail); try (exfalso; eapply NOOP; exact E).
    1,2: destruct K as [<- | []]; right; exists n, i, c, a; rewrite E; auto.
    all: repeat rewrite andb_true_iff in SH; try (destruct K as [<- | [<- | []]]; apply IN; tauto); destruct K as [<- | []]; apply IN; tauto.
  - destruct (loop_shape p i c a KP) as (II & KC & KA). unfold kids in K. destruct N as [-> | ->]; [rewrite KC in K|rewrite KA in K]; destruct K as [<- | [<- | []]].
    + left. exact II.
    + right. exists p, i, c, a. auto.
    + left. destruct (wf_parts g WF) as (_ & (IZ & _) & _). exact IZ.
    + right. exists p, i, c, a. auto.
Qed.
Definition group (i c a z : id) : Prop := z = a \/ z = c \/ kind z = NStar i c a \/ kind z = NPlus i c a.
Lemma group_step i c a z w : kind c = NCons i a -> kind a = NAlt (gzero g) c -> internal g z = true -> z = a \/ z = c -> (exists n, met g n /\ In (false, (z, w)) (noted n)) -> group i c a w.
Proof.
  intros KC KA IZ Z (n & M & I).
  assert (KZ : exists p q, kind z = NCons p q \/ kind z = NAlt p q) by (destruct Z as [-> | ->]; eauto).
  destruct (kids_noted n z w I) as [(l & K & E & ->)|[K|(i' & s' & K)]]; [|destruct KZ as (p & q & [K'|K']); congruence..].
  apply eq_sym in E. apply key_loop in E; [|auto|exact KZ]. subst l.
  assert (OUT : inside g z = true -> False) by (intros Q; apply inside_not in Q; congruence).
  destruct (met_looped n M) as [O|(p & i' & c' & a' & _ & KP & N)].
  - assert (KN : kind n <> NOther) by (intro E; unfold kids in K; rewrite E in K; exact K). pose proof (shaped g WF n KN) as SH. unfold shape in SH. rewrite O in SH.
    assert (IN : below g z n = true -> False) by (intros B; apply OUT; eapply below_inside; eassumption).
    unfold kids in K. destruct (kind n) as [| | |s|s|i' c' a'|i' c' a'|[i'|]|l r|l r|i' s|tt [c'|]|i'|i'|bb ops x|] eqn:E; try (destruct K; fail); try (exfalso; eapply NOOP; exact E).
    1: destruct (loop_shape n i' c' a' (or_intror E)) as (_ & KC' & KA'); destruct K as [K|[]]; rewrite <- K in Z; destruct Z as [Z|Z]; [congruence|]; right; right; right; rewrite <- Z, KC' in KC; injection KC as -> ->; rewrite <- Z; exact E.
    1: destruct (loop_shape n i' c' a' (or_introl E)) as (_ & KC' & KA'); destruct K as [K|[]]; rewrite <- K in Z; destruct Z as [Z|Z]; [|congruence]; right; right; left; rewrite <- Z, KA' in KA; injection KA as ->; rewrite KC' in KC; injection KC as -> ; rewrite <- Z; exact E.
    all: exfalso; apply IN; repeat rewrite andb_true_iff in SH; try (destruct K as [<- | [<- | []]]; tauto); destruct K as [<- | []]; tauto.
  - destruct (loop_shape p i' c' a' KP) as (II & KC' & KA'). unfold kids in K. destruct N as [-> | ->]; [rewrite KC' in K|rewrite KA' in K]; destruct K as [K|[K|[]]].
    + exfalso. apply OUT. subst z. exact II.
    + subst a'. destruct Z as [-> | ->]; [|congruence]. rewrite KA in KA'. injection KA' as <-. right. left. reflexivity.
    + exfalso. apply OUT. subst z. destruct (wf_parts g WF) as (_ & (Z0 & _) & _). exact Z0.
    + subst c'. destruct Z as [-> | ->]; [congruence|]. rewrite KC in KC'. injection KC' as <- <-. left. reflexivity.
Qed.
Lemma group_thru i c a m : kind c = NCons i a -> kind a = NAlt (gzero g) c -> (forall k w, In (false, (k, w)) D -> exists n, met g n /\ In (false, (k, w)) (noted n)) ->
  thru (internal g) D a m -> group i c a m.
Proof.
  intros KC KA FR T. induction T as [|y z T IH Y H]; [left; reflexivity|]. destruct IH as [IH|[IH|IH]].
  - apply (group_step i c a y z KC KA Y); [auto|apply FR; exact H].
  - apply (group_step i c a y z KC KA Y); [auto|apply FR; exact H].
  - exfalso. destruct (star_shape g WF y i c a IH) as (I & _). apply inside_not in I. congruence.
Qed.
Lemma same_begins k m y : resolved k -> (forall k w, In (false, (k, w)) D -> exists n, met g n /\ In (false, (k, w)) (noted n)) ->
  thru (internal g) D k m -> kind y = NTerm -> t m y = true -> t k y = true.
Proof.
  intros R FR T K H. destruct R as [R|(p & i & c & W & E)].
  - destruct T as [|u v T U _]; [exact H|]. assert (forall u, thru (internal g) D k u -> internal g u = true -> False).
    { apply inside_not in R. clear -R. intros u T. induction T as [|u v T IH U _]; [congruence|]. intros _. exact (IH U). }
    exfalso. eauto.
  - destruct (owns_shape p i c k W) as (_ & _ & KC & KA). destruct W as (MP & W).
    assert (MC : met g c /\ met g k).
    { destruct W as [(KP & _)|(KP & _)].
      - assert (MK : met g k) by (eapply met_kid; [exact MP|unfold kids; rewrite KP; left; reflexivity]). split; [|exact MK]. eapply met_kid; [exact MK|unfold kids; rewrite KA; right; left; reflexivity].
      - assert (MC : met g c) by (eapply met_kid; [exact MP|unfold kids; rewrite KP; left; reflexivity]). split; [exact MC|]. eapply met_kid; [exact MC|unfold kids; rewrite KC; right; left; reflexivity]. }
    destruct MC as (MC & MK). destruct (met_local g t QUIET k MK) as (b & LO). unfold local in LO. rewrite KA in LO. destruct LO as (_ & LO).
    destruct STRAIGHT as (_ & _ & ST).
    destruct (group_thru i c k m KC KA FR T) as [->|[->|[KM|KM]]]; [exact H|eapply sub_tok; eassumption|exact (proj1 (ST m i c k y) KM H)|].
    eapply sub_tok; [exact LO|exact K|]. exact (proj2 (ST m i c k y) KM H).
Qed.
End L.
End G.
