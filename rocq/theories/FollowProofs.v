(** FOLLOW holds everything that can come next. *)
From Coq Require Import List Bool PeanoNat Lia.
From Verif Require Import Base GrammarModel GrammarSpec GrammarProofs FirstProofs.
Import ListNotations.

Scheme occurs_mut := Minimality for occurs Sort Prop
with occurs_op_mut := Minimality for occurs_op Sort Prop.

Section G.
Variable g : grammar.
Notation kind := (kind g).
Notation derives := (derives g).
Notation met := (met g).
Hypothesis WF : well_formed g = true.
Variables t o : table.
Let shaped := shaped g WF.

Definition plain (n : id) : Prop := is_zero g n || is_term g n = false.
Definition fcopy (d n : id) : Prop := forall x, kind x = NTerm -> o n x = true -> plain d -> o d x = true.
Definition fquiet (f : nat) (P : list id) (n : id) : Prop := follow_node g f t P n (o, false) = Some (o, false).
Definition fseen (f : nat) (P : list id) (m : id) : Prop := mem m P = true \/ fquiet f (m :: P) m.

Lemma calm_omerge st d s : calm st (omerge g st d s).
Proof. unfold omerge. destruct (is_zero g d || is_term g d); [apply calm_refl|apply calm_add]. Qed.
Lemma calm_omerge_opt st d n : calm st (omerge_opt g st d n).
Proof. destruct d; [apply calm_omerge|apply calm_refl]. Qed.
Lemma calm_down st d n : calm st (down g st d n).
Proof. apply calm_omerge. Qed.
Lemma omerge_copy d (s : id -> bool) : omerge g (o, false) d s = (o, false) ->
  forall x, kind x = NTerm -> s x = true -> plain d -> o d x = true.
Proof.
  unfold omerge, plain. intros E x K H N. rewrite N in E.
  apply (add_to_sub g o d _ E x); [apply kind_lt; rewrite K; discriminate|]. unfold is_term. rewrite H, K. reflexivity.
Qed.
Lemma down_copy d n : down g (o, false) d n = (o, false) -> fcopy d n.
Proof. intros E x K H N. exact (omerge_copy d _ E x K H N). Qed.

Lemma follow_node_calm : forall f P n st st', follow_node g f t P n st = Some st' -> calm st st'.
Proof.
  induction f as [|f IH]; intros P n st st' E; [discriminate|]. cbn [follow_node] in E.
  assert (V : forall m st st', (if mem m P then Some st else follow_node g f t (m :: P) m st) = Some st' -> calm st st').
  { intros m s s' H. destruct (mem m P); [injection H as <-; apply calm_refl|]. eapply IH; eassumption. }
  destruct (kind n) as [| | |s|s|i c a|i c a|[i|]|l r|l r|i s|tt [c|]|i|i|bb ops x|];
    try (injection E as <-; apply calm_refl);
    try (injection E as <-; eapply calm_trans; [apply calm_omerge_opt|apply calm_down]);
    try (eapply calm_trans; [apply calm_down|first [eapply IH; exact E|eapply V; exact E]]).
  - apply obind_inv in E; destruct E as (s1 & E1 & E). eapply calm_trans; [apply calm_down|]. eapply calm_trans; [apply calm_down|].
    eapply calm_trans; [eapply V; exact E1|eapply V; exact E].
  - apply obind_inv in E; destruct E as (s1 & E1 & E). eapply calm_trans; [apply calm_down|]. eapply calm_trans; [apply calm_omerge|].
    eapply calm_trans; [|eapply V; exact E]. destruct (eps g t r).
    + eapply calm_trans; [apply calm_down|eapply V; exact E1].
    + eapply V; exact E1.
  - eapply calm_trans; [apply calm_down|]. eapply calm_trans; [apply calm_down|]. eapply V; exact E.
  - apply obind_inv in E; destruct E as (s1 & E1 & E). eapply calm_trans; [apply calm_down|]. eapply calm_trans; [apply calm_down|].
    eapply calm_trans; [eapply V; exact E1|eapply V; exact E].
Qed.

Definition flocal (n : id) : Prop :=
  match kind n with
  | NZero | NTerm | NSym | NOther | NAct None => True
  | NNon s | NInl s => fcopy s n
  | NPlus _ c _ => fcopy c n
  | NStar _ _ a => fcopy a n
  | NOper _ _ x => fcopy x n
  | NAct (Some i) | NAnn i | NCond i | NTry i None => fcopy i n
  | NAlt l r | NTry l (Some r) => fcopy l n /\ fcopy r n
  | NCons l r => fcopy r n /\ (forall x, kind x = NTerm -> t r x = true -> plain l -> o l x = true) /\ (eps g t r = true -> fcopy l n)
  | NEvolve i s => fcopy n s /\ fcopy i n
  end.
Definition fonward (f : nat) (P : list id) (n : id) : Prop :=
  match kind n with
  | NPlus _ c _ => fquiet f P c
  | NStar _ _ a => fquiet f P a
  | NOper _ _ x => fquiet f P x
  | NAct (Some i) | NTry i None => fquiet f P i
  | NAnn i | NCond i => fseen f P i
  | NAlt l r | NTry l (Some r) | NCons l r => fseen f P l /\ fseen f P r
  | NEvolve i s => fseen f P i
  | _ => True
  end.
Lemma fquiet_inv f P n : fquiet f P n -> exists f', flocal n /\ fonward f' P n.
Proof.
  unfold fquiet. destruct f as [|f]; [discriminate|]. intros E. exists f. cbn [follow_node] in E.
  assert (VC : forall m st st', (if mem m P then Some st else follow_node g f t (m :: P) m st) = Some st' -> calm st st').
  { intros m s s' H. destruct (mem m P); [injection H as <-; apply calm_refl|]. eapply follow_node_calm; exact H. }
  assert (VS : forall m, (if mem m P then Some (o, false) else follow_node g f t (m :: P) m (o, false)) = Some (o, false) -> fseen f P m).
  { intros m H. unfold fseen, fquiet. destruct (mem m P); [left; reflexivity|right; exact H]. }
  assert (NC : forall m st st', follow_node g f t P m st = Some st' -> calm st st').
  { intros m s s' H. eapply follow_node_calm; exact H. }
  (* one copy downwards, then the rest *)
  assert (D1 : forall d n (k : table * bool -> option (table * bool)),
    k (down g (o, false) d n) = Some (o, false) -> (forall st st', k st = Some st' -> calm st st') ->
    fcopy d n /\ k (o, false) = Some (o, false)).
  { intros d n' k H C. pose proof (C _ _ H eq_refl) as Q. rewrite <- Q in H. split; [apply down_copy; symmetry; exact Q|exact H]. }
  assert (PAIR : forall l r, (forall st st', obind (if mem l P then Some st else follow_node g f t (l :: P) l st)
      (fun st => if mem r P then Some st else follow_node g f t (r :: P) r st) = Some st' -> calm st st') /\
    (obind (if mem l P then Some (o, false) else follow_node g f t (l :: P) l (o, false))
      (fun st => if mem r P then Some st else follow_node g f t (r :: P) r st) = Some (o, false) -> fseen f P l /\ fseen f P r)).
  { intros l r. split.
    - intros st st' H. apply obind_inv in H. destruct H as (s1 & H1 & H2). eapply calm_trans; [eapply VC; exact H1|eapply VC; exact H2].
    - intros H. apply obind_inv in H. destruct H as (s1 & H1 & H2). pose proof (VC _ _ _ H2 eq_refl) as Q. subst s1.
      split; apply VS; assumption. }
  unfold flocal, fonward.
  destruct (kind n) as [| | |s|s|i c a|i c a|[i|]|l r|l r|i s|tt [c|]|i|i|bb ops x|]; try (split; exact I);
    try (split; [|exact I]; injection E as E;
      pose proof (calm_down (omerge_opt g (o, false) (search_rule g s) n) s n) as C; rewrite E in C; specialize (C eq_refl); rewrite <- C in E;
      apply down_copy; exact E);
    try (apply D1 in E; [exact E|first [apply NC|apply VC]]);
    try (first [apply (D1 i n (fun st => if mem i P then Some st else follow_node g f t (i :: P) i st)) in E]; [|apply VC];
         destruct E as [E1 E2]; split; [exact E1|apply VS; exact E2]).
  - destruct (PAIR l r) as [PC PS].
    assert (Q : down g (down g (o, false) l n) r n = (o, false)) by (symmetry; exact (PC _ _ E eq_refl)).
    rewrite Q in E. pose proof (calm_down (down g (o, false) l n) r n) as C. rewrite Q in C. specialize (C eq_refl).
    rewrite <- C in Q. split; [split; apply down_copy; [symmetry; exact C|exact Q]|apply PS; exact E].
  - destruct (PAIR l r) as [PC PS]. set (st1 := omerge g (down g (o, false) r n) l (t r)) in *.
    assert (Q : (if eps g t r then down g st1 l n else st1) = (o, false)) by (symmetry; exact (PC _ _ E eq_refl)).
    rewrite Q in E.
    assert (Q1 : st1 = (o, false)).
    { destruct (eps g t r); [|exact Q]. pose proof (calm_down st1 l n) as C. rewrite Q in C. symmetry. exact (C eq_refl). }
    assert (Q2 : down g (o, false) r n = (o, false)).
    { pose proof (calm_omerge (down g (o, false) r n) l (t r)) as C. fold st1 in C. rewrite Q1 in C. symmetry. exact (C eq_refl). }
    split; [|apply PS; exact E]. split; [apply down_copy; exact Q2|]. split.
    + apply omerge_copy. unfold st1 in Q1. rewrite Q2 in Q1. exact Q1.
    + intros EP. rewrite EP, Q1 in Q. apply down_copy. exact Q.
  - assert (Q : down g (down g (o, false) n s) i n = (o, false)) by (symmetry; exact (VC _ _ _ E eq_refl)).
    rewrite Q in E. pose proof (calm_down (down g (o, false) n s) i n) as C. rewrite Q in C. specialize (C eq_refl).
    rewrite <- C in Q. split; [split; apply down_copy; [symmetry; exact C|exact Q]|apply VS; exact E].
  - destruct (PAIR tt c) as [PC PS].
    assert (Q : down g (down g (o, false) tt n) c n = (o, false)) by (symmetry; exact (PC _ _ E eq_refl)).
    rewrite Q in E. pose proof (calm_down (down g (o, false) tt n) c n) as C. rewrite Q in C. specialize (C eq_refl).
    rewrite <- C in Q. split; [split; apply down_copy; [symmetry; exact C|exact Q]|apply PS; exact E].
Qed.

Hypothesis FQUIET : forall e, In e (grules g) -> exists f, fquiet f [e] e.
Lemma fonward_kid f P n m : fonward f P n -> In m (kids g n) -> ~ In m P -> exists P', fquiet f P' m /\ (P' = P \/ P' = m :: P).
Proof.
  intros O K N. unfold fonward, kids in *.
  assert (SEEN : forall m, ~ In m P -> fseen f P m -> exists P', fquiet f P' m /\ (P' = P \/ P' = m :: P)).
  { intros m' N' [M|Q]; [apply mem_in in M; contradiction|]. eauto. }
  destruct (kind n) as [| | |s|s|i c a|i c a|[i|]|l r|l r|i s|tt [c|]|i|i|bb ops x|]; try (destruct K; fail);
    try (destruct K as [<- | []]; first [exists P; split; [exact O|left; reflexivity]|eapply SEEN; [exact N|exact O]]);
    (destruct O as [O1 O2]; destruct K as [<- | [<- | []]]; eapply SEEN; eassumption).
Qed.
Lemma fwalk_quiet l : forall f P n m, fquiet f P n -> walk g n l m -> NoDup l -> (forall x, In x l -> ~ In x P) ->
  exists f' P', fquiet f' P' m.
Proof.
  induction l as [|k l IH]; intros f P n m Q W ND D; cbn in W; [subst; eauto|].
  destruct W as [K W]. destruct (fquiet_inv f P n Q) as (f' & _ & O).
  destruct (fonward_kid f' P n k O K) as (P' & Q' & HP); [apply D; left; reflexivity|].
  apply NoDup_cons_iff in ND. destruct ND as [ND1 ND2].
  apply (IH f' P' k m Q' W ND2). intros x Hx. destruct HP as [-> | ->]; [apply D; right; exact Hx|].
  intros [<- | HP]; [contradiction|]. eapply D; [right; exact Hx|exact HP].
Qed.
Lemma met_flocal n : met n -> flocal n.
Proof.
  intros M. destruct (met_walk g n M) as (e & l & He & W). destruct (walk_nodup g l e n W) as (l' & W' & ND).
  apply NoDup_cons_iff in ND. destruct ND as [ND1 ND2].
  destruct (FQUIET e He) as (f & Q). destruct (fwalk_quiet l' f [e] e n Q W' ND2) as (f' & P' & Q').
  { intros x Hx [-> | []]. contradiction. }
  destruct (fquiet_inv f' P' n Q') as (f2 & L & _). exact L.
Qed.

(** What the added nodes describe. *)
Lemma star_inner n i c a w : kind n = NStar i c a -> derives n w -> derives a w.
Proof.
  intros K D. destruct (star_shape g WF n i c a (or_introl K)) as (_ & _ & KC & KA).
  remember n as n0. induction D; subst; try congruence.
  - eapply d_altl; [exact KA|]. apply d_zero. apply zero_kind. exact WF.
  - eapply d_altr; [exact KA|]. eapply d_cons; [exact KC| |apply IHD2; auto].
    replace i with i0 by congruence. assumption.
Qed.
Lemma plus_inner n i c a w : kind n = NPlus i c a -> derives n w -> derives c w.
Proof.
  intros K D. destruct (star_shape g WF n i c a (or_intror K)) as (_ & _ & KC & KA).
  remember n as n0. induction D; subst; try congruence.
  - replace w with (w ++ []) by apply app_nil_r. eapply d_cons; [exact KC|replace i with i0 by congruence; assumption|].
    eapply d_altl; [exact KA|]. apply d_zero. apply zero_kind. exact WF.
  - eapply d_cons; [exact KC|replace i with i0 by congruence; assumption|].
    eapply d_altr; [exact KA|]. apply IHD2; auto.
Qed.
Lemma chain_derives top b ops : forall n, chain g top n b ops = true ->
  (forall w, derives b w -> derives n w) /\
  (forall op, In op ops -> exists l, spells g top l op = true /\ forall w, derives l w -> derives n w).
Proof.
  induction ops as [|op ops IH]; intros n C; cbn [chain] in C.
  - apply Nat.eqb_eq in C. subst n. split; [auto|intros x []].
  - apply andb_true_iff in C. destruct C as [_ C].
    destruct (kind n) as [| | |s|s|i c a|i c a|ii|l r|l r|i s|tt c|i|i|bb oo xx|] eqn:K; try discriminate.
    repeat rewrite andb_true_iff in C. destruct C as [[_ SP] C]. destruct (IH r C) as (Hb & Ho). split.
    + intros w D. eapply d_altr; [exact K|]. auto.
    + intros o' [<- | I].
      * exists l. split; [exact SP|]. intros w D. eapply d_altl; [exact K|exact D].
      * destruct (Ho o' I) as (l' & SP' & H'). exists l'. split; [exact SP'|]. intros w D. eapply d_altr; [exact K|]. auto.
Qed.
Lemma bin_spelled top l tk : spells g top l (OBin tk) = true -> exists r, kind l = NCons top r /\ kind r = NCons tk top /\ is_tok g tk = true.
Proof.
  unfold spells. rewrite andb_true_iff. intros [T H]. destruct (kind l) as [| | |s|s|i c a|i c a|ii|l' r|l' r|i s|tt c|i|i|bb oo xx|]; try discriminate.
  repeat rewrite andb_true_iff in H. destruct H as [[H1 _] H2]. apply Nat.eqb_eq in H1. subst l'. apply is_cons_kind in H2. eauto.
Qed.
Lemma tern_spelled top l s u : spells g top l (OTern s u) = true -> exists r1 r2 r3,
  kind l = NCons top r1 /\ kind r1 = NCons s r2 /\ kind r2 = NCons top r3 /\ kind r3 = NCons u top /\ is_tok g s = true /\ is_tok g u = true.
Proof.
  unfold spells. repeat rewrite andb_true_iff. intros [[T1 T2] H].
  destruct (kind l) as [| | |s1|s1|i c a|i c a|ii|l' r|l' r|i s1|tt c|i|i|bb oo xx|]; try discriminate.
  repeat rewrite andb_true_iff in H. destruct H as [[H1 _] H]. apply Nat.eqb_eq in H1. subst l'.
  destruct (kind r) as [| | |s1|s1|i c a|i c a|ii|l' r'|l' r'|i s1|tt c|i|i|bb oo xx|] eqn:K1; try discriminate.
  repeat rewrite andb_true_iff in H. destruct H as [[H1 _] H]. apply Nat.eqb_eq in H1. subst l'.
  destruct (kind r') as [| | |s1|s1|i c a|i c a|ii|l' r2|l' r2|i s1|tt c|i|i|bb oo xx|] eqn:K2; try discriminate.
  repeat rewrite andb_true_iff in H. destruct H as [[H1 _] H]. apply Nat.eqb_eq in H1. subst l'.
  apply is_cons_kind in H. exists r, r', r2. repeat split; assumption.
Qed.
Lemma paren_spelled top l s u : spells g top l (OParen s u) = true -> exists r, kind l = NCons s r /\ kind r = NCons top u /\ is_tok g s = true /\ is_tok g u = true.
Proof.
  unfold spells. repeat rewrite andb_true_iff. intros [[T1 T2] H].
  destruct (kind l) as [| | |s1|s1|i c a|i c a|ii|l' r|l' r|i s1|tt c|i|i|bb oo xx|]; try discriminate.
  repeat rewrite andb_true_iff in H. destruct H as [[H1 _] H2]. apply Nat.eqb_eq in H1. subst l'. apply is_cons_kind in H2. eauto.
Qed.
Lemma pre_spelled top l s : spells g top l (OPre s) = true -> kind l = NCons s top /\ is_tok g s = true.
Proof. unfold spells. rewrite andb_true_iff. intros [T H]. apply is_cons_kind in H. auto. Qed.
Lemma post_spelled top l s : spells g top l (OPost s) = true -> kind l = NCons top s /\ is_tok g s = true.
Proof. unfold spells. rewrite andb_true_iff. intros [T H]. apply is_cons_kind in H. auto. Qed.
Lemma tok_derives s : is_tok g s = true -> derives s [s].
Proof. intros T. apply d_term. apply (tok_in g WF s T). Qed.

Lemma oper_inner n b ops x w : kind n = NOper b ops x -> derives n w -> derives x w.
Proof.
  intros K D. destruct (oper_shape g WF n b ops x K) as (_ & _ & CH). destruct (chain_derives x b ops x CH) as (Hb & Ho).
  remember n as n0. induction D; subst; try congruence;
    match goal with H : kind n = NOper ?b1 ?o1 ?x1 |- _ => assert (b1 = b /\ o1 = ops /\ x1 = x) as (E1 & E2 & E3) by (rewrite K in H; injection H; auto); subst end.
  - apply Hb. assumption.
  - destruct (Ho _ H0) as (l & SP & HL). apply HL. destruct (pre_spelled _ _ _ SP) as (KL & T).
    change (t0 :: w) with ([t0] ++ w). eapply d_cons; [exact KL|apply tok_derives; exact T|auto].
  - destruct (Ho _ H0) as (l & SP & HL). apply HL. destruct (post_spelled _ _ _ SP) as (KL & T).
    eapply d_cons; [exact KL|auto|apply tok_derives; exact T].
  - destruct (Ho _ H0) as (l & SP & HL). apply HL. destruct (bin_spelled _ _ _ SP) as (r & KL & KR & T).
    eapply d_cons; [exact KL|auto|]. change (t0 :: w) with ([t0] ++ w). eapply d_cons; [exact KR|apply tok_derives; exact T|auto].
  - destruct (Ho _ H0) as (l & SP & HL). apply HL. destruct (tern_spelled _ _ _ _ SP) as (r1 & r2 & r3 & KL & K1 & K2 & K3 & T1 & T2).
    eapply d_cons; [exact KL|auto|]. change (s :: v ++ t0 :: w) with ([s] ++ v ++ t0 :: w). eapply d_cons; [exact K1|apply tok_derives; exact T1|].
    eapply d_cons; [exact K2|auto|]. change (t0 :: w) with ([t0] ++ w). eapply d_cons; [exact K3|apply tok_derives; exact T2|auto].
  - destruct (Ho _ H0) as (l & SP & HL). apply HL. destruct (paren_spelled _ _ _ _ SP) as (r & KL & KR & T1 & T2).
    change (s :: w ++ [t0]) with ([s] ++ w ++ [t0]). eapply d_cons; [exact KL|apply tok_derives; exact T1|].
    eapply d_cons; [exact KR|auto|apply tok_derives; exact T2].
Qed.

(** ** Completeness *)
Hypothesis QUIET : forall e, In e (grules g) -> exists f, quiet g t f false [e] e.
Hypothesis GROWN : forall n x, first_init g n x = true -> t n x = true.
Hypothesis FGROWN : forall n x, follow_init g n x = true -> o n x = true.
Hypothesis COMPANY : code_has_company g.
Hypothesis OPERANDS : operands_not_empty g.
Definition mark (w : list id) : id := match w with x :: _ => x | [] => geof g end.
Definition known (n : id) (w : list id) : Prop := kind (mark w) = NTerm /\ (plain n -> o n (mark w) = true).

Lemma first_met n x w : met n -> derives n (x :: w) -> t n x = true.
Proof. intros M D. apply (first_complete g WF t QUIET GROWN COMPANY (noticed g t OPERANDS) n (x :: w) D x w eq_refl (or_intror M)). Qed.
Lemma eps_null n : met n -> (forall i s, kind n <> NEvolve i s) -> derives n [] -> eps g t n = true.
Proof. intros M K D. apply (eps_of_null g WF t QUIET GROWN COMPANY (noticed g t OPERANDS) n D K). Qed.
Lemma fcopy_known d n w : fcopy d n -> plain n -> known n w -> known d w.
Proof. intros C P [K H]. split; [exact K|]. intros PD. apply C; auto. Qed.
(** After the left part of a sequence. *)
Lemma cons_known n l r u w : met n -> kind n = NCons l r -> derives r u -> known n w -> known l (u ++ w).
Proof.
  intros M K D [KW H]. pose proof (met_flocal n M) as L. unfold flocal in L. rewrite K in L. destruct L as (L1 & L2 & L3).
  assert (Mr : met r) by (apply (met_kid g n); [exact M|unfold kids; rewrite K; right; left; reflexivity]).
  assert (NE : forall i s, kind r <> NEvolve i s).
  { apply (item_not_rule g). apply (kid_item g WF n). unfold kids. rewrite K. right; left; reflexivity. }
  destruct u as [|x u].
  - cbn [app]. split; [exact KW|]. intros PL. apply (L3 (eps_null r Mr NE D)); auto. apply H. unfold plain, is_zero, is_term. rewrite K. reflexivity.
  - cbn [app mark]. assert (KX : kind x = NTerm) by (apply (derives_terms g WF r _ D); left; reflexivity).
    split; [exact KX|]. intros PL. apply L2; auto. exact (first_met r x u Mr D).
Qed.
Lemma cons_known_r n l r w : met n -> kind n = NCons l r -> known n w -> known r w.
Proof.
  intros M K H. pose proof (met_flocal n M) as L. unfold flocal in L. rewrite K in L. destruct L as (L1 & _).
  apply (fcopy_known r n w L1); [|exact H]. unfold plain, is_zero, is_term. rewrite K. reflexivity.
Qed.
Lemma alt_known n l r w : met n -> kind n = NAlt l r \/ kind n = NTry l (Some r) -> known n w -> known l w /\ known r w.
Proof.
  intros M K H. pose proof (met_flocal n M) as L. unfold flocal in L.
  assert (P : plain n) by (unfold plain, is_zero, is_term; destruct K as [K|K]; rewrite K; reflexivity).
  destruct K as [K|K]; rewrite K in L; destruct L as (L1 & L2); split; eapply fcopy_known; eassumption.
Qed.
Lemma chain_known top b ops : forall n w, chain g top n b ops = true -> met n -> known n w ->
  (met b /\ known b w) /\ (forall op, In op ops -> exists l, spells g top l op = true /\ met l /\ known l w).
Proof.
  induction ops as [|op ops IH]; intros n w C M H; cbn [chain] in C.
  - apply Nat.eqb_eq in C. subst n. split; [auto|intros x []].
  - apply andb_true_iff in C. destruct C as [_ C].
    destruct (kind n) as [| | |s|s|i c a|i c a|ii|l r|l r|i s|tt c|i|i|bb oo xx|] eqn:K; try discriminate.
    repeat rewrite andb_true_iff in C. destruct C as [[_ SP] C].
    destruct (alt_known n l r w M (or_introl K) H) as [Hl Hr].
    assert (Ml : met l) by (apply (met_kid g n); [exact M|unfold kids; rewrite K; left; reflexivity]).
    assert (Mr : met r) by (apply (met_kid g n); [exact M|unfold kids; rewrite K; right; left; reflexivity]).
    destruct (IH r w C Mr Hr) as (Hb & Ho). split; [exact Hb|].
    intros o' [<- | I]; [exists l; auto|auto].
Qed.

Lemma follow_complete : forall n w, occurs g n w -> (kind n = NSym \/ met n) /\ known n w.
Proof.
  assert (NODE : forall n m w, (kind n = NSym \/ met n) /\ known n w -> In m (kids g n) -> (fcopy m n) -> (kind m = NSym \/ met m) /\ known m w).
  { intros n m w [M H] I C.
    assert (MN : met n) by (destruct M as [M|M]; [unfold kids in I; rewrite M in I; destruct I|exact M]).
    split; [right; eapply met_kid; eassumption|]. eapply fcopy_known; [exact C| |exact H].
    unfold kids in I. unfold plain, is_zero, is_term. destruct (kind n); try reflexivity; destruct I. }
  assert (MET : forall n, (kind n = NSym \/ met n) -> kind n <> NSym -> met n) by (intros n [A|A] B; [congruence|exact A]).
  apply (occurs_mut g (fun n w => (kind n = NSym \/ met n) /\ known n w)
    (fun n b ops w => forall x, kind n = NOper b ops x -> met n /\ known x w)).
  - (* start *)
    intros e i s He Ke Hs. destruct (wf_parts g WF) as (_ & _ & (_ & KE) & _ & _ & SH).
    assert (SH' : shape g e = true) by (apply shaped; rewrite Ke; discriminate).
    unfold shape in SH'. rewrite Ke in SH'. destruct (inside g e); [|discriminate]. apply andb_true_iff in SH'. destruct SH' as [_ SY].
    unfold is_sym in SY. apply andb_true_iff in SY. destruct SY as [_ SY].
    split; [left; destruct (kind s); congruence|]. split; [exact KE|]. intros _. apply FGROWN. unfold follow_init. cbn [mark]. rewrite Nat.eqb_refl.
    apply existsb_exists. exists e. split; [exact He|]. rewrite Ke. apply mem_in in Hs. rewrite Hs, Nat.eqb_refl. rewrite orb_true_r. reflexivity.
  - (* rule *)
    intros s e i w _ [M H] Ks He Ke. split; [right; apply met_rule; exact He|].
    pose proof (met_flocal e (met_rule g e He)) as L. unfold flocal in L. rewrite Ke in L. destruct L as [L _].
    apply (fcopy_known e s w L); [|exact H]. unfold plain, is_zero, is_term. rewrite Ks. reflexivity.
  - intros e i s w _ H Ke. pose proof (MET e (proj1 H) ltac:(congruence)) as M. pose proof (met_flocal e M) as L. unfold flocal in L. rewrite Ke in L.
    apply (NODE e i w H); [unfold kids; rewrite Ke; left; reflexivity|apply L].
  - intros n s w _ H K. pose proof (MET n (proj1 H) ltac:(congruence)) as M. pose proof (met_flocal n M) as L. unfold flocal in L. rewrite K in L.
    assert (SH : shape g n = true) by (apply shaped; rewrite K; discriminate).
    unfold shape in SH. rewrite K in SH. destruct (inside g n); [|discriminate].
    unfold is_sym in SH. apply andb_true_iff in SH. destruct SH as [_ SY].
    split; [left; destruct (kind s); congruence|]. apply (fcopy_known s n w L); [|apply H]. unfold plain, is_zero, is_term. rewrite K. reflexivity.
  - intros n s w _ H K. pose proof (MET n (proj1 H) ltac:(congruence)) as M. pose proof (met_flocal n M) as L. unfold flocal in L. rewrite K in L.
    assert (SH : shape g n = true) by (apply shaped; rewrite K; discriminate).
    unfold shape in SH. rewrite K in SH. destruct (inside g n); [|discriminate].
    unfold is_sym in SH. apply andb_true_iff in SH. destruct SH as [_ SY].
    split; [left; destruct (kind s); congruence|]. apply (fcopy_known s n w L); [|apply H]. unfold plain, is_zero, is_term. rewrite K. reflexivity.
  - (* plus *)
    intros n i c a w _ H K. pose proof (MET n (proj1 H) ltac:(congruence)) as M. pose proof (met_flocal n M) as L. unfold flocal in L. rewrite K in L.
    destruct (star_shape g WF n i c a (or_intror K)) as (_ & _ & KC & KA).
    destruct (NODE n c w H) as [_ Hc]; [unfold kids; rewrite K; left; reflexivity|exact L|].
    assert (Mc : met c) by (apply (met_kid g n); [exact M|unfold kids; rewrite K; left; reflexivity]).
    assert (Mi : met i) by (apply (met_kid g c); [exact Mc|unfold kids; rewrite KC; left; reflexivity]).
    split; [right; exact Mi|]. change w with ([] ++ w). apply (cons_known c i a [] w Mc KC); [|exact Hc].
    eapply d_altl; [exact KA|]. apply d_zero. apply zero_kind. exact WF.
  - intros n i c a u w _ H K D. pose proof (MET n (proj1 H) ltac:(congruence)) as M. pose proof (met_flocal n M) as L. unfold flocal in L. rewrite K in L.
    destruct (star_shape g WF n i c a (or_intror K)) as (_ & _ & KC & KA).
    destruct (NODE n c w H) as [_ Hc]; [unfold kids; rewrite K; left; reflexivity|exact L|].
    assert (Mc : met c) by (apply (met_kid g n); [exact M|unfold kids; rewrite K; left; reflexivity]).
    assert (Mi : met i) by (apply (met_kid g c); [exact Mc|unfold kids; rewrite KC; left; reflexivity]).
    split; [right; exact Mi|]. apply (cons_known c i a u w Mc KC); [|exact Hc].
    eapply d_altr; [exact KA|]. eapply plus_inner; eassumption.
  - (* star *)
    intros n i c a u w _ H K D. pose proof (MET n (proj1 H) ltac:(congruence)) as M. pose proof (met_flocal n M) as L. unfold flocal in L. rewrite K in L.
    destruct (star_shape g WF n i c a (or_introl K)) as (_ & _ & KC & KA).
    destruct (NODE n a w H) as [_ Ha]; [unfold kids; rewrite K; left; reflexivity|exact L|].
    assert (Ma : met a) by (apply (met_kid g n); [exact M|unfold kids; rewrite K; left; reflexivity]).
    assert (Mc : met c) by (apply (met_kid g a); [exact Ma|unfold kids; rewrite KA; right; left; reflexivity]).
    assert (Mi : met i) by (apply (met_kid g c); [exact Mc|unfold kids; rewrite KC; left; reflexivity]).
    destruct (alt_known a (gzero g) c w Ma (or_introl KA) Ha) as [_ Hc].
    split; [right; exact Mi|]. apply (cons_known c i a u w Mc KC); [|exact Hc]. eapply star_inner; eassumption.
  - intros n i w _ H K. pose proof (MET n (proj1 H) ltac:(congruence)) as M. pose proof (met_flocal n M) as L. unfold flocal in L. rewrite K in L.
    apply (NODE n i w H); [unfold kids; rewrite K; left; reflexivity|exact L].
  - intros n l r w _ H K. pose proof (MET n (proj1 H) ltac:(congruence)) as M. pose proof (met_flocal n M) as L. unfold flocal in L. rewrite K in L.
    apply (NODE n l w H); [unfold kids; rewrite K; left; reflexivity|apply L].
  - intros n l r w _ H K. pose proof (MET n (proj1 H) ltac:(congruence)) as M. pose proof (met_flocal n M) as L. unfold flocal in L. rewrite K in L.
    apply (NODE n r w H); [unfold kids; rewrite K; right; left; reflexivity|apply L].
  - intros n l r u w _ H K D. pose proof (MET n (proj1 H) ltac:(congruence)) as M.
    split; [right; apply (met_kid g n); [exact M|unfold kids; rewrite K; left; reflexivity]|].
    eapply cons_known; [exact M|exact K|exact D|apply H].
  - intros n l r w _ H K. pose proof (MET n (proj1 H) ltac:(congruence)) as M. pose proof (met_flocal n M) as L. unfold flocal in L. rewrite K in L.
    apply (NODE n r w H); [unfold kids; rewrite K; right; left; reflexivity|apply L].
  - intros n tt c w _ H K. pose proof (MET n (proj1 H) ltac:(congruence)) as M. pose proof (met_flocal n M) as L. unfold flocal in L. rewrite K in L.
    apply (NODE n tt w H); [unfold kids; rewrite K; destruct c; left; reflexivity|destruct c; apply L].
  - intros n tt c w _ H K. pose proof (MET n (proj1 H) ltac:(congruence)) as M. pose proof (met_flocal n M) as L. unfold flocal in L. rewrite K in L.
    apply (NODE n c w H); [unfold kids; rewrite K; right; left; reflexivity|apply L].
  - intros n i w _ H K. pose proof (MET n (proj1 H) ltac:(congruence)) as M. pose proof (met_flocal n M) as L. unfold flocal in L. rewrite K in L.
    apply (NODE n i w H); [unfold kids; rewrite K; left; reflexivity|exact L].
  - intros n i w _ H K. pose proof (MET n (proj1 H) ltac:(congruence)) as M. pose proof (met_flocal n M) as L. unfold flocal in L. rewrite K in L.
    apply (NODE n i w H); [unfold kids; rewrite K; left; reflexivity|exact L].
  - (* operand *)
    intros n b ops x w K _ H. destruct (H x K) as [M HX]. destruct (oper_shape g WF n b ops x K) as (_ & _ & CH).
    assert (Mx : met x) by (apply (met_kid g n); [exact M|unfold kids; rewrite K; left; reflexivity]).
    destruct (chain_known x b ops x w CH Mx HX) as ((Mb & Hb) & _). auto.
  - intros n b ops x w _ H K x' K'. assert (x' = x) by congruence. subst x'.
    pose proof (MET n (proj1 H) ltac:(congruence)) as M. split; [exact M|]. pose proof (met_flocal n M) as L. unfold flocal in L. rewrite K in L.
    apply (NODE n x w H); [unfold kids; rewrite K; left; reflexivity|exact L].
  - intros n b ops tk w _ H I x K. destruct (H x K) as [M HX]. split; [exact M|]. destruct (oper_shape g WF n b ops x K) as (_ & _ & CH).
    assert (Mx : met x) by (apply (met_kid g n); [exact M|unfold kids; rewrite K; left; reflexivity]).
    destruct (chain_known x b ops x w CH Mx HX) as (_ & Ho). destruct (Ho _ I) as (l & SP & Ml & Hl).
    destruct (post_spelled _ _ _ SP) as (KL & T). change (tk :: w) with ([tk] ++ w). eapply cons_known; [exact Ml|exact KL|apply tok_derives; exact T|exact Hl].
  - intros n b ops tk u w _ H I D x K. destruct (H x K) as [M HX]. split; [exact M|]. destruct (oper_shape g WF n b ops x K) as (_ & _ & CH).
    assert (Mx : met x) by (apply (met_kid g n); [exact M|unfold kids; rewrite K; left; reflexivity]).
    destruct (chain_known x b ops x w CH Mx HX) as (_ & Ho). destruct (Ho _ I) as (l & SP & Ml & Hl).
    destruct (bin_spelled _ _ _ SP) as (r & KL & KR & T). change (tk :: u ++ w) with ((tk :: u) ++ w).
    eapply cons_known; [exact Ml|exact KL| |exact Hl].
    change (tk :: u) with ([tk] ++ u). eapply d_cons; [exact KR|apply tok_derives; exact T|]. eapply oper_inner; eassumption.
  - intros n b ops s tk u v w _ H I Du Dv x K. destruct (H x K) as [M HX]. split; [exact M|]. destruct (oper_shape g WF n b ops x K) as (_ & _ & CH).
    assert (Mx : met x) by (apply (met_kid g n); [exact M|unfold kids; rewrite K; left; reflexivity]).
    destruct (chain_known x b ops x w CH Mx HX) as (_ & Ho). destruct (Ho _ I) as (l & SP & Ml & Hl).
    destruct (tern_spelled _ _ _ _ SP) as (r1 & r2 & r3 & KL & K1 & K2 & K3 & T1 & T2).
    replace (s :: u ++ tk :: v ++ w) with (([s] ++ u ++ [tk] ++ v) ++ w) by (cbn [app]; rewrite <- !app_assoc; reflexivity).
    eapply cons_known; [exact Ml|exact KL| |exact Hl].
    eapply d_cons; [exact K1|apply tok_derives; exact T1|]. eapply d_cons; [exact K2|eapply oper_inner; eassumption|].
    eapply d_cons; [exact K3|apply tok_derives; exact T2|]. eapply oper_inner; eassumption.
  - intros n b ops s tk u w _ H I Du x K. destruct (H x K) as [M HX]. split; [exact M|]. destruct (oper_shape g WF n b ops x K) as (_ & _ & CH).
    assert (Mx : met x) by (apply (met_kid g n); [exact M|unfold kids; rewrite K; left; reflexivity]).
    destruct (chain_known x b ops x w CH Mx HX) as (_ & Ho). destruct (Ho _ I) as (l & SP & Ml & Hl).
    destruct (tern_spelled _ _ _ _ SP) as (r1 & r2 & r3 & KL & K1 & K2 & K3 & T1 & T2).
    assert (M1 : met r1) by (apply (met_kid g l); [exact Ml|unfold kids; rewrite KL; right; left; reflexivity]).
    assert (M2 : met r2) by (apply (met_kid g r1); [exact M1|unfold kids; rewrite K1; right; left; reflexivity]).
    pose proof (cons_known_r l x r1 w Ml KL Hl) as H1. pose proof (cons_known_r r1 s r2 w M1 K1 H1) as H2.
    change (tk :: u ++ w) with (([tk] ++ u) ++ w). eapply cons_known; [exact M2|exact K2| |exact H2].
    eapply d_cons; [exact K3|apply tok_derives; exact T2|]. eapply oper_inner; eassumption.
  - intros n b ops s tk w _ H I x K. destruct (H x K) as [M HX]. split; [exact M|]. destruct (oper_shape g WF n b ops x K) as (_ & _ & CH).
    assert (Mx : met x) by (apply (met_kid g n); [exact M|unfold kids; rewrite K; left; reflexivity]).
    destruct (chain_known x b ops x w CH Mx HX) as (_ & Ho). destruct (Ho _ I) as (l & SP & Ml & Hl).
    destruct (paren_spelled _ _ _ _ SP) as (r & KL & KR & T1 & T2).
    assert (Mr : met r) by (apply (met_kid g l); [exact Ml|unfold kids; rewrite KL; right; left; reflexivity]).
    pose proof (cons_known_r l s r w Ml KL Hl) as H1. change (tk :: w) with ([tk] ++ w).
    eapply cons_known; [exact Mr|exact KR|apply tok_derives; exact T2|exact H1].
Qed.
End G.
