(** FIRST holds everything: nullability and first tokens. *)
From Coq Require Import List Bool PeanoNat Lia.
From Verif Require Import Base GrammarModel GrammarSpec GrammarProofs.
Import ListNotations.

Section G.
Variable g : grammar.
Notation kind := (kind g).
Notation derives := (derives g).
Hypothesis WF : well_formed g = true.

(** ** The shape *)
Lemma wf_parts : gregular g <= size g /\ (inside g (gzero g) = true /\ kind (gzero g) = NZero) /\
  (geof g < size g /\ kind (geof g) = NTerm) /\
  (forall t, In t (gterms g) -> t < size g /\ kind t = NTerm) /\
  (forall e, In e (grules g) -> inside g e = true /\ exists i s, kind e = NEvolve i s) /\
  (forall n, n < size g -> shape g n = true).
Proof.
  pose proof WF as W. unfold well_formed in W. repeat rewrite andb_true_iff in W.
  destruct W as [[[[[[[A B1] B2] C1] C2] D] E] F].
  assert (IT : forall n, is_term g n = true -> kind n = NTerm).
  { intros n. unfold is_term. destruct (kind n); congruence. }
  split; [apply Nat.leb_le; exact A|]. split; [split; [exact B1|]|].
  { unfold is_zero in B2. destruct (kind (gzero g)); congruence. }
  split; [split; [apply Nat.ltb_lt; exact C1|apply IT; exact C2]|].
  split.
  { intros t Ht. rewrite forallb_forall in D. specialize (D t Ht). apply andb_true_iff in D. destruct D as [D1 D2].
    split; [apply Nat.ltb_lt; exact D1|apply IT; exact D2]. }
  split.
  { intros e He. rewrite forallb_forall in E. specialize (E e He). apply andb_true_iff in E. destruct E as [E1 E2].
    split; [exact E1|]. destruct (kind e); try congruence. eauto. }
  intros n L. rewrite forallb_forall in F. apply F. apply in_seq. lia.
Qed.
Lemma zero_kind : kind (gzero g) = NZero. Proof. apply wf_parts. Qed.
Lemma zero_lt : gzero g < size g. Proof. apply kind_lt. rewrite zero_kind. discriminate. Qed.
Lemma rule_kind e : In e (grules g) -> inside g e = true /\ exists i s, kind e = NEvolve i s.
Proof. apply wf_parts. Qed.
Lemma shaped n : kind n <> NOther -> shape g n = true.
Proof. intros H. apply wf_parts. apply kind_lt. exact H. Qed.
Lemma inside_lt n : inside g n = true <-> n < gregular g.
Proof. unfold inside. apply Nat.ltb_lt. Qed.
Lemma below_lt m n : below g m n = true -> m < n /\ is_item g m = true.
Proof. unfold below. rewrite andb_true_iff, Nat.ltb_lt. tauto. Qed.
Lemma below_inside m n : below g m n = true -> inside g n = true -> inside g m = true.
Proof. intros H I. apply below_lt in H. rewrite inside_lt in *. lia. Qed.
Lemma zero_only n : kind n = NZero -> n = gzero g.
Proof.
  intros K. pose proof (shaped n) as H. rewrite K in H. specialize (H ltac:(discriminate)). unfold shape in H. rewrite K in H.
  destruct (inside g n); [apply Nat.eqb_eq; exact H|discriminate].
Qed.
Lemma is_cons_kind n l r : is_cons g n l r = true -> kind n = NCons l r.
Proof. unfold is_cons. destruct (kind n); try discriminate. rewrite andb_true_iff, !Nat.eqb_eq. intros [-> ->]. reflexivity. Qed.
Lemma is_alt_kind n l r : is_alt g n l r = true -> kind n = NAlt l r.
Proof. unfold is_alt. destruct (kind n); try discriminate. rewrite andb_true_iff, !Nat.eqb_eq. intros [-> ->]. reflexivity. Qed.
Lemma star_shape n i c a : kind n = NStar i c a \/ kind n = NPlus i c a ->
  inside g n = true /\ below g i n = true /\ kind c = NCons i a /\ kind a = NAlt (gzero g) c.
Proof.
  intros K. assert (H : shape g n = true) by (apply shaped; destruct K as [-> | ->]; discriminate).
  unfold shape in H. destruct (inside g n); [|destruct K as [K|K]; rewrite K in H; discriminate].
  split; [reflexivity|].
  destruct K as [K|K]; rewrite K in H; repeat rewrite andb_true_iff in H; destruct H as [[[[A B] C] D] E];
    (split; [exact A|]; split; [apply is_cons_kind; exact D|apply is_alt_kind; exact E]).
Qed.

(** The nodes visited from a node. *)
Definition kids (n : id) : list id :=
  match kind n with
  | NPlus _ c _ => [c] | NStar _ _ a => [a] | NOper _ _ x => [x]
  | NAct (Some i) | NAnn i | NCond i | NTry i None => [i]
  | NAlt l r | NTry l (Some r) | NCons l r => [l; r]
  | NEvolve i _ => [i]
  | _ => []
  end.
Lemma chain_top top n b ops : chain g top n b ops = true -> n = b \/ exists l r, kind n = NAlt l r.
Proof.
  destruct ops as [|o ops]; cbn [chain]; [rewrite Nat.eqb_eq; left; assumption|].
  rewrite andb_true_iff. intros [_ H]. destruct (kind n); try discriminate. right; eauto.
Qed.
Lemma kid_item n m : In m (kids n) -> is_item g m = true.
Proof.
  intros H. unfold kids in H.
  assert (K : kind n <> NOther) by (intro E; rewrite E in H; exact H).
  pose proof (shaped n K) as S0. unfold shape in S0.
  destruct (inside g n) eqn:I.
  - destruct (kind n) as [| | |s|s|i c a|i c a|[i|]|l r|l r|i s|tt [c|]|i|i|bb ops x|] eqn:Kn; try (destruct H; fail);
      try (destruct (star_shape n i c a) as (_ & B & KC & KA); [rewrite Kn; auto|];
           destruct H as [<- | []]; unfold is_item; rewrite ?KC, ?KA; reflexivity);
      try (destruct H as [<- | []]; apply below_lt in S0; apply S0);
      try (apply andb_true_iff in S0; destruct S0 as [S1 S2]; apply below_lt in S1; apply below_lt in S2;
           destruct H as [<- | [<- | []]]; [apply S1|apply S2]).
    + apply andb_true_iff in S0; destruct S0 as [S1 S2]; apply below_lt in S1. destruct H as [<- | []]. apply S1.
    + apply andb_true_iff in S0; destruct S0 as [S1 S2]; apply below_lt in S1. destruct H as [<- | []].
      destruct (chain_top _ _ _ _ S2) as [-> | (l & r & E)]; [apply S1|]. unfold is_item. rewrite E. reflexivity.
  - destruct (kind n) as [| | |s|s|i c a|i c a|[i|]|l r|l r|i s|tt [c|]|i|i|bb ops x|] eqn:Kn; try discriminate; try (destruct H; fail);
      (apply andb_true_iff in S0; destruct S0 as [S1 S2]; apply below_lt in S1; apply below_lt in S2;
           destruct H as [<- | [<- | []]]; [apply S1|apply S2]).
Qed.
(** Met from a rule. *)
Inductive met : id -> Prop :=
| met_rule e : In e (grules g) -> met e
| met_kid n m : met n -> In m (kids n) -> met m.
Lemma met_term n : met n -> kind n = NTerm -> In n (gterms g).
Proof.
  intros M K. destruct M as [e He|n m _ H].
  - destruct (rule_kind e He) as (_ & i & s & E). congruence.
  - apply kid_item in H. unfold is_item in H. rewrite K in H. apply mem_in. exact H.
Qed.

(** ** What a round without a change means *)
Variable t : table.
Definition quiet (f : nat) (b : bool) (P : list id) (n : id) : Prop := first_node g f b P n (t, false) = Some (t, false).
Definition seen (f : nat) (b : bool) (P : list id) (m : id) : Prop := mem m P = true \/ quiet f b (m :: P) m.
Definition sub (b : bool) (d s : id) : Prop := forall x, x < size g -> t s x = true -> b && is_zero g x = false -> t d x = true.

Lemma fmerge_sub b d s : fmerge g b (t, false) d s = (t, false) -> sub b d s.
Proof.
  intros E x L H Z. apply (add_to_sub g t d _ E x L). cbn [fst]. rewrite H, Z. reflexivity.
Qed.
Definition cons_flag (b : bool) (r : id) : bool := if eps g t r then b else true.
Definition local (b : bool) (n : id) : Prop :=
  match kind n with
  | NZero | NTerm | NSym | NOther | NAct None => True
  | NNon s | NInl s => sub b n s
  | NPlus _ c _ => sub b n c
  | NStar _ _ a => sub b n a
  | NOper _ _ x => sub b n x
  | NAct (Some i) | NAnn i | NCond i | NTry i None => sub b n i
  | NAlt l r | NTry l (Some r) => sub b n l /\ sub b n r
  | NCons l r => sub (cons_flag b r) n l /\ (eps g t l = true -> sub (cons_flag b r) n r)
  | NEvolve i s => sub b n i /\ sub b s n
  end.
Definition onward (f : nat) (b : bool) (P : list id) (n : id) : Prop :=
  match kind n with
  | NPlus _ c _ => quiet f b P c
  | NStar _ _ a => quiet f b P a
  | NOper _ _ x => quiet f b P x
  | NAct (Some i) | NTry i None => quiet f b P i
  | NAnn i | NCond i => seen f b P i
  | NAlt l r | NTry l (Some r) => seen f b P l /\ seen f b P r
  | NCons l r => seen f (cons_flag b r) P l /\ seen f b P r
  | NEvolve i s => seen f b P i
  | _ => True
  end.
Lemma quiet_inv f b P n : quiet f b P n -> exists f', local b n /\ onward f' b P n.
Proof.
  unfold quiet. destruct f as [|f]; [discriminate|]. intros E. exists f. cbn [GrammarModel.first_node] in E.
  assert (NEXT : forall (F : table * bool -> option (table * bool)) (k : table * bool -> option (table * bool)),
    obind (F (t, false)) k = Some (t, false) ->
    (forall st, k st = Some (t, false) -> calm st (t, false)) ->
    F (t, false) = Some (t, false) /\ k (t, false) = Some (t, false)).
  { intros F k H C. apply obind_inv in H. destruct H as (st & E1 & E2). pose proof (C st E2 eq_refl) as Q. subst st. tauto. }
  assert (VC : forall b m st st', (if mem m P then Some st else first_node g f b (m :: P) m st) = Some st' -> calm st st').
  { intros b' m s s' H. destruct (mem m P); [injection H as <-; apply calm_refl|]. eapply first_node_calm; exact H. }
  assert (VS : forall b m, (if mem m P then Some (t, false) else first_node g f b (m :: P) m (t, false)) = Some (t, false) -> seen f b P m).
  { intros b' m H. unfold seen, quiet. destruct (mem m P); [left; reflexivity|right; exact H]. }
  assert (C1 : forall b n s st, Some (fmerge g b st n s) = Some (t, false) -> calm st (t, false)).
  { intros b' n' s st H. injection H as <-. apply calm_fmerge. }
  assert (M1 : forall b n s, Some (fmerge g b (t, false) n s) = Some (t, false) -> sub b n s).
  { intros b' n' s H. injection H as H. apply fmerge_sub. exact H. }
  assert (M2 : forall b n s n' s', Some (fmerge g b (fmerge g b (t, false) n s) n' s') = Some (t, false) -> sub b n s /\ sub b n' s').
  { intros b' n1 s1 n2 s2 H. injection H as H. pose proof (calm_fmerge g b' (fmerge g b' (t, false) n1 s1) n2 s2) as C.
    rewrite H in C. pose proof (C eq_refl) as E1. rewrite <- E1 in H. split; apply fmerge_sub; [symmetry; exact E1|exact H]. }
  assert (C2 : forall b n s n' s' st, Some (fmerge g b (fmerge g b st n s) n' s') = Some (t, false) -> calm st (t, false)).
  { intros b' n1 s1 n2 s2 st H. injection H as <-. eapply calm_trans; apply calm_fmerge. }
  unfold local, onward.
  destruct (kind n) as [| | |s|s|i c a|i c a|[i|]|l r|l r|i s|tt [c|]|i|i|bb ops x|]; try (split; exact I).
  - split; [|exact I]. injection E as E.
    pose proof (calm_fmerge_opt g b (fmerge g b (t, false) n s) n (search_rule g s)) as C. rewrite E in C.
    apply fmerge_sub. symmetry. exact (C eq_refl).
  - split; [|exact I]. injection E as E.
    pose proof (calm_fmerge_opt g b (fmerge g b (t, false) n s) n (search_rule g s)) as C. rewrite E in C.
    apply fmerge_sub. symmetry. exact (C eq_refl).
  - apply (NEXT (first_node g f b P c)) in E; [|intros st; apply C1]. destruct E as [E1 E2]. split; [apply M1; exact E2|exact E1].
  - apply (NEXT (first_node g f b P a)) in E; [|intros st; apply C1]. destruct E as [E1 E2]. split; [apply M1; exact E2|exact E1].
  - apply (NEXT (first_node g f b P i)) in E; [|intros st; apply C1]. destruct E as [E1 E2]. split; [apply M1; exact E2|exact E1].
  - apply (NEXT (fun st => if mem l P then Some st else first_node g f b (l :: P) l st)) in E.
    2: { intros st H. apply obind_inv in H. destruct H as (st2 & H1 & H2). eapply calm_trans; [eapply VC; exact H1|eapply C2; exact H2]. }
    destruct E as [E1 E]. apply (NEXT (fun st => if mem r P then Some st else first_node g f b (r :: P) r st)) in E; [|intros st; apply C2].
    destruct E as [E2 E]. split; [apply M2; exact E|split; apply VS; assumption].
  - apply (NEXT (fun st => if mem r P then Some st else first_node g f b (r :: P) r st)) in E.
    2: { intros st H. apply obind_inv in H. destruct H as (st2 & H1 & H2). eapply calm_trans; [eapply VC; exact H1|].
         destruct (eps g (fst (fmerge g (if eps g (fst st) r then b else true) st2 n l)) l) in H2.
         - apply obind_inv in H2. destruct H2 as (st3 & H2 & H3).
           eapply calm_trans; [apply calm_fmerge|]. eapply calm_trans; [eapply VC; exact H2|eapply C1; exact H3].
         - eapply C1; exact H2. }
    destruct E as [E1 E]. cbn [fst] in E. fold (cons_flag b r) in E.
    apply (NEXT (fun st => if mem l P then Some st else first_node g f (cons_flag b r) (l :: P) l st)) in E.
    2: { intros st H2.
         destruct (eps g (fst (fmerge g (cons_flag b r) st n l)) l) in H2.
         - apply obind_inv in H2. destruct H2 as (st3 & H2 & H3).
           eapply calm_trans; [apply calm_fmerge|]. eapply calm_trans; [eapply VC; exact H2|eapply C1; exact H3].
         - eapply C1; exact H2. }
    destruct E as [E2 E].
    assert (E3 : fmerge g (cons_flag b r) (t, false) n l = (t, false)).
    { symmetry. destruct (eps g (fst (fmerge g (cons_flag b r) (t, false) n l)) l) in E.
      - apply obind_inv in E. destruct E as (st3 & H2 & H3).
        pose proof (C1 _ _ _ _ H3 eq_refl) as Q. subst st3. exact (VC _ _ _ _ H2 eq_refl).
      - injection E as E. symmetry. exact E. }
    rewrite E3 in E. cbn [fst] in E.
    split; [split; [apply fmerge_sub; exact E3|]|split; apply VS; assumption].
    intros EL. rewrite EL in E. apply (NEXT (fun st => if mem r P then Some st else first_node g f (cons_flag b r) (r :: P) r st)) in E; [|intros st; apply C1].
    apply M1. apply E.
  - apply (NEXT (fun st => if mem i P then Some st else first_node g f b (i :: P) i st)) in E; [|intros st; apply C2].
    destruct E as [E1 E]. split; [apply M2; exact E|apply VS; exact E1].
  - apply (NEXT (fun st => if mem tt P then Some st else first_node g f b (tt :: P) tt st)) in E.
    2: { intros st H. apply obind_inv in H. destruct H as (st2 & H1 & H2). eapply calm_trans; [eapply VC; exact H1|eapply C2; exact H2]. }
    destruct E as [E1 E]. apply (NEXT (fun st => if mem c P then Some st else first_node g f b (c :: P) c st)) in E; [|intros st; apply C2].
    destruct E as [E2 E]. split; [apply M2; exact E|split; apply VS; assumption].
  - apply (NEXT (first_node g f b P tt)) in E; [|intros st; apply C1]. destruct E as [E1 E2]. split; [apply M1; exact E2|exact E1].
  - apply (NEXT (fun st => if mem i P then Some st else first_node g f b (i :: P) i st)) in E; [|intros st; apply C1].
    destruct E as [E1 E]. split; [apply M1; exact E|apply VS; exact E1].
  - apply (NEXT (fun st => if mem i P then Some st else first_node g f b (i :: P) i st)) in E; [|intros st; apply C1].
    destruct E as [E1 E]. split; [apply M1; exact E|apply VS; exact E1].
  - apply (NEXT (first_node g f b P x)) in E; [|intros st; apply C1]. destruct E as [E1 E2]. split; [apply M1; exact E2|exact E1].
Qed.

(** ** Every node met from a rule is visited, whatever the way *)
Fixpoint walk (n : id) (l : list id) (m : id) : Prop :=
  match l with [] => n = m | k :: l => In k (kids n) /\ walk k l m end.
Lemma walk_app n l m k : walk n l m -> In k (kids m) -> walk n (l ++ [k]) k.
Proof. revert n. induction l as [|h l IH]; intros n H K; cbn in *; [subst; auto|]. destruct H; auto. Qed.
Lemma walk_cut l : forall n m k, walk n l m -> In k l -> exists l', walk k l' m /\ exists l0, l = l0 ++ k :: l'.
Proof.
  induction l as [|h l IH]; intros n m k H K; [destruct K|]. cbn in H. destruct H as [H1 H2]. destruct K as [-> | K].
  - exists l. split; [exact H2|]. exists []. reflexivity.
  - destruct (IH h m k H2 K) as (l' & W & l0 & E). exists l'. split; [exact W|]. exists (h :: l0). rewrite E. reflexivity.
Qed.
Lemma walk_nodup l : forall n m, walk n l m -> exists l', walk n l' m /\ NoDup (n :: l').
Proof.
  induction l as [|h l IH]; intros n m H.
  - exists []. split; [exact H|]. repeat constructor. intros [].
  - cbn in H. destruct H as [H1 H2]. destruct (IH h m H2) as (l' & W & ND).
    destruct (in_dec Nat.eq_dec n (h :: l')) as [I|I].
    + destruct I as [-> | I].
      * exists l'. split; assumption.
      * destruct (walk_cut l' h m n W I) as (l2 & W2 & l0 & E). exists l2. split; [exact W2|].
        apply NoDup_cons_iff in ND. destruct ND as [_ ND]. rewrite E in ND.
        apply NoDup_remove in ND. destruct ND as [ND1 ND2]. constructor.
        -- intro Z. apply ND2. apply in_or_app. right. exact Z.
        -- clear - ND1. induction l0 as [|x l0 IH]; [exact ND1|]. apply NoDup_cons_iff in ND1. apply IH, ND1.
    + exists (h :: l'). split; [split; assumption|]. constructor; assumption.
Qed.
Lemma met_walk n : met n -> exists e l, In e (grules g) /\ walk e l n.
Proof.
  induction 1 as [e He|n m _ (e & l & He & W) K].
  - exists e, []. split; [exact He|reflexivity].
  - exists e, (l ++ [m]). split; [exact He|]. eapply walk_app; eassumption.
Qed.

Hypothesis QUIET : forall e, In e (grules g) -> exists f, quiet f false [e] e.
Lemma onward_kid f b P n m : onward f b P n -> In m (kids n) -> ~ In m P -> exists b' P', quiet f b' P' m /\ (P' = P \/ P' = m :: P).
Proof.
  intros O K N. unfold onward, kids in *.
  assert (SEEN : forall b m, ~ In m P -> seen f b P m -> exists b' P', quiet f b' P' m /\ (P' = P \/ P' = m :: P)).
  { intros b' m' N' [M|Q]; [apply mem_in in M; contradiction|]. eauto. }
  destruct (kind n) as [| | |s|s|i c a|i c a|[i|]|l r|l r|i s|tt [c|]|i|i|bb ops x|]; try (destruct K; fail);
    try (destruct K as [<- | []]; first [exists b, P; split; [exact O|left; reflexivity]|eapply SEEN; [exact N|exact O]]);
    (destruct O as [O1 O2]; destruct K as [<- | [<- | []]]; eapply SEEN; eassumption).
Qed.
Lemma walk_quiet l : forall f b P n m, quiet f b P n -> walk n l m -> NoDup l -> (forall x, In x l -> ~ In x P) ->
  exists f' b' P', quiet f' b' P' m.
Proof.
  induction l as [|k l IH]; intros f b P n m Q W ND D; cbn in W; [subst; eauto|].
  destruct W as [K W]. destruct (quiet_inv f b P n Q) as (f' & _ & O).
  destruct (onward_kid f' b P n k O K) as (b' & P' & Q' & HP); [apply D; left; reflexivity|].
  apply NoDup_cons_iff in ND. destruct ND as [ND1 ND2].
  apply (IH f' b' P' k m Q' W ND2). intros x Hx. destruct HP as [-> | ->]; [apply D; right; exact Hx|].
  intros [<- | HP]; [contradiction|]. eapply D; [right; exact Hx|exact HP].
Qed.
Lemma met_quiet n : met n -> exists f b P, quiet f b P n.
Proof.
  intros M. destruct (met_walk n M) as (e & l & He & W). destruct (walk_nodup l e n W) as (l' & W' & ND).
  apply NoDup_cons_iff in ND. destruct ND as [ND1 ND2].
  destruct (QUIET e He) as (f & Q). apply (walk_quiet l' f false [e] e n Q W' ND2).
  intros x Hx [-> | []]. contradiction.
Qed.
Lemma met_local n : met n -> exists b, local b n.
Proof. intros M. destruct (met_quiet n M) as (f & b & P & Q). destruct (quiet_inv f b P n Q) as (f' & L & _). eauto. Qed.

(** ** Nullability *)
Hypothesis GROWN : forall n x, first_init g n x = true -> t n x = true.
Hypothesis COMPANY : code_has_company g.
(** No operand that can be empty goes unnoticed. *)
Hypothesis NOTICED : forall n b ops x, kind n = NOper b ops x -> derives b [] -> eps g t b = true -> False.
Lemma zero_zero : t (gzero g) (gzero g) = true.
Proof. apply GROWN. unfold first_init. rewrite !Nat.eqb_refl. reflexivity. Qed.

Definition above (P : list id) (n : id) : Prop := forall p, In p P -> n <= p.
Lemma seen_below f b P n m : seen f b P m -> above P n -> m < n -> quiet f b (m :: P) m /\ above (m :: P) m.
Proof.
  intros H A L. split.
  - destruct H as [H|H]; [|exact H]. apply mem_in in H. apply A in H. lia.
  - intros p [<- | Hp]; [apply le_n|]. apply A in Hp. lia.
Qed.
Lemma above_le P n m : above P n -> m <= n -> above P m.
Proof. intros A L p Hp. apply A in Hp. lia. Qed.

Definition null_eps (n : id) : Prop := (forall i s, kind n <> NEvolve i s) -> forall f v b v', eps_visit g f t n v = Some (b, v') -> b = true.
Definition null_here (n : id) : Prop := forall f P, inside g n = true -> is_item g n = true -> ~ bare g n -> above P n -> quiet f false P n -> t n (gzero g) = true.

Lemma sub_zero d s : sub false d s -> t s (gzero g) = true -> t d (gzero g) = true.
Proof. intros S0 H. apply S0; [apply zero_lt|exact H|reflexivity]. Qed.
Lemma cons_null_flag r : null_eps r -> (forall i s, kind r <> NEvolve i s) -> eps g t r = true.
Proof. intros A K. destruct (eps_runs g t r) as (v' & E). eapply A; eassumption. Qed.
Lemma item_not_rule m : is_item g m = true -> forall i s, kind m <> NEvolve i s.
Proof. unfold is_item. intros H i s E. rewrite E in H. discriminate. Qed.
Lemma sym_not_rule m : is_sym g m = true -> forall i s, kind m <> NEvolve i s.
Proof. unfold is_sym. intros H i s E. rewrite E in H. rewrite andb_false_r in H. discriminate. Qed.


Lemma eps_unary n i : (kind n = NAct (Some i) \/ kind n = NAnn i \/ kind n = NCond i \/ kind n = NNon i \/ kind n = NInl i \/ exists c a, kind n = NPlus i c a) ->
  null_eps i -> (forall e s, kind i <> NEvolve e s) -> null_eps n.
Proof.
  intros H A N _ f v b v' E. destruct f as [|f]; [discriminate|]. cbn [eps_visit] in E.
  destruct (mem n v); [congruence|].
  destruct H as [K|[K|[K|[K|[K|(c & a & K)]]]]]; rewrite K in E; (eapply A; [exact N|exact E]).
Qed.
Lemma unary_below n i : (kind n = NAct (Some i) \/ kind n = NAnn i \/ kind n = NCond i \/ kind n = NTry i None) ->
  inside g n = true /\ below g i n = true.
Proof.
  intros H. assert (SH : shape g n = true) by (apply shaped; destruct H as [K|[K|[K|K]]]; rewrite K; discriminate).
  unfold shape in SH. destruct (inside g n); destruct H as [K|[K|[K|K]]]; rewrite K in SH; try discriminate; split; auto.
Qed.
Lemma binary_below n l r : (kind n = NAlt l r \/ kind n = NCons l r \/ kind n = NTry l (Some r)) -> inside g n = true ->
  below g l n = true /\ below g r n = true.
Proof.
  intros H I. assert (SH : shape g n = true) by (apply shaped; destruct H as [K|[K|K]]; rewrite K; discriminate).
  unfold shape in SH. rewrite I in SH. destruct H as [K|[K|K]]; rewrite K in SH; apply andb_true_iff; exact SH.
Qed.
Lemma binary_items n l r : (kind n = NAlt l r \/ kind n = NCons l r \/ kind n = NTry l (Some r)) ->
  is_item g l = true /\ is_item g r = true.
Proof.
  intros H. assert (In l (kids n) /\ In r (kids n)) as [A B].
  { unfold kids. destruct H as [K|[K|K]]; rewrite K; cbn; auto. }
  split; eapply kid_item; eassumption.
Qed.
Lemma here_unary n i : (kind n = NAct (Some i) \/ kind n = NAnn i \/ kind n = NCond i \/ kind n = NTry i None) ->
  null_here i -> null_here n.
Proof.
  intros H C f P I IT NB AB Q. destruct (unary_below n i H) as (_ & B). pose proof (below_inside _ _ B I) as Ii.
  apply below_lt in B. destruct B as [L Iti]. destruct (quiet_inv f false P n Q) as (f' & LC & O).
  unfold local, onward in LC, O.
  assert (X : exists P', quiet f' false P' i /\ above P' i).
  { assert (AI : above P i) by (apply (above_le P n i AB); lia).
    destruct H as [K|[K|[K|K]]]; rewrite K in O; [exists P; auto| | |exists P; auto];
      (destruct (seen_below f' false P n i O AB L) as [A1 A2]; exists (i :: P); auto). }
  assert (LS : sub false n i) by (destruct H as [K|[K|[K|K]]]; rewrite K in LC; exact LC).
  destruct X as (P' & Qi & Ai). apply (sub_zero n i LS). apply (C f' P'); try assumption.
  intros Bi. apply NB. destruct H as [K|[K|[K|K]]]; [eapply b_act|eapply b_ann|eapply b_cond|eapply b_try]; eassumption.
Qed.

Lemma eps_alt_zero a c : kind a = NAlt (gzero g) c -> eps g t a = true.
Proof.
  intros KA. destruct (eps_runs g t a) as (v' & E). remember (S (size g)) as k eqn:Ek. cbn [eps_visit] in E.
  change (mem a []) with false in E. cbv iota in E. rewrite KA in E.
  apply obind_inv in E. destruct E as ([b v1] & E1 & E). cbn [fst snd] in E.
  assert (b = true); [|subst b; congruence].
  subst k. cbn [eps_visit] in E1. rewrite zero_kind in E1. destruct (mem (gzero g) [a]); congruence.
Qed.

Lemma null_complete : forall n w, derives n w -> w = [] ->
  null_eps n /\ (kind n = NSym -> t n (gzero g) = true) /\ null_here n.
Proof.
  induction 1 as [n K|n K|s e i w Ks He Ke D IH|e i s w Ke D IH|n s w K D IH|n s w K D IH
    |n i c a w K D IH|n i c a u w K Du IHu Dw IHw|n i c a K|n i c a u w K Du IHu Dw IHw
    |n K|n i w K D IH|n l r w K D IH|n l r w K D IH|n l r u w K Du IHu Dw IHw
    |n tt c w K D IH|n tt c w K D IH|n i w K D IH|n i w K D IH
    |n b ops x w K D IH|n b ops x tk w K I D IH|n b ops x tk w K I D IH|n b ops x tk u w K I Du IHu Dw IHw
    |n b ops x s0 t0 u v w K I Du IHu Dv IHv Dw IHw|n b ops x s0 t0 w K I D IH]; intros W.
  - (* zero *)
    split; [|split; [intros K2; congruence|]].
    + intros _ f v b v' E. destruct f; [discriminate|]. cbn [eps_visit] in E. rewrite K in E. destruct (mem n v); congruence.
    + intros f P _ _ _ _ _. rewrite (zero_only n K). apply zero_zero.
  - discriminate.
  - (* symbol *)
    destruct (IH W) as (A & B & C).
    assert (Z : t s (gzero g) = true).
    { destruct (QUIET e He) as (f & Q). destruct (quiet_inv f false [e] e Q) as (f' & L & O).
      unfold local, onward in L, O. rewrite Ke in L, O. destruct L as [L1 L2].
      assert (SH : shape g e = true) by (apply shaped; rewrite Ke; discriminate).
      destruct (rule_kind e He) as (Ie & _). unfold shape in SH. rewrite Ie, Ke in SH.
      apply andb_true_iff in SH. destruct SH as [SH _].
      pose proof (below_inside _ _ SH Ie) as Ii. apply below_lt in SH.
      destruct (seen_below f' false [e] e i O) as [Qi Ai]; [intros p [<- | []]; apply le_n|apply SH|].
      apply (sub_zero s e L2). apply (sub_zero e i L1). apply (C f' (i :: [e])); try assumption; [apply SH|].
      apply (proj1 COMPANY e i s He Ke). }
    split; [|split; [intros _; exact Z|]].
    + intros _ f v b v' E. destruct f; [discriminate|]. cbn [eps_visit] in E. rewrite Ks in E.
      destruct (mem s v); [congruence|]. rewrite Z in E. congruence.
    + intros f P _ _ _ _ _. exact Z.
  - (* rule *)
    split; [intros K2; exfalso; eapply K2; exact Ke|split; [intros K2; congruence|]].
    intros f P _ IT. exfalso. eapply item_not_rule; eassumption.
  - (* nonterminal *)
    destruct (IH W) as (A & B & C). assert (SH : shape g n = true) by (apply shaped; rewrite K; discriminate).
    unfold shape in SH. rewrite K in SH. destruct (inside g n); [|discriminate].
    split; [|split; [intros K2; congruence|]].
    + apply (eps_unary n s); [auto 10|exact A|]. apply sym_not_rule. exact SH.
    + intros f P _ _ _ _ Q. destruct (quiet_inv f false P n Q) as (f' & L & O). unfold local in L. rewrite K in L.
      apply (sub_zero n s L). apply B. unfold is_sym in SH. apply andb_true_iff in SH. destruct SH as [_ SH].
      destruct (kind s); congruence.
  - destruct (IH W) as (A & B & C). assert (SH : shape g n = true) by (apply shaped; rewrite K; discriminate).
    unfold shape in SH. rewrite K in SH. destruct (inside g n); [|discriminate].
    split; [|split; [intros K2; congruence|]].
    + apply (eps_unary n s); [auto 10|exact A|]. apply sym_not_rule. exact SH.
    + intros f P _ _ _ _ Q. destruct (quiet_inv f false P n Q) as (f' & L & O). unfold local in L. rewrite K in L.
      apply (sub_zero n s L). apply B. unfold is_sym in SH. apply andb_true_iff in SH. destruct SH as [_ SH].
      destruct (kind s); congruence.
  - (* plus *)
    destruct (IH W) as (A & B & C). destruct (star_shape n i c a (or_intror K)) as (I & BL & KC & KA).
    pose proof (below_inside _ _ BL I) as Ii. apply below_lt in BL. destruct BL as [L Iti].
    split; [|split; [intros K2; congruence|]].
    + apply (eps_unary n i); [eauto 10|exact A|]. apply item_not_rule. exact Iti.
    + intros f P _ _ NB AB Q. destruct (quiet_inv f false P n Q) as (f' & LC & O). unfold local, onward in LC, O.
      rewrite K in LC, O. destruct (quiet_inv f' false P c O) as (f2 & LC2 & O2). unfold local, onward in LC2, O2.
      rewrite KC in LC2, O2.
      assert (EA : eps g t a = true).
      { exact (eps_alt_zero a c KA). }
      unfold cons_flag in LC2, O2. rewrite EA in LC2, O2. destruct LC2 as [LC2 _]. destruct O2 as [O2 _].
      destruct (seen_below f2 false P n i O2 AB L) as [Qi Ai].
      apply (sub_zero n c LC). apply (sub_zero c i LC2). apply (C f2 (i :: P)); try assumption.
      intros Bi. apply NB. eapply b_plus; eassumption.
  - apply app_eq_nil in W. destruct W as [W1 W2]. apply IHw. exact W2.
  - (* star *)
    destruct (star_shape n i c a (or_introl K)) as (I & BL & KC & KA).
    split; [|split; [intros K2; congruence|]].
    + intros _ f v b v' E. destruct f; [discriminate|]. cbn [eps_visit] in E. rewrite K in E. destruct (mem n v); congruence.
    + intros f P _ _ _ _ Q. destruct (quiet_inv f false P n Q) as (f' & LC & O). unfold local, onward in LC, O.
      rewrite K in LC, O. destruct (quiet_inv f' false P a O) as (f2 & LC2 & O2). unfold local in LC2. rewrite KA in LC2.
      apply (sub_zero n a LC). apply (sub_zero a (gzero g)); [apply LC2|]. apply zero_zero.
  - apply app_eq_nil in W. destruct W as [W1 W2]. apply IHw. exact W2.
  - (* code alone *)
    split; [|split; [intros K2; congruence|]].
    + intros _ f v b v' E. destruct f; [discriminate|]. cbn [eps_visit] in E. rewrite K in E. destruct (mem n v); congruence.
    + intros f P _ _ NB. exfalso. apply NB. apply b_act0. exact K.
  - destruct (IH W) as (A & B & C). destruct (unary_below n i (or_introl K)) as (I & BL). apply below_lt in BL.
    split; [|split; [intros K2; congruence|]].
    + apply (eps_unary n i); [auto 10|exact A|]. apply item_not_rule. apply BL.
    + apply (here_unary n i); auto.
  - (* alternative *)
    destruct (IH W) as (A & B & C). destruct (binary_items n l r (or_introl K)) as (Il & Ir).
    split; [|split; [intros K2; congruence|]].
    + intros _ f v b v' E. destruct f; [discriminate|]. cbn [eps_visit] in E. rewrite K in E. destruct (mem n v); [congruence|].
      apply obind_inv in E. destruct E as ([b1 v1] & E1 & E). cbn [fst snd] in E.
      rewrite (A (item_not_rule l Il) _ _ _ _ E1) in E. congruence.
    + intros f P I _ NB AB Q. destruct (quiet_inv f false P n Q) as (f' & LC & O). unfold local, onward in LC, O.
      rewrite K in LC, O. destruct (binary_below n l r (or_introl K) I) as (Bl & Br).
      pose proof (below_inside _ _ Bl I). apply below_lt in Bl.
      destruct (seen_below f' false P n l (proj1 O) AB (proj1 Bl)) as [Ql Al].
      apply (sub_zero n l (proj1 LC)). apply (C f' (l :: P)); try assumption.
      apply (proj2 COMPANY n l r (or_introl K) I).
  - destruct (IH W) as (A & B & C). destruct (binary_items n l r (or_introl K)) as (Il & Ir).
    split; [|split; [intros K2; congruence|]].
    + intros _ f v b v' E. destruct f; [discriminate|]. cbn [eps_visit] in E. rewrite K in E. destruct (mem n v); [congruence|].
      apply obind_inv in E. destruct E as ([b1 v1] & E1 & E). cbn [fst snd] in E.
      destruct b1; [congruence|]. exact (A (item_not_rule r Ir) _ _ _ _ E).
    + intros f P I _ NB AB Q. destruct (quiet_inv f false P n Q) as (f' & LC & O). unfold local, onward in LC, O.
      rewrite K in LC, O. destruct (binary_below n l r (or_introl K) I) as (Bl & Br).
      pose proof (below_inside _ _ Br I). apply below_lt in Br.
      destruct (seen_below f' false P n r (proj2 O) AB (proj1 Br)) as [Qr Ar].
      apply (sub_zero n r (proj2 LC)). apply (C f' (r :: P)); try assumption.
      apply (proj2 COMPANY n l r (or_introl K) I).
  - (* sequence *)
    apply app_eq_nil in W. destruct W as [W1 W2].
    destruct (IHu W1) as (A & B & C). destruct (IHw W2) as (A' & B' & C').
    destruct (binary_items n l r (or_intror (or_introl K))) as (Il & Ir).
    split; [|split; [intros K2; congruence|]].
    + intros _ f v b v' E. destruct f; [discriminate|]. cbn [eps_visit] in E. rewrite K in E. destruct (mem n v); [congruence|].
      apply obind_inv in E. destruct E as ([b1 v1] & E1 & E). cbn [fst snd] in E.
      rewrite (A (item_not_rule l Il) _ _ _ _ E1) in E. exact (A' (item_not_rule r Ir) _ _ _ _ E).
    + intros f P I _ NB AB Q. destruct (quiet_inv f false P n Q) as (f' & LC & O). unfold local, onward in LC, O.
      rewrite K in LC, O. unfold cons_flag in LC, O.
      rewrite (cons_null_flag r A' (item_not_rule r Ir)) in LC, O.
      destruct (binary_below n l r (or_intror (or_introl K)) I) as (Bl & Br).
      pose proof (below_inside _ _ Bl I). pose proof (below_inside _ _ Br I). apply below_lt in Bl. apply below_lt in Br.
      destruct (seen_below f' false P n l (proj1 O) AB (proj1 Bl)) as [Ql Al].
      destruct (seen_below f' false P n r (proj2 O) AB (proj1 Br)) as [Qr Ar].
      destruct (t n (gzero g)) eqn:TZ; [reflexivity|]. exfalso.
      assert (NL : ~ ~ bare g l).
      { intros NL. assert (Z : t n (gzero g) = true); [|congruence]. apply (sub_zero n l (proj1 LC)). apply (C f' (l :: P)); assumption. }
      assert (NR : ~ ~ bare g r).
      { intros NL2. assert (Z : t n (gzero g) = true); [|congruence].
        apply (sub_zero n r); [apply (proj2 LC); apply (cons_null_flag l A (item_not_rule l Il))|]. apply (C' f' (r :: P)); assumption. }
      apply NL. intros Bbl. apply NR. intros Bbr. apply NB. eapply b_cons; eassumption.
  - (* try *)
    destruct (IH W) as (A & B & C).
    assert (IT : is_item g tt = true).
    { apply (kid_item n). unfold kids. rewrite K. destruct c; left; reflexivity. }
    split; [|split; [intros K2; congruence|]].
    + intros _ f v b v' E. destruct f; [discriminate|]. cbn [eps_visit] in E. rewrite K in E. destruct (mem n v); [congruence|].
      apply obind_inv in E. destruct E as ([b1 v1] & E1 & E). cbn [fst snd] in E.
      rewrite (A (item_not_rule tt IT) _ _ _ _ E1) in E. congruence.
    + destruct c as [c|]; [|apply (here_unary n tt); auto].
      intros f P I _ NB AB Q. destruct (quiet_inv f false P n Q) as (f' & LC & O). unfold local, onward in LC, O.
      rewrite K in LC, O. destruct (binary_below n tt c (or_intror (or_intror K)) I) as (Bl & Br).
      pose proof (below_inside _ _ Bl I). apply below_lt in Bl.
      destruct (seen_below f' false P n tt (proj1 O) AB (proj1 Bl)) as [Ql Al].
      apply (sub_zero n tt (proj1 LC)). apply (C f' (tt :: P)); try assumption.
      apply (proj2 COMPANY n tt c (or_intror K) I).
  - destruct (IH W) as (A & B & C). destruct (binary_items n tt c (or_intror (or_intror K))) as (Il & Ir).
    split; [|split; [intros K2; congruence|]].
    + intros _ f v b v' E. destruct f; [discriminate|]. cbn [eps_visit] in E. rewrite K in E. destruct (mem n v); [congruence|].
      apply obind_inv in E. destruct E as ([b1 v1] & E1 & E). cbn [fst snd] in E.
      destruct b1; [congruence|]. exact (A (item_not_rule c Ir) _ _ _ _ E).
    + intros f P I _ NB AB Q. destruct (quiet_inv f false P n Q) as (f' & LC & O). unfold local, onward in LC, O.
      rewrite K in LC, O. destruct (binary_below n tt c (or_intror (or_intror K)) I) as (Bl & Br).
      pose proof (below_inside _ _ Br I). apply below_lt in Br.
      destruct (seen_below f' false P n c (proj2 O) AB (proj1 Br)) as [Qr Ar].
      apply (sub_zero n c (proj2 LC)). apply (C f' (c :: P)); try assumption.
      apply (proj2 COMPANY n tt c (or_intror K) I).
  - destruct (IH W) as (A & B & C). destruct (unary_below n i (or_intror (or_introl K))) as (I & BL). apply below_lt in BL.
    split; [|split; [intros K2; congruence|]].
    + apply (eps_unary n i); [auto 10|exact A|]. apply item_not_rule. apply BL.
    + apply (here_unary n i); auto.
  - destruct (IH W) as (A & B & C). destruct (unary_below n i (or_intror (or_intror (or_introl K)))) as (I & BL). apply below_lt in BL.
    split; [|split; [intros K2; congruence|]].
    + apply (eps_unary n i); [auto 10|exact A|]. apply item_not_rule. apply BL.
    + apply (here_unary n i); auto.
  - (* operand *) exfalso. subst w. destruct (IH eq_refl) as (A & _ & _).
    assert (SH : shape g n = true) by (apply shaped; rewrite K; discriminate). unfold shape in SH. rewrite K in SH.
    destruct (inside g n); [|discriminate]. apply andb_true_iff in SH. destruct SH as [SH _]. apply below_lt in SH.
    exact (NOTICED n b ops x K D (cons_null_flag b A (item_not_rule b (proj2 SH)))).
  - discriminate.
  - destruct w; discriminate.
  - destruct u; discriminate.
  - destruct u; discriminate.
  - discriminate.
Qed.
Lemma eps_of_null n : derives n [] -> (forall i s, kind n <> NEvolve i s) -> eps g t n = true.
Proof. intros D K. apply cons_null_flag; [|exact K]. apply (null_complete n [] D eq_refl). Qed.

Lemma OPERANDS : operands_not_empty g.
Proof.
  intros n b ops x K D. assert (SH : shape g n = true) by (apply shaped; rewrite K; discriminate). unfold shape in SH. rewrite K in SH.
  destruct (inside g n); [|discriminate]. apply andb_true_iff in SH. destruct SH as [SH _]. apply below_lt in SH.
  exact (NOTICED n b ops x K D (eps_of_null b D (item_not_rule b (proj2 SH)))).
Qed.
Lemma oper_nonempty n b ops x w : kind n = NOper b ops x -> derives n w -> w <> [].
Proof.
  intros K D E. subst w. inversion D; subst; try congruence.
  - eapply OPERANDS; [eassumption|]. replace b with b0 by congruence. assumption.
  - destruct w; discriminate.
  - destruct u; discriminate.
  - destruct u; discriminate.
Qed.

(** ** First tokens *)
Lemma sub_tok b d s x : sub b d s -> kind x = NTerm -> t s x = true -> t d x = true.
Proof.
  intros S0 K H. apply S0; [apply kind_lt; rewrite K; discriminate|exact H|]. unfold is_zero. rewrite K. apply andb_false_r.
Qed.
Lemma derives_terms n w : derives n w -> forall x, In x w -> kind x = NTerm.
Proof.
  assert (OPS : forall n b ops x o, kind n = NOper b ops x -> In o ops ->
    match o with OPre t | OPost t | OBin t => kind t = NTerm | OTern s t | OParen s t => kind s = NTerm /\ kind t = NTerm end).
  { intros n0 b ops x o K I. assert (SH : shape g n0 = true) by (apply shaped; rewrite K; discriminate).
    unfold shape in SH. rewrite K in SH. destruct (inside g n0); [|discriminate]. apply andb_true_iff in SH. destruct SH as [_ SH].
    assert (TK : forall t0, is_tok g t0 = true -> kind t0 = NTerm).
    { intros t0. unfold is_tok, is_term. rewrite andb_true_iff. intros [_ H]. destruct (kind t0); congruence. }
    clear K. revert SH I. generalize x at 2. intros y. revert y.
    induction ops as [|o' ops IH]; intros y SH I; [destruct I|]. cbn [chain] in SH. apply andb_true_iff in SH. destruct SH as [_ SH].
    destruct (kind y) as [| | |s|s|i c a|i c a|ii|l r|l r|i s|tt c|i|i|bb oo xx|]; try discriminate. repeat rewrite andb_true_iff in SH. destruct SH as [[_ SP] CH].
    destruct I as [<- | I]; [|eapply IH; eassumption].
    destruct o' as [u|u|u|u v|u v]; unfold spells in SP; repeat rewrite andb_true_iff in SP;
      [destruct SP as [SP _]; apply TK; exact SP|destruct SP as [SP _]; apply TK; exact SP|destruct SP as [SP _]; apply TK; exact SP| |];
      (destruct SP as [[SP1 SP2] _]; split; apply TK; assumption). }
  induction 1; intros z Hz; auto.
  - destruct Hz.
  - destruct Hz as [<- | []]. assumption.
  - apply in_app_or in Hz. destruct Hz; auto.
  - destruct Hz.
  - apply in_app_or in Hz. destruct Hz; auto.
  - destruct Hz.
  - apply in_app_or in Hz. destruct Hz; auto.
  - destruct Hz as [<- | Hz]; [apply (OPS _ _ _ _ _ H H0)|auto].
  - apply in_app_or in Hz. destruct Hz as [Hz|[<- | []]]; [auto|apply (OPS _ _ _ _ _ H H0)].
  - apply in_app_or in Hz. destruct Hz as [Hz|[<- | Hz]]; [auto|apply (OPS _ _ _ _ _ H H0)|auto].
  - apply in_app_or in Hz. destruct Hz as [Hz|[<- | Hz]]; [auto|apply (OPS _ _ _ _ _ H H0)|].
    apply in_app_or in Hz. destruct Hz as [Hz|[<- | Hz]]; [auto|apply (OPS _ _ _ _ _ H H0)|auto].
  - destruct Hz as [<- | Hz]; [apply (OPS _ _ _ _ _ H H0)|]. apply in_app_or in Hz.
    destruct Hz as [Hz|[<- | []]]; [auto|apply (OPS _ _ _ _ _ H H0)].
Qed.
Lemma oper_shape n b ops x : kind n = NOper b ops x -> inside g n = true /\ below g b n = true /\ chain g x x b ops = true.
Proof.
  intros K. assert (SH : shape g n = true) by (apply shaped; rewrite K; discriminate).
  unfold shape in SH. rewrite K in SH. destruct (inside g n); [|discriminate]. apply andb_true_iff in SH. tauto.
Qed.
Lemma tok_in x : is_tok g x = true -> In x (gterms g) /\ kind x = NTerm.
Proof.
  unfold is_tok, is_term. rewrite andb_true_iff. intros [I K].
  assert (KT : kind x = NTerm) by (destruct (kind x); congruence). split; [|exact KT].
  assert (SH : shape g x = true) by (apply shaped; rewrite KT; discriminate). unfold shape in SH. rewrite I, KT in SH.
  apply mem_in. exact SH.
Qed.
Lemma term_first x : In x (gterms g) -> t x x = true.
Proof. intros I. apply GROWN. unfold first_init. rewrite Nat.eqb_refl. apply mem_in in I. rewrite I. apply orb_true_r. Qed.
Definition op_left (top : id) (o : op) : id := match o with OPre s => s | OParen s _ => s | _ => top end.
Lemma spells_left top l o : spells g top l o = true -> exists r, kind l = NCons (op_left top o) r.
Proof.
  destruct o as [u|u|u|u v|u v]; unfold spells; repeat rewrite andb_true_iff; cbn [op_left].
  - intros [_ H]. apply is_cons_kind in H. eauto.
  - intros [_ H]. apply is_cons_kind in H. eauto.
  - intros [_ H]. destruct (kind l); try discriminate. repeat rewrite andb_true_iff in H. destruct H as [[H _] _]. apply Nat.eqb_eq in H. subst; eauto.
  - intros [_ H]. destruct (kind l); try discriminate. repeat rewrite andb_true_iff in H. destruct H as [[H _] _]. apply Nat.eqb_eq in H. subst; eauto.
  - intros [_ H]. destruct (kind l); try discriminate. repeat rewrite andb_true_iff in H. destruct H as [[H _] _]. apply Nat.eqb_eq in H. subst; eauto.
Qed.
Lemma spells_toks top l o : spells g top l o = true ->
  match o with OPre s | OPost s | OBin s => is_tok g s = true | OTern s u | OParen s u => is_tok g s = true /\ is_tok g u = true end.
Proof. destruct o as [u|u|u|u v|u v]; unfold spells; repeat rewrite andb_true_iff; tauto. Qed.
Lemma cons_left n l r x : met n -> kind n = NCons l r -> kind x = NTerm -> t l x = true -> t n x = true.
Proof.
  intros M K KX H. destruct (met_local n M) as (b & L). unfold local in L. rewrite K in L. exact (sub_tok _ n l x (proj1 L) KX H).
Qed.
Lemma alt_either n l r x : met n -> kind n = NAlt l r \/ kind n = NTry l (Some r) -> kind x = NTerm -> t l x = true \/ t r x = true -> t n x = true.
Proof.
  intros M K KX H. destruct (met_local n M) as (b & L). unfold local in L.
  destruct K as [K|K]; rewrite K in L; (destruct H as [H|H]; [exact (sub_tok _ n l x (proj1 L) KX H)|exact (sub_tok _ n r x (proj2 L) KX H)]).
Qed.
Lemma chain_parts top b ops : forall n, chain g top n b ops = true -> met n ->
  (met b /\ forall x, kind x = NTerm -> t b x = true -> t n x = true) /\
  (forall o, In o ops -> exists l, spells g top l o = true /\ met l /\ forall x, kind x = NTerm -> t l x = true -> t n x = true).
Proof.
  induction ops as [|o ops IH]; intros n C M; cbn [chain] in C.
  - apply Nat.eqb_eq in C. subst n. split; [split; [exact M|auto]|intros o []].
  - apply andb_true_iff in C. destruct C as [_ C].
    destruct (kind n) as [| | |s|s|i c a|i c a|ii|l r|l r|i s|tt c|i|i|bb oo xx|] eqn:K; try discriminate.
    repeat rewrite andb_true_iff in C. destruct C as [[_ SP] C].
    assert (Ml : met l) by (apply (met_kid n); [exact M|unfold kids; rewrite K; left; reflexivity]).
    assert (Mr : met r) by (apply (met_kid n); [exact M|unfold kids; rewrite K; right; left; reflexivity]).
    destruct (IH r C Mr) as ((Mb & Hb) & Ho). split.
    + split; [exact Mb|]. intros x KX H. apply (alt_either n l r x M (or_introl K) KX). right. apply Hb; assumption.
    + intros o' [<- | I].
      * exists l. split; [exact SP|]. split; [exact Ml|]. intros x KX H. apply (alt_either n l r x M (or_introl K) KX). left. exact H.
      * destruct (Ho o' I) as (l' & SP' & Ml' & H'). exists l'. split; [exact SP'|]. split; [exact Ml'|].
        intros x KX H. apply (alt_either n l r x M (or_introl K) KX). right. apply H'; assumption.
Qed.
Lemma oper_first n b ops x y : met n -> kind n = NOper b ops x -> kind y = NTerm -> t x y = true -> t n y = true.
Proof.
  intros M K KY H. destruct (met_local n M) as (f & L). unfold local in L. rewrite K in L. exact (sub_tok _ n x y L KY H).
Qed.
Lemma kid_of n m : met n -> In m (kids n) -> met m. Proof. apply met_kid. Qed.

Lemma first_complete : forall n w, derives n w -> forall x w', w = x :: w' -> kind n = NSym \/ met n ->
  t n x = true /\ (forall b ops top, kind n = NOper b ops top -> t top x = true).
Proof.
  intros n w D0.
  assert (TERMS : forall n w x w', derives n w -> w = x :: w' -> kind x = NTerm).
  { intros n0 w0 x w' D E. apply (derives_terms n0 w0 D). rewrite E. left; reflexivity. }
  induction D0 as [n K|n K|s e i w Ks He Ke D IH|e i s w Ke D IH|n s w K D IH|n s w K D IH
    |n i c a w K D IH|n i c a u w K Du IHu Dw IHw|n i c a K|n i c a u w K Du IHu Dw IHw
    |n K|n i w K D IH|n l r w K D IH|n l r w K D IH|n l r u w K Du IHu Dw IHw
    |n tt c w K D IH|n tt c w K D IH|n i w K D IH|n i w K D IH
    |n b ops x w K D IH|n b ops x tk w K I D IH|n b ops x tk w K I D IH|n b ops x tk u w K I Du IHu Dw IHw
    |n b ops x s0 t0 u v w K I Du IHu Dv IHv Dw IHw|n b ops x s0 t0 w K I D IH]; intros y w' W MM;
  try discriminate.
  - (* terminal *)
    injection W as <- <-. destruct MM as [MM|MM]; [congruence|]. split; [|intros; congruence].
    apply term_first. apply met_term; assumption.
  - (* symbol *)
    split; [|intros; congruence]. pose proof (TERMS _ _ _ _ D W) as KY.
    assert (Me : met e) by (apply met_rule; exact He).
    assert (Mi : met i) by (apply (met_kid e); [exact Me|unfold kids; rewrite Ke; left; reflexivity]).
    destruct (IH y w' W (or_intror Mi)) as [H _]. destruct (met_local e Me) as (f & L). unfold local in L. rewrite Ke in L.
    apply (sub_tok f s e y (proj2 L) KY). apply (sub_tok f e i y (proj1 L) KY). exact H.
  - (* rule *)
    split; [|intros; congruence]. pose proof (TERMS _ _ _ _ D W) as KY. destruct MM as [MM|MM]; [congruence|].
    assert (Mi : met i) by (apply (met_kid e); [exact MM|unfold kids; rewrite Ke; left; reflexivity]).
    destruct (IH y w' W (or_intror Mi)) as [H _]. destruct (met_local e MM) as (f & L). unfold local in L. rewrite Ke in L.
    apply (sub_tok f e i y (proj1 L) KY). exact H.
  - (* nonterminals *)
    split; [|intros; congruence]. pose proof (TERMS _ _ _ _ D W) as KY. destruct MM as [MM|MM]; [congruence|].
    assert (SH : shape g n = true) by (apply shaped; rewrite K; discriminate).
    unfold shape in SH. rewrite K in SH. destruct (inside g n); [|discriminate].
    assert (Ks : kind s = NSym) by (unfold is_sym in SH; apply andb_true_iff in SH; destruct SH as [_ SH]; destruct (kind s); congruence).
    destruct (IH y w' W (or_introl Ks)) as [H _]. destruct (met_local n MM) as (f & L). unfold local in L. rewrite K in L.
    exact (sub_tok f n s y L KY H).
  - split; [|intros; congruence]. pose proof (TERMS _ _ _ _ D W) as KY. destruct MM as [MM|MM]; [congruence|].
    assert (SH : shape g n = true) by (apply shaped; rewrite K; discriminate).
    unfold shape in SH. rewrite K in SH. destruct (inside g n); [|discriminate].
    assert (Ks : kind s = NSym) by (unfold is_sym in SH; apply andb_true_iff in SH; destruct SH as [_ SH]; destruct (kind s); congruence).
    destruct (IH y w' W (or_introl Ks)) as [H _]. destruct (met_local n MM) as (f & L). unfold local in L. rewrite K in L.
    exact (sub_tok f n s y L KY H).
  - (* plus *)
    split; [|intros; congruence]. pose proof (TERMS _ _ _ _ D W) as KY. destruct MM as [MM|MM]; [congruence|].
    destruct (star_shape n i c a (or_intror K)) as (_ & _ & KC & KA).
    assert (Mc : met c) by (apply (met_kid n); [exact MM|unfold kids; rewrite K; left; reflexivity]).
    assert (Mi : met i) by (apply (met_kid c); [exact Mc|unfold kids; rewrite KC; left; reflexivity]).
    destruct (IH y w' W (or_intror Mi)) as [H _]. destruct (met_local n MM) as (f & L). unfold local in L. rewrite K in L.
    apply (sub_tok f n c y L KY). exact (cons_left c i a y Mc KC KY H).
  - split; [|intros; congruence].
    destruct u as [|y' u]; [apply (IHw y w' W MM)|]. injection W as W1 W2. subst y'. pose proof (TERMS _ _ _ _ Du eq_refl) as KY. destruct MM as [MM|MM]; [congruence|].
    destruct (star_shape n i c a (or_intror K)) as (_ & _ & KC & KA).
    assert (Mc : met c) by (apply (met_kid n); [exact MM|unfold kids; rewrite K; left; reflexivity]).
    assert (Mi : met i) by (apply (met_kid c); [exact Mc|unfold kids; rewrite KC; left; reflexivity]).
    destruct (IHu y u eq_refl (or_intror Mi)) as [H _]. destruct (met_local n MM) as (f & L). unfold local in L. rewrite K in L.
    apply (sub_tok f n c y L KY). exact (cons_left c i a y Mc KC KY H).
  - (* star *)
    split; [|intros; congruence].
    destruct u as [|y' u]; [apply (IHw y w' W MM)|]. injection W as W1 W2. subst y'. pose proof (TERMS _ _ _ _ Du eq_refl) as KY. destruct MM as [MM|MM]; [congruence|].
    destruct (star_shape n i c a (or_introl K)) as (_ & _ & KC & KA).
    assert (Ma : met a) by (apply (met_kid n); [exact MM|unfold kids; rewrite K; left; reflexivity]).
    assert (Mc : met c) by (apply (met_kid a); [exact Ma|unfold kids; rewrite KA; right; left; reflexivity]).
    assert (Mi : met i) by (apply (met_kid c); [exact Mc|unfold kids; rewrite KC; left; reflexivity]).
    destruct (IHu y u eq_refl (or_intror Mi)) as [H _]. destruct (met_local n MM) as (f & L). unfold local in L. rewrite K in L.
    apply (sub_tok f n a y L KY). apply (alt_either a (gzero g) c y Ma (or_introl KA) KY). right.
    exact (cons_left c i a y Mc KC KY H).
  - (* action *)
    split; [|intros; congruence]. pose proof (TERMS _ _ _ _ D W) as KY. destruct MM as [MM|MM]; [congruence|].
    assert (Mi : met i) by (apply (met_kid n); [exact MM|unfold kids; rewrite K; left; reflexivity]).
    destruct (IH y w' W (or_intror Mi)) as [H _]. destruct (met_local n MM) as (f & L). unfold local in L. rewrite K in L.
    exact (sub_tok f n i y L KY H).
  - (* alternatives *)
    split; [|intros; congruence]. pose proof (TERMS _ _ _ _ D W) as KY. destruct MM as [MM|MM]; [congruence|].
    assert (Mi : met l) by (apply (met_kid n); [exact MM|unfold kids; rewrite K; left; reflexivity]).
    destruct (IH y w' W (or_intror Mi)) as [H _]. apply (alt_either n l r y MM (or_introl K) KY). left; exact H.
  - split; [|intros; congruence]. pose proof (TERMS _ _ _ _ D W) as KY. destruct MM as [MM|MM]; [congruence|].
    assert (Mi : met r) by (apply (met_kid n); [exact MM|unfold kids; rewrite K; right; left; reflexivity]).
    destruct (IH y w' W (or_intror Mi)) as [H _]. apply (alt_either n l r y MM (or_introl K) KY). right; exact H.
  - (* sequence *)
    split; [|intros; congruence]. destruct MM as [MM|MM]; [congruence|].
    assert (Ml : met l) by (apply (met_kid n); [exact MM|unfold kids; rewrite K; left; reflexivity]).
    assert (Mr : met r) by (apply (met_kid n); [exact MM|unfold kids; rewrite K; right; left; reflexivity]).
    destruct u as [|y' u].
    + destruct (IHw y w' W (or_intror Mr)) as [H _]. pose proof (TERMS _ _ _ _ Dw W) as KY.
      destruct (met_local n MM) as (f & L). unfold local in L. rewrite K in L.
      destruct (binary_items n l r (or_intror (or_introl K))) as (Il & Ir).
      exact (sub_tok _ n r y (proj2 L (eps_of_null l Du (item_not_rule l Il))) KY H).
    + injection W as W1 W2. subst y'. pose proof (TERMS _ _ _ _ Du eq_refl) as KY.
      destruct (IHu y u eq_refl (or_intror Ml)) as [H _]. exact (cons_left n l r y MM K KY H).
  - (* try *)
    split; [|intros; congruence]. pose proof (TERMS _ _ _ _ D W) as KY. destruct MM as [MM|MM]; [congruence|].
    assert (Mi : met tt) by (apply (met_kid n); [exact MM|unfold kids; rewrite K; destruct c; left; reflexivity]).
    destruct (IH y w' W (or_intror Mi)) as [H _].
    destruct c as [c|]; [apply (alt_either n tt c y MM (or_intror K) KY); left; exact H|].
    destruct (met_local n MM) as (f & L). unfold local in L. rewrite K in L. exact (sub_tok f n tt y L KY H).
  - split; [|intros; congruence]. pose proof (TERMS _ _ _ _ D W) as KY. destruct MM as [MM|MM]; [congruence|].
    assert (Mi : met c) by (apply (met_kid n); [exact MM|unfold kids; rewrite K; right; left; reflexivity]).
    destruct (IH y w' W (or_intror Mi)) as [H _]. apply (alt_either n tt c y MM (or_intror K) KY). right; exact H.
  - (* annotation, condition *)
    split; [|intros; congruence]. pose proof (TERMS _ _ _ _ D W) as KY. destruct MM as [MM|MM]; [congruence|].
    assert (Mi : met i) by (apply (met_kid n); [exact MM|unfold kids; rewrite K; left; reflexivity]).
    destruct (IH y w' W (or_intror Mi)) as [H _]. destruct (met_local n MM) as (f & L). unfold local in L. rewrite K in L.
    exact (sub_tok f n i y L KY H).
  - split; [|intros; congruence]. pose proof (TERMS _ _ _ _ D W) as KY. destruct MM as [MM|MM]; [congruence|].
    assert (Mi : met i) by (apply (met_kid n); [exact MM|unfold kids; rewrite K; left; reflexivity]).
    destruct (IH y w' W (or_intror Mi)) as [H _]. destruct (met_local n MM) as (f & L). unfold local in L. rewrite K in L.
    exact (sub_tok f n i y L KY H).
  - (* operators *)
    pose proof (TERMS _ _ _ _ D W) as KY. destruct MM as [MM|MM]; [congruence|].
    destruct (oper_shape n b ops x K) as (_ & _ & CH).
    assert (Mx : met x) by (apply (met_kid n); [exact MM|unfold kids; rewrite K; left; reflexivity]).
    destruct (chain_parts x b ops x CH Mx) as ((Mb & Hb) & Ho).
    assert (X : t x y = true) by (apply Hb; [exact KY|]; apply (IH y w' W (or_intror Mb))).
    split; [apply (oper_first n b ops x y MM K KY X)|intros b' ops' top K'; congruence].
  - destruct MM as [MM|MM]; [congruence|]. destruct (oper_shape n b ops x K) as (_ & _ & CH).
    assert (Mx : met x) by (apply (met_kid n); [exact MM|unfold kids; rewrite K; left; reflexivity]).
    destruct (chain_parts x b ops x CH Mx) as ((Mb & Hb) & Ho). destruct (Ho _ I) as (l & SP & Ml & HL).
    injection W as <- _. pose proof (spells_toks x l _ SP) as TK. apply tok_in in TK. destruct TK as [TI KY].
    destruct (spells_left x l _ SP) as (r & KL). cbn [op_left] in KL.
    assert (X : t x tk = true) by (apply HL; [exact KY|]; apply (cons_left l tk r tk Ml KL KY); apply term_first; exact TI).
    split; [apply (oper_first n b ops x tk MM K KY X)|intros b' ops' top K'; congruence].
  - destruct w as [|y' w]; [exfalso; eapply oper_nonempty; [exact K|exact D|reflexivity]|].
    injection W as W1 W2. subst y'. pose proof (TERMS _ _ _ _ D eq_refl) as KY. destruct (IH y w eq_refl MM) as [H1 H2].
    split; [exact H1|]. intros b' ops' top K'. eapply H2; exact K'.
  - destruct u as [|y' u]; [exfalso; eapply oper_nonempty; [exact K|exact Du|reflexivity]|].
    injection W as W1 W2. subst y'. destruct (IHu y u eq_refl MM) as [H1 H2].
    split; [exact H1|]. intros b' ops' top K'. eapply H2; exact K'.
  - destruct u as [|y' u]; [exfalso; eapply oper_nonempty; [exact K|exact Du|reflexivity]|].
    injection W as W1 W2. subst y'. destruct (IHu y u eq_refl MM) as [H1 H2].
    split; [exact H1|]. intros b' ops' top K'. eapply H2; exact K'.
  - destruct MM as [MM|MM]; [congruence|]. destruct (oper_shape n b ops x K) as (_ & _ & CH).
    assert (Mx : met x) by (apply (met_kid n); [exact MM|unfold kids; rewrite K; left; reflexivity]).
    destruct (chain_parts x b ops x CH Mx) as ((Mb & Hb) & Ho). destruct (Ho _ I) as (l & SP & Ml & HL).
    injection W as <- _. pose proof (spells_toks x l _ SP) as TK. destruct TK as [TK _]. apply tok_in in TK. destruct TK as [TI KY].
    destruct (spells_left x l _ SP) as (r & KL). cbn [op_left] in KL.
    assert (X : t x s0 = true) by (apply HL; [exact KY|]; apply (cons_left l s0 r s0 Ml KL KY); apply term_first; exact TI).
    split; [apply (oper_first n b ops x s0 MM K KY X)|intros b' ops' top K'; congruence].
Qed.
End G.
Lemma noticed g t : operands_not_empty g -> forall n b ops x, kind g n = NOper b ops x -> derives g b [] -> eps g t b = true -> False.
Proof. intros O n b ops x K D _. exact (O n b ops x K D). Qed.
