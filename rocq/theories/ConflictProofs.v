(** What the conflict checks report. *)
From Coq Require Import List Bool PeanoNat Lia.
From Verif Require Import Base GrammarModel GrammarSpec GrammarProofs FirstProofs FollowProofs FirstSoundProofs FollowSoundProofs GrammarLoopProofs ParserModel ParserSpec ParserProofs CheckerModel CheckerProofs ConflictSpec.
Import ListNotations.

Lemma also_warn a b l : also a b = Warn l -> exists x y, a = Warn x /\ b = Warn y /\ l = x ++ y.
Proof. destruct a as [x| |]; cbn; try discriminate. destruct b as [y| |]; try discriminate. intros E. injection E as <-. eauto. Qed.
Lemma fold_warn l : forall a z, fold_left also l a = Warn z -> exists x, a = Warn x /\ incl x z /\ forall b, In b l -> exists y, b = Warn y /\ incl y z.
Proof.
  induction l as [|x l IH]; intros a z E; cbn [fold_left] in E.
  - exists z. split; [exact E|]. split; [apply incl_refl|]. intros b [].
  - destruct (IH _ _ E) as (u & A & I & B). destruct (also_warn _ _ _ A) as (v & y & -> & -> & ->). exists v. split; [reflexivity|].
    split; [intros k Hk; apply I, in_or_app; auto|]. intros b [<- | Hb]; [|auto]. exists y. split; [reflexivity|]. intros k Hk. apply I, in_or_app. auto.
Qed.
Lemma warn_if_in c n l m : warn_if c n = Warn l -> In m l -> c = true /\ m = n.
Proof. unfold warn_if. intros E. injection E as <-. destruct c; [intros [<- | []]; auto|intros []]. Qed.
Lemma warn_if_put n l : warn_if true n = Warn l -> In n l.
Proof. intros E. injection E as <-. left. reflexivity. Qed.

Section G.
Variable g : grammar.
Variables first follow : table.
Notation kind := (kind g).
Hypothesis WF : well_formed g = true.

Lemma meet_some a b : meet g a b = true <-> exists x, x < size g /\ a x = true /\ b x = true.
Proof.
  unfold meet. rewrite existsb_exists. split.
  - intros (x & I & H). apply in_seq in I. apply andb_true_iff in H. exists x. split; [lia|exact H].
  - intros (x & L & H). exists x. split; [apply in_seq; lia|apply andb_true_iff; exact H].
Qed.
Lemma term_lt x : kind x = NTerm -> x < size g.
Proof. intros K. apply kind_lt. rewrite K. discriminate. Qed.

(** ** Everything in the rule is visited *)
Lemma part_step e n : part g e n -> e = n \/ exists m, child g e m /\ (forall b ops x, kind e <> NOper b ops x) /\ part g m n.
Proof.
  induction 1 as [|n m P IH C N]; [auto|]. right. destruct IH as [-> | (k & C' & N' & P')].
  - exists m. split; [exact C|]. split; [exact N|]. apply p_self.
  - exists k. split; [exact C'|]. split; [exact N'|]. eapply p_child; eassumption.
Qed.
Lemma part_in e m n : child g e m -> (forall b ops x, kind e <> NOper b ops x) -> part g m n -> part g e n.
Proof. intros C N P. induction P as [|n k P IH C' N']; [eapply p_child; [apply p_self|exact C|exact N]|eapply p_child; eassumption]. Qed.

Lemma part_stop e n : part g e n -> (forall m, ~ child g e m) \/ (exists b ops x, kind e = NOper b ops x) -> e = n.
Proof. intros P H. destruct (part_step e n P) as [Q | (m & C & N & _)]; [exact Q|]. destruct H as [H|(b & ops & x & K)]; [destruct (H m C)|destruct (N _ _ _ K)]. Qed.
Definition flagged (n : id) : bool :=
  let clash := meet g (first n) (follow n) in
  match kind n with
  | NStar _ _ _ => clash
  | NPlus _ _ _ | NCons _ _ => eps g first n && clash
  | NAlt _ r => match zero_item g (S r) r with Some false => eps g first n && clash | _ => false end
  | _ => false
  end.
Lemma one_child e m n c : (forall x, child g e x <-> x = m) -> (forall b ops x, kind e <> NOper b ops x) ->
  (part g e n /\ c n = true <-> part g m n /\ c n = true \/ n = e /\ c e = true).
Proof.
  intros CH N. split.
  - intros (P & F). destruct (part_step e n P) as [<- | (k & C & _ & P')]; [auto|]. apply CH in C. subst k. auto.
  - intros [(P & F)|(-> & F)]; (split; [|exact F]); [eapply part_in; [apply CH; reflexivity|exact N|exact P]|apply p_self].
Qed.
Lemma two_child e a b n c : (forall x, child g e x <-> x = a \/ x = b) -> (forall b ops x, kind e <> NOper b ops x) ->
  (part g e n /\ c n = true <-> (part g a n /\ c n = true \/ part g b n /\ c n = true) \/ n = e /\ c e = true).
Proof.
  intros CH N. split.
  - intros (P & F). destruct (part_step e n P) as [<- | (k & C & _ & P')]; [auto|]. apply CH in C. destruct C as [-> | ->]; auto.
  - intros [[(P & F)|(P & F)]|(-> & F)]; (split; [|exact F]); [eapply part_in; [apply CH; left; reflexivity|exact N|exact P]|eapply part_in; [apply CH; right; reflexivity|exact N|exact P]|apply p_self].
Qed.
Lemma no_child e n c : (forall x, ~ child g e x) \/ (exists b ops x, kind e = NOper b ops x) -> c e = false -> (part g e n /\ c n = true <-> False).
Proof. intros H F. split; [|intros []]. intros (P & Q). rewrite <- (part_stop e n P H) in Q. congruence. Qed.
Lemma warn_if_iff c e l n : warn_if c e = Warn l -> (In n l <-> n = e /\ c = true).
Proof. unfold warn_if. intros E. injection E as <-. destruct c; cbn; split; intuition congruence. Qed.
Lemma fo_reports : forall k e l, first_follow g first follow k e = Warn l -> forall n, In n l <-> part g e n /\ flagged n = true.
Proof.
  induction k as [|k IH]; intros e l E n; [discriminate|]. cbn [first_follow] in E.
  assert (CH : forall m, child g e m <-> child g e m) by tauto. unfold child at 2 in CH.
  assert (FE : flagged e = flagged e) by reflexivity. unfold flagged at 2 in FE.
  destruct (kind e) as [| | |s|s|i c a|i c a|[i|]|a b|a b|i s|tt [c|]|i|i|bb ops x|] eqn:K;
    try (injection E as <-; rewrite (no_child e n flagged); [cbn; tauto|first [right; eauto; fail|left; intros m Hm; apply CH in Hm; exact Hm]|exact FE]);
    try (rewrite (one_child e i n flagged CH) by (intros; congruence));
    try (rewrite (one_child e tt n flagged CH) by (intros; congruence));
    try (rewrite (two_child e _ _ n flagged CH) by (intros; congruence));
    rewrite FE;
    try (rewrite <- (IH _ _ E n); split; [auto|intros [H|[_ H]]; [exact H|discriminate]]);
    apply also_warn in E; destruct E as (x1 & y1 & E & E' & ->); rewrite in_app_iff.
  - rewrite (IH _ _ E n), (warn_if_iff _ _ _ n E'). tauto.
  - rewrite (IH _ _ E n), (warn_if_iff _ _ _ n E'). tauto.
  - apply also_warn in E. destruct E as (x2 & y2 & E1 & E2 & ->). rewrite in_app_iff, (IH _ _ E1 n), (IH _ _ E2 n).
    destruct (zero_item g (S b) b) as [[|]|]; [injection E' as <-; cbn; intuition congruence|rewrite (warn_if_iff _ _ _ n E'); tauto|discriminate].
  - apply also_warn in E. destruct E as (x2 & y2 & E1 & E2 & ->). rewrite in_app_iff, (IH _ _ E1 n), (IH _ _ E2 n), (warn_if_iff _ _ _ n E'). tauto.
  - rewrite (IH _ _ E n), (IH _ _ E' n). intuition congruence.
Qed.

(** FIRST/FIRST: what is reported. *)
Definition ff_flagged (n : id) : bool :=
  match kind n with
  | NAlt a b => meet g (first a) (first b)
  | NEvolve _ s => existsb (fun e => negb (Nat.eqb n e) && meet g (first e) (first n)) (env g s)
  | _ => false
  end.
Lemma fold_iff (n : id) (c : id -> bool) (es : list id) : forall a l, fold_left also (map (fun e => warn_if (c e) n) es) a = Warn l -> exists x, a = Warn x /\ forall m, In m l <-> In m x \/ m = n /\ existsb c es = true.
Proof.
  induction es as [|e es IH]; intros a l E; cbn [map fold_left existsb] in *.
  - exists l. split; [exact E|]. intros m. split; [auto|]. intros [H|[_ H]]; [exact H|discriminate].
  - destruct (IH _ _ E) as (x & A & H). destruct (also_warn _ _ _ A) as (u & v & -> & W & ->). exists u. split; [reflexivity|].
    intros m. rewrite H, in_app_iff, (warn_if_iff _ _ _ m W), orb_true_iff. tauto.
Qed.
Lemma ff_reports : forall k e l, first_first g first k e = Warn l -> forall n, In n l <-> part g e n /\ ff_flagged n = true.
Proof.
  induction k as [|k IH]; intros e l E n; [discriminate|]. cbn [first_first] in E.
  assert (CH : forall m, child g e m <-> child g e m) by tauto. unfold child at 2 in CH.
  assert (FE : ff_flagged e = ff_flagged e) by reflexivity. unfold ff_flagged at 2 in FE.
  destruct (kind e) as [| | |s|s|i c a|i c a|[i|]|a b|a b|i s|tt [c|]|i|i|bb ops x|] eqn:K;
    try (injection E as <-; rewrite (no_child e n ff_flagged); [cbn; tauto|first [right; eauto; fail|left; intros m Hm; apply CH in Hm; exact Hm]|exact FE]);
    try (rewrite (one_child e i n ff_flagged CH) by (intros; congruence));
    try (rewrite (one_child e tt n ff_flagged CH) by (intros; congruence));
    try (rewrite (two_child e _ _ n ff_flagged CH) by (intros; congruence));
    rewrite FE;
    try (rewrite <- (IH _ _ E n); split; [auto|intros [H|[_ H]]; [exact H|discriminate]]).
  - apply also_warn in E; destruct E as (x1 & y1 & E & E' & ->). apply also_warn in E. destruct E as (x2 & y2 & E1 & E2 & ->).
    rewrite !in_app_iff, (IH _ _ E1 n), (IH _ _ E2 n), (warn_if_iff _ _ _ n E'). tauto.
  - apply also_warn in E; destruct E as (x1 & y1 & E & E' & ->). rewrite in_app_iff, (IH _ _ E n), (IH _ _ E' n). intuition congruence.
  - destruct (fold_iff _ _ _ _ _ E) as (x & A & H). rewrite H, (IH _ _ A n). tauto.
  - apply also_warn in E; destruct E as (x1 & y1 & E & E' & ->). rewrite in_app_iff, (IH _ _ E n), (IH _ _ E' n). intuition congruence.
Qed.

(** isZero. *)
Lemma zero_nothing : forall f n, n < f -> inside g n = true -> (zero_item g f n = Some true <-> nothing g n).
Proof.
  induction f as [|f IH]; intros n L I; [lia|]. cbn [zero_item].
  assert (SH : kind n <> NOther -> shape g n = true) by apply (shaped g WF). unfold shape in SH. rewrite I in SH.
  assert (ST : forall i, below g i n = true -> (zero_item g f i = Some true <-> nothing g i)).
  { intros i B. apply IH; [|eapply below_inside; eassumption]. unfold below in B. apply andb_true_iff in B. destruct B as [B _]. apply Nat.ltb_lt in B. lia. }
  destruct (kind n) as [| | |s|s|i c a|i c a|[i|]|a b|a b|i s|tt [c|]|i|i|bb ops x|] eqn:K; try specialize (SH ltac:(discriminate));
    try (split; [discriminate|intros H; inversion H; congruence]).
  - split; [intros _; apply no_zero; exact K|reflexivity].
  - repeat rewrite andb_true_iff in SH. rewrite (ST i) by tauto. split; [intros H; eapply no_plus; eassumption|]. intros H; inversion H; congruence.
  - repeat rewrite andb_true_iff in SH. rewrite (ST i) by tauto. split; [intros H; eapply no_star; eassumption|]. intros H; inversion H; congruence.
  - rewrite (ST i SH). split; [intros H; eapply no_act; eassumption|]. intros H; inversion H; congruence.
  - rewrite (ST i SH). split; [intros H; eapply no_ann; eassumption|]. intros H; inversion H; congruence.
  - rewrite (ST i SH). split; [intros H; eapply no_cond; eassumption|]. intros H; inversion H; congruence.
Qed.
Lemma part_written e n : In e (grules g) -> part g e n -> written g n.
Proof. intros H P. induction P as [|n m P IH C _]; [apply w_rule; exact H|eapply w_child; eassumption]. Qed.

(** ** Where the checks end *)
Lemma zero_code : forall f n, n < f -> inside g n = true -> (zero_item g f n = None <-> only_code g n).
Proof.
  induction f as [|f IH]; intros n L I; [lia|]. cbn [zero_item].
  assert (SH : kind n <> NOther -> shape g n = true) by apply (shaped g WF). unfold shape in SH. rewrite I in SH.
  assert (ST : forall i, below g i n = true -> (zero_item g f i = None <-> only_code g i)).
  { intros i B. apply IH; [|eapply below_inside; eassumption]. unfold below in B. apply andb_true_iff in B. destruct B as [B _]. apply Nat.ltb_lt in B. lia. }
  destruct (kind n) as [| | |s|s|i c a|i c a|[i|]|a b|a b|i s|tt [c|]|i|i|bb ops x|] eqn:K; try specialize (SH ltac:(discriminate));
    try (split; [discriminate|intros H; inversion H; congruence]).
  - repeat rewrite andb_true_iff in SH. rewrite (ST i) by tauto. split; [intros H; eapply oc_plus; eassumption|]. intros H; inversion H; congruence.
  - repeat rewrite andb_true_iff in SH. rewrite (ST i) by tauto. split; [intros H; eapply oc_star; eassumption|]. intros H; inversion H; congruence.
  - rewrite (ST i SH). split; [intros H; eapply oc_act; eassumption|]. intros H; inversion H; congruence.
  - split; [intros _; apply oc_code; exact K|reflexivity].
  - rewrite (ST i SH). split; [intros H; eapply oc_ann; eassumption|]. intros H; inversion H; congruence.
  - rewrite (ST i SH). split; [intros H; eapply oc_cond; eassumption|]. intros H; inversion H; congruence.
Qed.
Lemma below_lt i n : below g i n = true -> i < n.
Proof. unfold below. rewrite andb_true_iff, Nat.ltb_lt. tauto. Qed.
Lemma below_in i n : below g i n = true -> inside g n = true -> inside g i = true.
Proof. intros B I. eapply below_inside; eassumption. Qed.
Lemma fold_ends (n : id) (c : id -> bool) es : forall x, exists l, fold_left also (map (fun e => warn_if (c e) n) es) (Warn x) = Warn l.
Proof. induction es as [|e es IH]; intros x; cbn [map fold_left]; [eauto|]. cbn [also warn_if]. apply IH. Qed.
Lemma inside_lt n : inside g n = true -> n < depth g.
Proof. intros I. unfold inside in I. apply Nat.ltb_lt in I. destruct (wf_parts g WF) as (L & _). unfold depth. lia. Qed.
Lemma first_first_ends : forall f n, n < f -> inside g n = true -> exists l, first_first g first f n = Warn l.
Proof.
  induction f as [|f IH]; intros n L I; [lia|]. cbn [first_first].
  assert (SH : kind n <> NOther -> shape g n = true) by apply (shaped g WF). unfold shape in SH. rewrite I in SH.
  assert (ST : forall i, below g i n = true -> exists l, first_first g first f i = Warn l).
  { intros i B. apply IH; [pose proof (below_lt i n B); lia|apply (below_in i n B I)]. }
  destruct (kind n) as [| | |s|s|i c a|i c a|[i|]|a b|a b|i s|tt [c|]|i|i|bb ops x|] eqn:K; try specialize (SH ltac:(discriminate)); repeat rewrite andb_true_iff in SH; eauto; try (apply ST; tauto).
  - destruct (ST a ltac:(tauto)) as (x & ->). destruct (ST b ltac:(tauto)) as (y & ->). cbn. eauto.
  - destruct (ST a ltac:(tauto)) as (x & ->). destruct (ST b ltac:(tauto)) as (y & ->). cbn. eauto.
  - destruct (ST i ltac:(tauto)) as (x & ->). apply fold_ends.
  - destruct (ST tt ltac:(tauto)) as (x & ->). destruct (ST c ltac:(tauto)) as (y & ->). cbn. eauto.
Qed.
Lemma undefined_ends : forall f n, n < f -> inside g n = true -> exists l, undefined g f n = Warn l.
Proof.
  induction f as [|f IH]; intros n L I; [lia|]. cbn [undefined].
  assert (SH : kind n <> NOther -> shape g n = true) by apply (shaped g WF). unfold shape in SH. rewrite I in SH.
  assert (ST : forall i, below g i n = true -> exists l, undefined g f i = Warn l).
  { intros i B. apply IH; [pose proof (below_lt i n B); lia|apply (below_in i n B I)]. }
  destruct (kind n) as [| | |s|s|i c a|i c a|[i|]|a b|a b|i s|tt [c|]|i|i|bb ops x|] eqn:K; try specialize (SH ltac:(discriminate)); repeat rewrite andb_true_iff in SH; unfold warn_if; eauto; try (apply ST; tauto).
  - destruct (ST a ltac:(tauto)) as (x & ->). destruct (ST b ltac:(tauto)) as (y & ->). cbn. eauto.
  - destruct (ST a ltac:(tauto)) as (x & ->). destruct (ST b ltac:(tauto)) as (y & ->). cbn. eauto.
  - destruct (ST i ltac:(tauto)) as (x & ->). cbn. eauto.
  - destruct (ST tt ltac:(tauto)) as (x & ->). destruct (ST c ltac:(tauto)) as (y & ->). cbn. eauto.
Qed.
Definition stops (e : id) : Prop := exists n a b, part g e n /\ kind n = NAlt a b /\ only_code g b.
Lemma also_ends a b P Q : ((exists l, a = Warn l) /\ ~ P \/ a = Null /\ P) -> ((exists l, b = Warn l) /\ ~ Q \/ b = Null /\ Q) ->
  (exists l, also a b = Warn l) /\ ~ (P \/ Q) \/ also a b = Null /\ (P \/ Q).
Proof. intros [((x & ->) & H)|(-> & H)] [((y & ->) & H')|(-> & H')]; cbn; try (right; tauto). left. split; [eauto|tauto]. Qed.
Lemma either_iff (a : checked) P Q : (P <-> Q) -> ((exists l, a = Warn l) /\ ~ P \/ a = Null /\ P) -> (exists l, a = Warn l) /\ ~ Q \/ a = Null /\ Q.
Proof. tauto. Qed.
Lemma warn_ends c n : (exists l, warn_if c n = Warn l) /\ ~ False \/ warn_if c n = Null /\ False.
Proof. left. split; [unfold warn_if; eauto|tauto]. Qed.
Lemma stops_none e : (forall m, ~ child g e m) \/ (exists b ops x, kind e = NOper b ops x) -> (forall a b, kind e <> NAlt a b) -> ~ stops e.
Proof. intros H N (n & a & b & P & K & _). rewrite <- (part_stop e n P H) in K. exact (N _ _ K). Qed.
Lemma stops_one e m : (forall x, child g e x <-> x = m) -> (forall b ops x, kind e <> NOper b ops x) -> (forall a b, kind e <> NAlt a b) -> (stops m <-> stops e).
Proof.
  intros CH N NA. split; intros (n & a & b & P & K & O); exists n, a, b.
  - split; [eapply part_in; [apply CH; reflexivity|exact N|exact P]|auto].
  - destruct (part_step e n P) as [<- | (k & C & _ & P')]; [destruct (NA _ _ K)|]. apply CH in C. subst k. auto.
Qed.
Lemma stops_two e c d : (forall x, child g e x <-> x = c \/ x = d) -> (forall b ops x, kind e <> NOper b ops x) -> ((stops c \/ stops d) \/ (exists a b, kind e = NAlt a b /\ only_code g b) <-> stops e).
Proof.
  intros CH N. split.
  - intros [[(n & a & b & P & K & O)|(n & a & b & P & K & O)]|(a & b & K & O)].
    + exists n, a, b. split; [eapply part_in; [apply CH; left; reflexivity|exact N|exact P]|auto].
    + exists n, a, b. split; [eapply part_in; [apply CH; right; reflexivity|exact N|exact P]|auto].
    + exists e, a, b. split; [apply p_self|auto].
  - intros (n & a & b & P & K & O). destruct (part_step e n P) as [<- | (k & C & _ & P')]; [right; eauto|]. apply CH in C. left. destruct C as [-> | ->]; [left|right]; exists n, a, b; auto.
Qed.
Lemma first_follow_ends : forall f n, n < f -> inside g n = true -> (exists l, first_follow g first follow f n = Warn l) /\ ~ stops n \/ first_follow g first follow f n = Null /\ stops n.
Proof.
  induction f as [|f IH]; intros n L I; [lia|]. cbn [first_follow].
  assert (SH : kind n <> NOther -> shape g n = true) by apply (shaped g WF). unfold shape in SH. rewrite I in SH.
  assert (ST : forall i, below g i n = true -> (exists l, first_follow g first follow f i = Warn l) /\ ~ stops i \/ first_follow g first follow f i = Null /\ stops i).
  { intros i B. apply IH; [pose proof (below_lt i n B); lia|apply (below_in i n B I)]. }
  assert (CH : forall m, child g n m <-> child g n m) by tauto. unfold child at 2 in CH.
  destruct (kind n) as [| | |s|s|i c a|i c a|[i|]|a b|a b|i s|tt [c|]|i|i|bb ops x|] eqn:K; try specialize (SH ltac:(discriminate)); repeat rewrite andb_true_iff in SH;
    try (left; split; [eauto|]; apply stops_none; [first [right; eauto; fail|left; intros m Hm; apply CH in Hm; exact Hm]|intros; congruence]);
    try (rewrite <- (stops_one n _ CH) by (intros; congruence); apply ST; tauto);
    try (rewrite <- (stops_two n _ _ CH) by (intros; congruence)).
  - rewrite <- (stops_one n _ CH) by (intros; congruence). eapply either_iff; [|apply also_ends; [apply ST; tauto|apply warn_ends]]. tauto.
  - rewrite <- (stops_one n _ CH) by (intros; congruence). eapply either_iff; [|apply also_ends; [apply ST; tauto|apply warn_ends]]. tauto.
  - apply also_ends; [apply also_ends; apply ST; tauto|]. destruct SH as (_ & SB). pose proof (zero_code (S b) b ltac:(lia) (below_in b n SB I)) as Z.
    assert (Q : (exists a0 b0, kind n = NAlt a0 b0 /\ only_code g b0) <-> only_code g b) by (split; [intros (a0 & b0 & E & O); rewrite K in E; injection E as -> ->; exact O|eauto]).
    rewrite Q, <- Z. destruct (zero_item g (S b) b) as [[|]|]; [left; split; [eauto|discriminate]|left; split; [unfold warn_if; eauto|discriminate]|auto].
  - apply also_ends; [apply also_ends; apply ST; tauto|]. left. split; [unfold warn_if; eauto|]. intros (a0 & b0 & E & _). congruence.
  - eapply either_iff; [|apply also_ends; apply ST; tauto]. split; [tauto|]. intros [H|(a0 & b0 & E & _)]; [exact H|congruence].
Qed.

Section T.
Hypothesis CO : code_has_company g.
Hypothesis OP : operands_not_empty g.
Variables rounds fuel : nat.
Hypothesis EF : compute_first g rounds fuel = Some first.
Lemma first_has n x u : kind n = NSym \/ written g n -> derives g n (x :: u) -> first n x = true.
Proof.
  intros W D. destruct (first_loop_some g _ _ _ _ EF) as [G Q]. apply (first_complete g WF first Q G CO (noticed g first OP) n (x :: u) D x u eq_refl).
  destruct W as [W|W]; [auto|right; apply (written_met g WF n W)].
Qed.
Lemma eps_has n : derives g n [] -> (forall i s, kind n <> NEvolve i s) -> eps g first n = true.
Proof. intros D K. destruct (first_loop_some g _ _ _ _ EF) as [G Q]. apply (eps_of_null g WF first Q G CO (noticed g first OP) n D K). Qed.
Lemma token x n u : kind n = NSym \/ written g n -> derives g n (x :: u) -> kind x = NTerm.
Proof.
  intros _ D. apply (derives_terms g WF n (x :: u) D x). left. reflexivity.
Qed.
Lemma same_meet a b : (kind a = NSym \/ written g a) -> (kind b = NSym \/ written g b) -> same_begin g a b -> meet g (first a) (first b) = true.
Proof.
  intros A B (x & u & v & D1 & D2). apply meet_some. exists x. split; [apply term_lt, (token x a u A D1)|]. split; [apply (first_has a x u A D1)|apply (first_has b x v B D2)].
Qed.
Theorem ff_reported e l : In e (grules g) -> first_first g first (depth g) e = Warn l ->
  (forall n a b, part g e n -> kind n = NAlt a b -> same_begin g a b -> In n l) /\
  (forall e' i i' s, In e' (grules g) -> e' <> e -> kind e = NEvolve i s -> kind e' = NEvolve i' s -> same_begin g e' e -> In e l).
Proof.
  intros He E. split.
  - intros n a b P K S0. apply (ff_reports _ _ _ E). split; [exact P|]. unfold ff_flagged. rewrite K.
    pose proof (part_written e n He P) as W. apply same_meet; [right; eapply w_child; [exact W|]..|exact S0]; unfold child; rewrite K; auto.
  - intros e' i i' s He' NE K K' S0. apply (ff_reports _ _ _ E). split; [apply p_self|]. unfold ff_flagged. rewrite K. apply existsb_exists. exists e'. split.
    + unfold env. apply -> in_rev. apply filter_In. split; [exact He'|]. unfold rule_of. rewrite K'. apply Nat.eqb_refl.
    + rewrite (same_meet e' e); [|right; apply w_rule; assumption..|exact S0]. rewrite andb_true_r. apply negb_true_iff, Nat.eqb_neq. congruence.
Qed.
Hypothesis EO : compute_follow g rounds fuel first = Some follow.
Lemma follow_has n w : occurs g n w -> kind (next g w) = NTerm /\ (kind n <> NTerm -> kind n <> NZero -> follow n (next g w) = true).
Proof.
  intros O. destruct (first_loop_some g _ _ _ _ EF) as [G Q]. destruct (follow_loop_some g first _ _ _ _ EO) as [G' Q'].
  destruct (follow_complete g WF first follow Q' Q G G' CO OP n w O) as [_ [KM KN]]. split; [exact KM|].
  intros K1 K2. apply KN. unfold plain, is_zero, is_term. destruct (kind n); try reflexivity; congruence.
Qed.
Lemma looked_flagged n : written g n -> looked_at g n -> (forall a b, kind n = NAlt a b -> zero_item g (S b) b <> None) -> begin_after g n -> flagged n = true.
Proof.
  intros W L Z (x & u & w & D & O & NX). unfold flagged. unfold looked_at in L.
  assert (M : kind n <> NTerm -> kind n <> NZero -> meet g (first n) (follow n) = true).
  { intros K1 K2. apply meet_some. exists x. destruct (follow_has n w O) as (KX & F). rewrite NX in *. split; [apply term_lt; exact KX|]. split; [apply (first_has n x u); auto|auto]. }
  pose proof (either_inside g WF n (or_intror W)) as I. pose proof (shaped g WF n) as SH. unfold shape in SH. rewrite I in SH.
  destruct (kind n) as [| | |s|s|i c a|i c a|[i|]|a b|a b|i s|tt [c|]|i|i|bb ops y|] eqn:K; try (destruct L; fail); specialize (SH ltac:(discriminate)); rewrite M by discriminate.
  - rewrite (eps_has n L) by (intros; congruence). reflexivity.
  - reflexivity.
  - destruct L as (L & N). apply andb_true_iff in SH. destruct SH as (_ & SB). rewrite <- (zero_nothing (S b) b) in N; [|lia|eapply below_inside; eassumption].
    specialize (Z a b eq_refl). destruct (zero_item g (S b) b) as [[|]|]; [destruct N; reflexivity| |destruct Z; reflexivity].
    rewrite (eps_has n L) by (intros; congruence). reflexivity.
  - rewrite (eps_has n L) by (intros; congruence). reflexivity.
Qed.
(** The check did not read through a null pointer. *)
Lemma warned_not_null : forall k e l, first_follow g first follow k e = Warn l -> forall n a b, part g e n -> kind n = NAlt a b -> zero_item g (S b) b <> None.
Proof.
  induction k as [|k IH]; intros e l E n a b P K; [discriminate|]. cbn [first_follow] in E. intros Z.
  destruct (part_step e n P) as [-> | (m & C & N & P')].
  - rewrite K in E. apply also_warn in E. destruct E as (x & y & _ & E & _). rewrite Z in E. discriminate.
  - unfold child in C. assert (GO : forall l', first_follow g first follow k m = Warn l' -> False) by (intros l' E'; exact (IH m l' E' n a b P' K Z)).
    destruct (kind e) as [| | |s|s|i c d|i c d|[i|]|c d|c d|i s|tt [c|]|i|i|bb ops x|] eqn:KE; try (destruct C; fail); try (subst m; apply (GO l E)); try (destruct (N _ _ _ eq_refl));
      apply also_warn in E; destruct E as (x1 & y1 & E1 & E2 & _).
    1,2: subst m; apply (GO _ E1).
    1,2: apply also_warn in E1; destruct E1 as (x2 & y2 & E1 & E3 & _); destruct C as [-> | ->]; [apply (GO _ E1)|apply (GO _ E3)].
    destruct C as [-> | ->]; [apply (GO _ E1)|apply (GO _ E2)].
Qed.
Theorem fo_reported e l : In e (grules g) -> first_follow g first follow (depth g) e = Warn l ->
  forall n, part g e n -> looked_at g n -> begin_after g n -> In n l.
Proof.
  intros He E n P L B. apply (fo_reports _ _ _ E). split; [exact P|]. apply looked_flagged; [exact (part_written e n He P)|exact L| |exact B].
  intros a b K. exact (warned_not_null _ _ _ E n a b P K).
Qed.
Hypothesis PR : productive g.
Hypothesis AP : heads_apart g.
Hypothesis LIVE : forall e, In e (grules g) -> exists w, occurs g e w.
Theorem fo_real e l : In e (grules g) -> first_follow g first follow (depth g) e = Warn l ->
  forall n, In n l -> part g e n /\ looked_at g n /\ begin_after g n.
Proof.
  intros He E n H. apply (fo_reports _ _ _ E) in H. destruct H as (P & F). pose proof (part_written e n He P) as W. pose proof (either_inside g WF n (or_intror W)) as I.
  pose proof (compute_first_sound g WF OP AP PR rounds fuel first EF) as FS.
  assert (EP : eps g first n = true -> derives g n []) by (apply (eps_right g WF AP first n FS I)).
  assert (M : meet g (first n) (follow n) = true -> begin_after g n).
  { intros M. apply meet_some in M. destruct M as (x & _ & F1 & F2).
    destruct (compute_follow_sound g WF first AP FS PR LIVE rounds fuel follow EO n x F2 I) as (w & O & NX).
    destruct (FS n x F1) as [[-> _]|[KX (u & D)]].
    - destruct (follow_has n w O) as (KX & _). rewrite NX, (zero_kind g WF) in KX. discriminate.
    - exists x, u, w. auto. }
  split; [exact P|]. unfold flagged in F. unfold looked_at. pose proof (shaped g WF n) as SH. unfold shape in SH. rewrite I in SH.
  destruct (kind n) as [| | |s|s|i c a|i c a|[i|]|a b|a b|i s|tt [c|]|i|i|bb ops y|] eqn:K; try discriminate; specialize (SH ltac:(discriminate)); try (apply andb_true_iff in F; destruct F as (F1 & F2)).
  - auto.
  - auto.
  - destruct (zero_item g (S b) b) as [[|]|] eqn:Z; try discriminate. apply andb_true_iff in F; destruct F as (F1 & F2). split; [|auto]. split; [auto|].
    apply andb_true_iff in SH. destruct SH as (_ & SB). rewrite <- (zero_nothing (S b) b); [congruence|lia|eapply below_inside; eassumption].
  - auto.
Qed.
End T.
End G.
