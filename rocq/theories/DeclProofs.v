From Coq Require Import List NArith PeanoNat Bool Lia Permutation.
From Verif Require Import DeclModel DeclSpec.
Import ListNotations.

(** ** Lexer declarations *)
Definition enc_index (e : enc) : nat := match e with EAscii => 0 | ELatin1 => 1 | EUtf8 => 2 | EUcs2 => 3 | EUtf16 => 4 | EUcs4 => 5 end.
Lemma spelled_plain s t : spelled s t -> plain_name s = t.
Proof.
  unfold plain_name. induction 1 as [|s t _ IH|c s t N L _ IH|c s t L _ IH]; cbn [map filter].
  - reflexivity.
  - exact IH.
  - assert (E : lower c = c) by (unfold lower; destruct (N.leb_spec 65 c), (N.leb_spec c 90); try reflexivity; lia).
    rewrite E. destruct (N.eqb_spec c 45) as [X|_]; [contradiction|]. cbn [negb]. rewrite IH. reflexivity.
  - assert (E : lower c = (c + 32)%N) by (unfold lower; destruct (N.leb_spec 65 c), (N.leb_spec c 90); try reflexivity; lia).
    rewrite E. destruct (N.eqb_spec (c + 32) 45) as [X|_]; [lia|]. cbn [negb]. rewrite IH. reflexivity.
Qed.
Lemma plain_spelled s : exists t, spelled s t /\ plain_name s = t.
Proof.
  induction s as [|c s (t & H & E)]; [exists []; split; [constructor|reflexivity]|].
  assert (X : exists u, spelled (c :: s) u).
  { destruct (N.eq_dec c 45) as [-> | N]; [exists t; constructor; exact H|].
    destruct (N.lt_ge_cases c 65); [exists (c :: t); apply spd_same; auto|]. destruct (N.lt_ge_cases 90 c); [exists (c :: t); apply spd_same; auto|].
    exists ((c + 32)%N :: t). apply spd_capital; [lia|exact H]. }
  destruct X as (u & Hu). exists u. split; [exact Hu|apply spelled_plain; exact Hu].
Qed.
Lemma same_iff a b : same a b = true <-> a = b.
Proof. unfold same. destruct (list_eq_dec N.eq_dec a b); split; congruence. Qed.
Lemma codec_iff s k : codec s = Some k <-> exists e, names_enc s e /\ enc_index e = k.
Proof.
  destruct (plain_spelled s) as (t & H & E). assert (U : forall u, spelled s u -> u = t) by (intros u Hu; apply spelled_plain in Hu; congruence).
  unfold codec. rewrite E. split.
  - intros X.
    assert (R : forall v e, same t v = true -> In (v, e) enc_names -> exists e', names_enc s e' /\ enc_index e' = enc_index e).
    { intros v e Q I. apply same_iff in Q. subst v. exists e. split; [|reflexivity]. exists t. auto. }
    destruct (same t [97; 115; 99; 105; 105]%N) eqn:Q0; [injection X as <-; apply (R _ EAscii Q0); cbn; auto 10|].
    destruct (same t [108; 97; 116; 105; 110; 49]%N) eqn:Q1; [injection X as <-; apply (R _ ELatin1 Q1); cbn; auto 10|].
    destruct (same t [117; 116; 102; 56]%N) eqn:Q2; [injection X as <-; apply (R _ EUtf8 Q2); cbn; auto 10|].
    destruct (same t [117; 99; 115; 50]%N) eqn:Q3; [injection X as <-; apply (R _ EUcs2 Q3); cbn; auto 10|].
    destruct (same t [117; 116; 102; 49; 54]%N) eqn:Q4; [injection X as <-; apply (R _ EUtf16 Q4); cbn; auto 10|].
    destruct (same t [117; 99; 115; 52]%N) eqn:Q5; [injection X as <-; apply (R _ EUcs4 Q5); cbn; auto 10|].
    destruct (same t [117; 116; 102; 51; 50]%N) eqn:Q6; [injection X as <-; apply (R _ EUcs4 Q6); cbn; auto 10|]. discriminate.
  - intros (e & (u & Hu & I) & <-). rewrite (U u Hu) in I. clear - I. cbn in I. decompose [or] I; try contradiction;
      match goal with Q : _ = _ |- _ => injection Q as <- <- end; reflexivity.
Qed.
Lemma declare_ok s t d d' : stype s = Some t -> stands d d' -> in_order s d' = true -> exists t', declare t d = Some t' /\ stype (effect s d') = Some t'.
Proof.
  intros T S0 O. destruct s as [e k]. destruct S0 as [| |n e' NE]; cbn [declare].
  - destruct k, e; cbn in T, O |- *; try discriminate; injection T as <-; eexists; split; reflexivity.
  - destruct k, e; cbn in T, O |- *; try discriminate; injection T as <-; eexists; split; reflexivity.
  - assert (C : codec n = Some (enc_index e')) by (apply codec_iff; eauto). unfold input_encoding. rewrite C.
    destruct k, e; cbn in T, O; try discriminate; injection T as <-; eexists; (split; [reflexivity|]); destruct e'; reflexivity.
Qed.
Lemma declare_all_ok ds ds' : Forall2 stands ds ds' -> forall s t, stype s = Some t -> all_in_order s ds' = true ->
  declare_all t ds = stype (fold_left effect ds' s).
Proof.
  induction 1 as [|d d' ds ds' S0 _ IH]; intros s t T O; cbn [declare_all fold_left]; [congruence|].
  cbn [all_in_order] in O. apply andb_true_iff in O. destruct O as [O1 O2]. destruct (declare_ok s t d d' T S0 O1) as (t' & E & T'). rewrite E. apply IH; assumption.
Qed.
Lemma declare_wrong s t d d' : stype s = Some t -> stands d d' -> in_order s d' = false -> declare t d <> stype (effect s d').
Proof.
  intros T S0 O. destruct s as [e k]. destruct S0 as [| |n e' NE]; cbn [declare].
  - destruct k, e; cbn in T, O |- *; try discriminate; injection T as <-; discriminate.
  - destruct k, e; cbn in T, O |- *; discriminate.
  - assert (C : codec n = Some (enc_index e')) by (apply codec_iff; eauto). unfold input_encoding. rewrite C.
    destruct k, e; cbn in T, O; try discriminate; injection T as <-; destruct e'; discriminate.
Qed.

(** ** Tokens *)
Section T.
Variable name : Type.
Variable is_eof : name -> bool.
Notation tokens := (tokens name is_eof).
Lemma tokens_names l : forall v, map fst (tokens v l) = l.
Proof. induction l as [|x l IH]; intros v; cbn [DeclModel.tokens]; [reflexivity|]. destruct (is_eof x); cbn [map fst]; rewrite IH; reflexivity. Qed.
Lemma tokens_low l : forall v x k, In (x, k) (tokens v l) -> (is_eof x = true /\ k = 1000%N) \/ (is_eof x = false /\ (v <= k < v + N.of_nat (length l))%N).
Proof.
  induction l as [|y l IH]; intros v x k I; cbn [DeclModel.tokens] in I; [destruct I|]. destruct (is_eof y) eqn:E; destruct I as [I|I].
  - injection I as <- <-. auto.
  - destruct (IH _ _ _ I) as [H|[H1 H2]]; [auto|right; split; [exact H1|cbn [length]; lia]].
  - injection I as <- <-. right. split; [exact E|cbn [length]; lia].
  - destruct (IH _ _ _ I) as [H|[H1 H2]]; [auto|right; split; [exact H1|cbn [length]; lia]].
Qed.
Lemma tokens_inj l : NoDup l -> (forall x y, In x l -> In y l -> is_eof x = true -> is_eof y = true -> x = y) -> forall v, (1000 < v)%N -> NoDup (map snd (tokens v l)).
Proof.
  induction 1 as [|x l N _ IH]; intros U v L; cbn [DeclModel.tokens]; [constructor|].
  assert (U' : forall a b, In a l -> In b l -> is_eof a = true -> is_eof b = true -> a = b) by (intros a b A B; apply U; right; assumption).
  destruct (is_eof x) eqn:E; cbn [map snd]; constructor; try (apply IH; [exact U'|lia]).
  - intros I. apply in_map_iff in I. destruct I as ([y k] & K & I). cbn in K. subst k. destruct (tokens_low l v y 1000%N I) as [[Y _]|[_ Y]]; [|lia].
    apply N. rewrite (U x y); [|left; reflexivity| |exact E|exact Y]; [|right]; apply (in_map fst) in I; rewrite tokens_names in I; exact I.
  - intros I. apply in_map_iff in I. destruct I as ([y k] & K & I). cbn in K. subst k. destruct (tokens_low l (N.succ v) y v I) as [[_ Y]|[_ Y]]; lia.
Qed.
End T.

(** ** Start symbols *)
Lemma known_iff x l : known x l = true <-> In x l.
Proof. unfold known. rewrite existsb_exists. split; [intros (y & I & E); apply Nat.eqb_eq in E; congruence|intros I; exists x; split; [exact I|apply Nat.eqb_refl]]. Qed.
Lemma read_spec ms : (forall x, In x (symbols (read ms)) <-> 0 < times x ms) /\ (forall x, In x (start (read ms)) <-> times x ms = 1).
Proof.
  unfold read, times. induction ms as [|m ms [IH1 IH2]] using rev_ind; [split; intros x; cbn; split; try tauto; lia|].
  rewrite fold_left_app, map_app. cbn [fold_left map]. set (w := fold_left _ ms _) in *.
  assert (CO : forall x, count_occ Nat.eq_dec (map mentioned ms ++ [mentioned m]) x = count_occ Nat.eq_dec (map mentioned ms) x + (if Nat.eq_dec (mentioned m) x then 1 else 0)).
  { intros x. rewrite count_occ_app. cbn [count_occ]. destruct (Nat.eq_dec (mentioned m) x); reflexivity. }
  unfold push_symbol. destruct (known (mentioned m) (symbols w)) eqn:K; cbn [symbols start]; split; intros x; rewrite CO.
  - apply known_iff in K. rewrite IH1. apply IH1 in K. destruct (Nat.eq_dec (mentioned m) x) as [<- |]; lia.
  - apply known_iff, IH1 in K. rewrite filter_In, IH2. destruct (Nat.eq_dec (mentioned m) x) as [<- | N].
    + rewrite Nat.eqb_refl. cbn. split; [intros [_ X]; discriminate|lia].
    + destruct (Nat.eqb_spec (mentioned m) x); [contradiction|]. cbn. lia.
  - cbn [In]. rewrite IH1. destruct (Nat.eq_dec (mentioned m) x); lia.
  - assert (Z : count_occ Nat.eq_dec (map mentioned ms) (mentioned m) = 0).
    { assert (NK : ~ In (mentioned m) (symbols w)) by (intros I; apply known_iff in I; congruence). rewrite IH1 in NK. lia. }
    cbn [In]. rewrite IH2. destruct (Nat.eq_dec (mentioned m) x) as [<- | N]; [lia|]. lia.
Qed.
Lemma times_split x ms : times x ms = uses x ms + rules_of x ms.
Proof.
  unfold times, uses, rules_of. induction ms as [|m ms IH]; [reflexivity|]. destruct m as [y|y]; cbn [map mentioned flat_map app count_occ]; destruct (Nat.eq_dec y x); rewrite IH; lia.
Qed.

(** ** The binary search *)
Section R.
Variable rule : Type.
Lemma ordered_nth (l : list (nat * rule)) : ordered l -> forall i j a b, i <= j -> nth_error l i = Some a -> nth_error l j = Some b -> fst a <= fst b.
Proof.
  induction l as [|x l IH]; intros O i j a b L A B; [destruct i; discriminate|]. destruct O as [O1 O2]. destruct i as [|i], j as [|j]; cbn in A, B; try lia.
  - replace b with a by congruence. lia.
  - injection A as <-. apply O1. eapply nth_error_In. exact B.
  - apply (IH O2 i j a b); [lia|assumption..].
Qed.
Lemma bound_spec (l : list (nat * rule)) sym : ordered l -> forall f first len, len < f -> first + len <= length l ->
  (forall i a, i < first -> nth_error l i = Some a -> fst a < sym) -> (forall i a, first + len <= i -> nth_error l i = Some a -> sym <= fst a) ->
  exists k, lower_bound rule f l sym first len = Some k /\ k <= length l /\ (forall i a, i < k -> nth_error l i = Some a -> fst a < sym) /\ (forall i a, k <= i -> nth_error l i = Some a -> sym <= fst a).
Proof.
  intros O. induction f as [|f IH]; intros first len F L A B; [lia|]. cbn [lower_bound]. destruct (Nat.eqb_spec len 0) as [-> | NZ].
  - exists first. rewrite Nat.add_0_r in B, L. auto.
  - assert (H : len / 2 < len) by (apply Nat.div_lt; lia). set (half := len / 2) in *. unfold entry. destruct (nth_error l (first + half)) as [m|] eqn:M; [|apply nth_error_None in M; lia].
    destruct (Nat.ltb_spec (fst m) sym) as [LT|GE].
    + apply IH; [lia|lia| |].
      * intros i a I E. pose proof (ordered_nth l O i (first + half) a m ltac:(lia) E M). lia.
      * intros i a I E. apply (B i a); [lia|exact E].
    + apply IH; [lia|lia|exact A|]. intros i a I E. pose proof (ordered_nth l O (first + half) i m a I M E). lia.
Qed.
Lemma find_nth (l : list (nat * rule)) sym k : (forall i a, i < k -> nth_error l i = Some a -> fst a < sym) ->
  (forall i a, k <= i -> nth_error l i = Some a -> sym <= fst a) -> ordered l -> k <= length l ->
  find (fun e => Nat.eqb (fst e) sym) l = match nth_error l k with Some a => if Nat.eqb (fst a) sym then Some a else None | None => None end.
Proof.
  revert k. induction l as [|x l IH]; intros k A B O L; [destruct k; reflexivity|]. destruct k as [|k].
  - cbn [find nth_error]. destruct (Nat.eqb_spec (fst x) sym) as [E|N]; [reflexivity|]. pose proof (B 0 x ltac:(lia) eq_refl) as G.
    destruct (find (fun e => Nat.eqb (fst e) sym) l) as [y|] eqn:F; [|reflexivity]. apply find_some in F. destruct F as [I E]. apply Nat.eqb_eq in E. pose proof (proj1 O y I). lia.
  - cbn [find nth_error]. pose proof (A 0 x ltac:(lia) eq_refl) as G. destruct (Nat.eqb_spec (fst x) sym); [lia|]. apply IH.
    + intros i a I E. apply (A (S i) a); [lia|exact E].
    + intros i a I E. apply (B (S i) a); [lia|exact E].
    + apply O.
    + cbn in L. lia.
Qed.
Lemma search_find (l : list (nat * rule)) sym : ordered l -> search rule l sym = Some (option_map snd (find (fun e => Nat.eqb (fst e) sym) l)).
Proof.
  intros O. destruct (bound_spec l sym O (S (length l)) 0 (length l)) as (k & E & L & A & B); [lia|lia|lia| |].
  { intros i a I H. assert (nth_error l i = None) by (apply nth_error_None; lia). congruence. }
  unfold search, entry in *. rewrite E, (find_nth l sym k A B O L). destruct (nth_error l k) as [[s r]|]; [|reflexivity]. cbn [fst]. destruct (Nat.eqb s sym); reflexivity.
Qed.
End R.
