From Coq Require Import List ZArith Lia Bool PeanoNat ZifyBool ZifyNat.
From Verif Require Import Base TokenStreamModel TokenStreamSpec.
Import ListNotations.

Section P.
Context {L : Type} (lex : L -> token * list token * L).

Lemma produced_len : forall n l, n <= length (produced lex n l).
Proof.
  induction n as [|n IH]; intros l; simpl; [lia|].
  destruct (lex l) as [[t ts] l']. simpl. rewrite app_length. specialize (IH l'). lia.
Qed.

(** State of the producer after [n] runs. *)
Fixpoint after (n : nat) (l : L) : L :=
  match n with O => l | S m => after m (snd (lex l)) end.

Lemma produced_add : forall n m l,
  produced lex (n + m) l = produced lex n l ++ produced lex m (after n l).
Proof.
  induction n as [|n IH]; intros m l; simpl; [reflexivity|].
  destruct (lex l) as [[t ts] l']; simpl. rewrite IH, app_assoc. reflexivity.
Qed.

Lemma after_add : forall n m l, after (n + m) l = after m (after n l).
Proof. induction n; intros m l; simpl; [reflexivity|apply IHn]. Qed.

Lemma input_token_prefix : forall n l i, i < length (produced lex n l) ->
  nth_error (produced lex n l) i = Some (input_token lex l i).
Proof.
  intros n l i Hi. unfold input_token.
  rewrite (nth_error_nth' _ token0) by exact Hi. f_equal.
  pose proof (produced_len (S i) l) as HS.
  destruct (Nat.le_ge_cases n (S i)) as [H|H].
  - replace (S i) with (n + (S i - n)) by lia. rewrite produced_add.
    rewrite app_nth1 by exact Hi. reflexivity.
  - replace n with (S i + (n - S i)) by lia. rewrite produced_add.
    rewrite app_nth1 by lia. reflexivity.
Qed.

Definition good (l0 : L) (s : stream L) : Prop :=
  exists n, buf s = produced lex n l0 /\ src s = after n l0 /\ idx s <= size s.

Lemma read_ok l0 s : good l0 s ->
  exists s', read lex s = Some (input_token lex l0 (idx s), s') /\ good l0 s' /\
    idx s' = S (idx s) /\ size s <= size s' /\ (idx s < size s -> s' = MkStream (buf s) (S (idx s)) (src s)).
Proof.
  intros (n & Hb & Hs & Hi). unfold read, size in *.
  destruct (Nat.eqb (idx s) (length (buf s))) eqn:E.
  - destruct (lex (src s)) as [[t ts] l'] eqn:El.
    assert (Hb' : buf s ++ t :: ts = produced lex (n + 1) l0).
    { rewrite produced_add, <- Hb, <- Hs. simpl. rewrite El. rewrite app_nil_r. reflexivity. }
    cbn [buf idx src]. rewrite Hb'.
    rewrite (input_token_prefix (n + 1)).
    2:{ rewrite <- Hb', app_length. simpl. lia. }
    cbn [obind]. eexists. split; [reflexivity|]. cbn [buf idx src].
    split; [|split; [reflexivity|split]].
    + exists (n + 1). cbn [buf idx src]. split; [reflexivity|]. split.
      * rewrite after_add, <- Hs. simpl. rewrite El. reflexivity.
      * unfold size. cbn [buf]. rewrite <- Hb', app_length. simpl. lia.
    + rewrite <- Hb', app_length. lia.
    + lia.
  - rewrite Hb. rewrite input_token_prefix by (rewrite <- Hb; lia).
    cbn [obind]. eexists. split; [reflexivity|]. cbn [buf idx src].
    split; [|split; [reflexivity|split; [lia|intros _; reflexivity]]].
    exists n. cbn [buf idx src]. unfold size; cbn [buf]. rewrite <- Hb.
    split; [reflexivity|]. split; [assumption|lia].
Qed.

Lemma rewind_ok l0 s i : good l0 s -> i <= size s ->
  exists s', rewind i s = Some s' /\ good l0 s' /\ buf s' = buf s /\ idx s' = i /\ src s' = src s.
Proof.
  intros (n & Hb & Hs & Hi) H. unfold rewind.
  replace (Nat.leb i (size s)) with true by lia.
  eexists; split; [reflexivity|]. cbn. split; [|repeat split; reflexivity].
  exists n. cbn. repeat split; assumption.
Qed.

Lemma la_loop_ok l0 target : forall fuel s, good l0 s ->
  (target + 1 - Z.of_nat (idx s) <= Z.of_nat fuel)%Z ->
  exists s', la_loop lex fuel target s = Some s' /\ good l0 s' /\ size s <= size s' /\
    (target < Z.of_nat (size s'))%Z.
Proof.
  induction fuel as [|f IH]; intros s HG Hf.
  - simpl. destruct (target <? Z.of_nat (size s))%Z eqn:E.
    + exists s. split; [reflexivity|]. split; [exact HG|]. lia.
    + exfalso. destruct HG as (n & _ & _ & Hi). lia.
  - simpl. destruct (target <? Z.of_nat (size s))%Z eqn:E.
    + exists s. split; [reflexivity|]. split; [exact HG|]. lia.
    + destruct (read_ok l0 s HG) as (s1 & E1 & G1 & I1 & S1 & _).
      rewrite E1. cbn [obind].
      destruct (IH s1 G1 ltac:(lia)) as (s2 & E2 & G2 & S2 & T2).
      exists s2. split; [exact E2|]. split; [exact G2|]. lia.
Qed.

Lemma good_prefix l0 s s' : good l0 s -> good l0 s' -> size s <= size s' ->
  exists more, buf s' = buf s ++ more.
Proof.
  intros (n & Hb & _ & _) (m & Hb' & _ & _) H. unfold size in H. rewrite Hb, Hb' in *.
  destruct (Nat.le_ge_cases n m) as [C|C].
  - replace m with (n + (m - n)) by lia. rewrite produced_add. eexists; reflexivity.
  - replace n with (m + (n - m)) in * by lia. rewrite produced_add in *.
    rewrite app_length in H.
    assert (E : length (produced lex (n - m) (after m l0)) = 0) by lia.
    apply length_zero_iff_nil in E. rewrite E. exists []. rewrite !app_nil_r. reflexivity.
Qed.

Lemma LA_ok l0 s k : good l0 s -> (2 <= Z.of_nat (idx s) + k)%Z ->
  exists s', LA lex k s = Some (input_token lex l0 (Z.to_nat (Z.of_nat (idx s) + k - 2)), s') /\
    good l0 s' /\ idx s' = idx s /\ size s <= size s' /\ exists more, buf s' = buf s ++ more.
Proof.
  intros HG Hk. unfold LA.
  destruct (rewind_ok l0 s (size s) HG ltac:(lia)) as (s1 & E1 & G1 & B1 & I1 & _).
  rewrite E1. cbn [obind].
  set (target := (Z.of_nat (idx s) - 1 + k - 1)%Z).
  destruct (la_loop_ok l0 target (Z.to_nat (target + 1)) s1 G1) as (s2 & E2 & G2 & S2 & T2).
  { lia. }
  rewrite E2. cbn [obind].
  assert (Hsz : size s <= size s2) by (unfold size in *; rewrite B1 in S2; exact S2).
  destruct (rewind_ok l0 s2 (idx s) G2) as (s3 & E3 & G3 & B3 & I3 & _).
  { destruct HG as (n & _ & _ & Hi). lia. }
  rewrite E3. cbn [obind].
  unfold at_. replace (target <? 0)%Z with false by (unfold target; lia).
  pose proof G3 as (n3 & Hb3 & _ & _).
  rewrite Hb3, input_token_prefix.
  2:{ rewrite <- Hb3, B3. unfold size in T2. lia. }
  cbn [obind]. exists s3. split.
  { do 3 f_equal. unfold target. lia. }
  split; [exact G3|]. split; [exact I3|].
  assert (size s <= size s3) by (unfold size in *; rewrite B3; exact Hsz).
  split; [assumption|]. apply (good_prefix l0); assumption.
Qed.

Lemma run_ok l0 : forall ops hi s, good l0 s -> hi <= size s ->
  legal hi (idx s) ops ->
  exists s', run lex ops s = Some (view (input_token lex l0) (idx s) ops, s') /\
    good l0 s' /\ idx s' = cursor (idx s) ops /\ size s <= size s'.
Proof.
  induction ops as [|[|k|i] ops IH]; intros hi s HG Hh Hl; cbn [run view cursor legal] in *.
  - exists s. split; [reflexivity|]. split; [exact HG|]. split; [reflexivity|lia].
  - destruct (read_ok l0 s HG) as (s1 & E1 & G1 & I1 & S1 & _).
    rewrite E1. cbn [obind].
    destruct (IH (Nat.max hi (S (idx s))) s1 G1) as (s2 & E2 & G2 & I2 & S2).
    + destruct G1 as (n & _ & _ & Hi). lia.
    + rewrite I1. exact Hl.
    + rewrite I1 in E2, I2. rewrite E2. cbn [obind]. exists s2.
      split; [reflexivity|]. split; [exact G2|]. split; [exact I2|lia].
  - destruct Hl as (Hk & Hl). destruct (LA_ok l0 s k HG Hk) as (s1 & E1 & G1 & I1 & S1 & _).
    rewrite E1. cbn [obind].
    destruct (IH hi s1 G1 ltac:(lia)) as (s2 & E2 & G2 & I2 & S2).
    + rewrite I1. exact Hl.
    + rewrite I1 in E2, I2. rewrite E2. cbn [obind]. exists s2.
      split; [reflexivity|]. split; [exact G2|]. split; [exact I2|lia].
  - destruct Hl as (Hi & Hl).
    destruct (rewind_ok l0 s i HG ltac:(lia)) as (s1 & E1 & G1 & B1 & I1 & _).
    rewrite E1. cbn [obind].
    assert (SZ : size s1 = size s) by (unfold size; rewrite B1; reflexivity).
    destruct (IH hi s1 G1 ltac:(lia)) as (s2 & E2 & G2 & I2 & S2).
    + rewrite I1. exact Hl.
    + rewrite I1 in E2, I2. exists s2. split; [exact E2|]. split; [exact G2|]. split; [exact I2|lia].
Qed.

Lemma good_empty l0 : good l0 (empty_stream l0).
Proof. exists 0. cbn. repeat split; lia. Qed.

Lemma run_empty l0 ops : legal 0 0 ops ->
  exists s', run lex ops (empty_stream l0) = Some (view (input_token lex l0) 0 ops, s') /\
    idx s' = cursor 0 ops.
Proof.
  intros Hl. destruct (run_ok l0 ops 0 (empty_stream l0) (good_empty l0) ltac:(cbn; lia) Hl)
    as (s' & E & _ & I & _).
  exists s'. split; [exact E|exact I].
Qed.

Lemma la_transparent l0 s k : good l0 s -> (2 <= Z.of_nat (idx s) + k)%Z ->
  exists t s', LA lex k s = Some (t, s') /\ idx s' = idx s /\
    (exists more, buf s' = buf s ++ more) /\
    (forall ops, legal (size s) (idx s) ops ->
       exists o s1 s2, run lex ops s = Some (o, s1) /\ run lex ops s' = Some (o, s2)).
Proof.
  intros HG Hk. destruct (LA_ok l0 s k HG Hk) as (s' & E & G & I & S & M).
  eexists; exists s'. split; [exact E|]. split; [exact I|]. split; [exact M|].
  intros ops Hl.
  destruct (run_ok l0 ops (size s) s HG ltac:(lia) Hl) as (s1 & E1 & _).
  rewrite <- I in Hl.
  destruct (run_ok l0 ops (size s) s' G ltac:(lia) Hl) as (s2 & E2 & _).
  rewrite I in E2. do 3 eexists. split; eassumption.
Qed.

(** LA(k) is the token made current by k-1 further reads. *)
Lemma la_is_later l0 s k : good l0 s -> 1 <= idx s -> 1 <= k ->
  exists t sl outs sr, LA lex (Z.of_nat k) s = Some (t, sl) /\
    run lex (repeat Read (k - 1)) s = Some (outs, sr) /\
    nth_error (buf sr) (idx sr - 1) = Some t.
Proof.
  intros HG Hi Hk.
  destruct (LA_ok l0 s (Z.of_nat k) HG ltac:(lia)) as (sl & E & _).
  assert (Hleg : forall m hi c, legal hi c (repeat Read m)).
  { induction m; intros; cbn; [exact I|apply IHm]. }
  assert (Hcur : forall m c, cursor c (repeat Read m) = m + c).
  { induction m; intros; cbn; [reflexivity|rewrite IHm; lia]. }
  destruct (run_ok l0 (repeat Read (k - 1)) 0 s HG ltac:(lia) (Hleg _ _ _)) as (sr & E2 & G2 & I2 & _).
  eexists; exists sl; eexists; exists sr. split; [exact E|]. split; [exact E2|].
  destruct G2 as (n & Hb & _ & Hs). rewrite Hcur in I2. unfold size in Hs. rewrite Hb in *.
  rewrite input_token_prefix by lia. do 2 f_equal. lia.
Qed.

Lemma reachable_good l0 ops o s : legal 0 0 ops ->
  run lex ops (empty_stream l0) = Some (o, s) -> good l0 s.
Proof.
  intros Hl E.
  destruct (run_ok l0 ops 0 (empty_stream l0) (good_empty l0) ltac:(cbn; lia) Hl) as (s' & E' & G & _).
  rewrite E in E'. injection E' as -> ->. exact G.
Qed.

(** rollback: rewinding to the start of the current token and reading it
    again gives the same current token and position. *)
Lemma parser_rewind_ok l0 s i : good l0 s -> i < size s ->
  exists s', parser_rewind lex i s = Some (kind (input_token lex l0 i), s') /\ good l0 s' /\
    idx s' = S i /\ buf s' = buf s /\ src s' = src s.
Proof.
  intros HG Hi. unfold parser_rewind.
  destruct (rewind_ok l0 s i HG ltac:(lia)) as (s1 & E1 & G1 & B1 & I1 & R1).
  rewrite E1. cbn [obind]. unfold yylex.
  destruct (read_ok l0 s1 G1) as (s2 & E2 & G2 & I2 & S2 & Q2).
  rewrite E2. cbn [obind]. exists s2. rewrite I1 in *.
  split; [reflexivity|]. split; [exact G2|]. split; [exact I2|].
  rewrite Q2; [cbn; split; assumption|]. unfold size; rewrite B1. exact Hi.
Qed.
End P.

(** Plain stream. *)
Lemma base_produced : forall n u, produced base_lex n u = repeat eof_token n.
Proof. induction n; intros u; cbn; [reflexivity|rewrite IHn; reflexivity]. Qed.

(** A plain stream preloaded with tokens is a source that first delivers them. *)
Definition list_lex (l : list token) : token * list token * list token :=
  match l with [] => (eof_token, [], []) | t :: r => (t, [], r) end.

Lemma list_produced : forall n l, n <= length l -> produced list_lex n l = firstn n l.
Proof.
  induction n as [|n IH]; intros l H; [reflexivity|].
  destruct l as [|t r]; simpl in *; [lia|]. rewrite IH by lia. reflexivity.
Qed.

Lemma brun_ok : forall ops s, blegal ops (size s) (idx s) -> idx s <= size s ->
  exists o s', brun ops s = Some (o, s') /\ buf s' = bcontent ops (buf s) (idx s) /\
    idx s' <= size s'.
Proof.
  induction ops as [|op ops IH]; intros s Hl Hi; cbn [brun blegal bcontent] in *.
  - exists [], s. split; [reflexivity|]. split; [reflexivity|exact Hi].
  - destruct Hl as (Hp & Hl).
    assert (Hstep : exists a s1, bstep op s = Some (a, s1) /\
      size s1 = fst (bsize op (size s) (idx s)) /\ idx s1 = snd (bsize op (size s) (idx s)) /\
      idx s1 <= size s1 /\
      bcontent (op :: ops) (buf s) (idx s) = bcontent ops (buf s1) (idx s1)).
    { destruct op; cbn [bstep bpre bsize fst snd bcontent] in *.
      - eexists _, _. split; [reflexivity|]. unfold push, size in *; cbn.
        rewrite app_length; simpl. repeat split; lia.
      - unfold read, size in *. destruct (Nat.eqb (idx s) (length (buf s))) eqn:E; cbn [base_lex buf idx src].
        + rewrite nth_error_app2 by lia. replace (idx s - length (buf s)) with 0 by lia. cbn [nth_error obind].
          eexists _, _. split; [reflexivity|]. cbn [buf idx].
          replace (Nat.ltb (idx s) (length (buf s))) with false by lia.
          rewrite app_length; simpl. repeat split; try lia.
        + destruct (nth_error (buf s) (idx s)) as [t|] eqn:En.
          2:{ apply nth_error_None in En. lia. }
          cbn [obind]. eexists _, _. split; [reflexivity|]. cbn [buf idx].
          replace (Nat.ltb (idx s) (length (buf s))) with true by lia.
          repeat split; lia.
      - unfold rewind. replace (Nat.leb i (size s)) with true by lia. cbn [obind].
        eexists _, _. split; [reflexivity|]. unfold size; cbn. repeat split; try reflexivity. exact Hp.
      - eexists _, _. split; [reflexivity|]. unfold reset, size; cbn. repeat split; lia.
      - eexists _, _. split; [reflexivity|]. unfold clear, size; cbn. repeat split; lia.
      - unfold at_. replace (i <? 0)%Z with false by lia.
        destruct (nth_error (buf s) (Z.to_nat i)) as [t|] eqn:En.
        2:{ apply nth_error_None in En. unfold size in Hp. lia. }
        cbn [obind]. eexists _, _. split; [reflexivity|]. repeat split; try reflexivity. exact Hi.
      - unfold curr. destruct (nth_error (buf s) (idx s)) as [t|] eqn:En.
        2:{ apply nth_error_None in En. unfold size in Hp. lia. }
        cbn [obind]. eexists _, _. split; [reflexivity|]. repeat split; try reflexivity. exact Hi.
      - unfold back. destruct (buf s) as [|t r] eqn:En.
        { unfold size in Hp. rewrite En in Hp. simpl in Hp. lia. }
        cbn [obind]. eexists _, _. split; [reflexivity|]. rewrite En. repeat split; try reflexivity. exact Hi.
      - unfold front. destruct (buf s) as [|t r] eqn:En.
        { unfold size in Hp. rewrite En in Hp. simpl in Hp. lia. }
        cbn [obind]. eexists _, _. split; [reflexivity|]. rewrite En. repeat split; try reflexivity. exact Hi. }
    destruct Hstep as (a & s1 & E1 & Z1 & I1 & L1 & C1).
    rewrite <- Z1, <- I1 in Hl.
    destruct (IH s1 Hl L1) as (b & s2 & E2 & B2 & L2).
    rewrite E1. cbn [obind]. rewrite E2. cbn [obind].
    exists (a ++ b), s2. split; [reflexivity|]. split; [|exact L2].
    change (buf s2 = bcontent (op :: ops) (buf s) (idx s)). rewrite C1. exact B2.
Qed.

(** Without clear(), every delivered token is the one finally stored at its
    index, so tokens never change once delivered. *)
Lemma bstep_prefix o s a s' : o <> BClear -> bstep o s = Some (a, s') ->
  (exists more, buf s' = buf s ++ more) /\
  (forall i t, In (i, t) a -> nth_error (buf s') i = Some t).
Proof.
  intros Ho E. destruct o; cbn [bstep] in E.
  - injection E as <- <-. split; [exists [t]; reflexivity|intros i u []].
  - destruct (read base_lex s) as [[t s1]|] eqn:Er; [|discriminate].
    cbn [obind] in E. injection E as <- <-. unfold read in Er.
    destruct (Nat.eqb (idx s) (size s)) eqn:Eq; cbn [base_lex buf idx src] in Er.
    + destruct (nth_error (buf s ++ [eof_token]) (idx s)) as [u|] eqn:En; [|discriminate].
      cbn [obind] in Er. injection Er as <- <-. cbn [buf]. split; [eexists; reflexivity|].
      intros i v [H|[]]. injection H as <- <-. exact En.
    + destruct (nth_error (buf s) (idx s)) as [u|] eqn:En; [|discriminate].
      cbn [obind] in Er. injection Er as <- <-. cbn [buf].
      split; [exists []; rewrite app_nil_r; reflexivity|].
      intros i v [H|[]]. injection H as <- <-. exact En.
  - destruct (rewind i s) as [s1|] eqn:Er; [|discriminate]. cbn [obind] in E. injection E as <- <-.
    unfold rewind in Er. destruct (Nat.leb i (size s)); [|discriminate]. injection Er as <-.
    cbn [buf]. split; [exists []; rewrite app_nil_r; reflexivity|intros j u []].
  - injection E as <- <-. split; [exists []; rewrite app_nil_r; reflexivity|intros j u []].
  - congruence.
  - destruct (at_ i s) as [t|] eqn:Ea; [|discriminate]. cbn [obind] in E. injection E as <- <-.
    split; [exists []; rewrite app_nil_r; reflexivity|].
    intros j u [H|[]]. injection H as <- <-. unfold at_ in Ea.
    destruct (i <? 0)%Z; [discriminate|exact Ea].
  - destruct (curr s) as [t|] eqn:Ea; [|discriminate]. cbn [obind] in E. injection E as <- <-.
    split; [exists []; rewrite app_nil_r; reflexivity|].
    intros j u [H|[]]. injection H as <- <-. exact Ea.
  - destruct (back s) as [t|] eqn:Ea; [|discriminate]. cbn [obind] in E. injection E as <- <-.
    split; [exists []; rewrite app_nil_r; reflexivity|].
    intros j u [H|[]]. injection H as <- <-. unfold back in Ea. unfold size.
    destruct (buf s) as [|x r] eqn:Eb; [discriminate|]. rewrite <- Eb in *.
    assert (Hne : buf s <> []) by (rewrite Eb; discriminate).
    assert (Elast : last (buf s) token0 = t) by (rewrite Eb in *; congruence).
    pose proof (app_removelast_last token0 Hne) as Es. rewrite Elast in Es.
    generalize dependent (removelast (buf s)). intros q Eq. rewrite Eq, app_length.
    simpl. rewrite nth_error_app2 by lia.
    replace (length q + 1 - 1 - length q) with 0 by lia. reflexivity.
  - destruct (front s) as [t|] eqn:Ea; [|discriminate]. cbn [obind] in E. injection E as <- <-.
    split; [exists []; rewrite app_nil_r; reflexivity|].
    intros j u [H|[]]. injection H as <- <-. unfold front in Ea.
    destruct (buf s); [discriminate|]. exact Ea.
Qed.

Lemma brun_consistent : forall ops s o s', ~ In BClear ops -> brun ops s = Some (o, s') ->
  (exists more, buf s' = buf s ++ more) /\
  (forall i t, In (i, t) o -> nth_error (buf s') i = Some t).
Proof.
  induction ops as [|op ops IH]; intros s o s' Hn E; cbn [brun] in E.
  - injection E as <- <-. split; [exists []; rewrite app_nil_r; reflexivity|intros i t []].
  - destruct (bstep op s) as [[a s1]|] eqn:E1; [|discriminate]. cbn [obind] in E.
    destruct (brun ops s1) as [[b s2]|] eqn:E2; [|discriminate]. cbn [obind] in E.
    injection E as <- <-.
    destruct (bstep_prefix op s a s1) as ((m1 & M1) & D1);
      [intros ->; apply Hn; left; reflexivity|exact E1|].
    destruct (IH s1 b s2) as ((m2 & M2) & D2); [intros H; apply Hn; right; exact H|exact E2|].
    split.
    + exists (m1 ++ m2). rewrite M2, M1, app_assoc. reflexivity.
    + intros i t Hin. apply in_app_or in Hin. destruct Hin as [Hin|Hin]; [|apply D2; exact Hin].
      specialize (D1 i t Hin). rewrite M2. rewrite nth_error_app1; [exact D1|].
      apply nth_error_Some. congruence.
Qed.

Lemma list_input_token : forall l i, input_token list_lex l i = then_eof l i.
Proof.
  unfold input_token, then_eof. intros l i. revert l.
  induction i as [|i IH]; intros [|t r]; cbn; try reflexivity.
  - cbn in IH. specialize (IH []). cbn in IH. rewrite IH. destruct i; reflexivity.
  - apply IH.
Qed.

(** Bridge: a plain stream holding [ts] behaves like [list_lex] having
    produced its tokens. *)
Definition plain_good (ts : list token) (s : stream unit) : Prop :=
  (exists k, buf s = ts ++ repeat eof_token k) /\ idx s <= size s.

Lemma plain_read ts s : plain_good ts s -> exists s',
  read base_lex s = Some (then_eof ts (idx s), s') /\ plain_good ts s' /\ idx s' = S (idx s) /\ size s <= size s'.
Proof.
  intros ((k & Hb) & Hi). unfold read, size in *.
  assert (Hn : forall j m, j < length (ts ++ repeat eof_token m) ->
     nth_error (ts ++ repeat eof_token m) j = Some (then_eof ts j)).
  { intros j m Hj. unfold then_eof. rewrite app_length, repeat_length in Hj.
    destruct (Nat.lt_ge_cases j (length ts)) as [C|C].
    - rewrite nth_error_app1 by lia. apply nth_error_nth'. exact C.
    - rewrite nth_error_app2 by lia. rewrite nth_overflow by lia.
      rewrite (nth_error_nth' _ eof_token) by (rewrite repeat_length; lia).
      rewrite nth_repeat. reflexivity. }
  destruct (Nat.eqb (idx s) (length (buf s))) eqn:E; cbn [base_lex buf idx src].
  - assert (Hb' : buf s ++ [eof_token] = ts ++ repeat eof_token (S k)).
    { rewrite Hb, <- app_assoc. f_equal. rewrite <- (repeat_cons k eof_token). reflexivity. }
    rewrite Hb', Hn.
    + cbn [obind]. eexists. split; [reflexivity|]. unfold plain_good, size; cbn [buf idx].
      assert (HL : length (ts ++ repeat eof_token (S k)) = S (length (buf s))).
      { rewrite <- Hb', app_length. simpl. lia. }
      rewrite HL. split; [split; [eexists; reflexivity|lia]|]. split; [reflexivity|lia].
    + rewrite <- Hb', app_length. simpl. lia.
  - rewrite Hb. rewrite Hn by (rewrite <- Hb; lia). cbn [obind].
    eexists. split; [reflexivity|]. unfold plain_good, size; cbn [buf idx].
    split; [split; [eexists; reflexivity|rewrite <- Hb; lia]|]. split; [reflexivity|lia].
Qed.

Lemma plain_la_loop ts target : forall fuel s, plain_good ts s ->
  (target + 1 - Z.of_nat (idx s) <= Z.of_nat fuel)%Z ->
  exists s', la_loop base_lex fuel target s = Some s' /\ plain_good ts s' /\ size s <= size s' /\
    (target < Z.of_nat (size s'))%Z.
Proof.
  induction fuel as [|f IH]; intros s HG Hf; simpl;
    destruct (target <? Z.of_nat (size s))%Z eqn:E;
    try (exists s; split; [reflexivity|]; split; [exact HG|]; lia).
  - exfalso. destruct HG as (_ & Hi). lia.
  - destruct (plain_read ts s HG) as (s1 & E1 & G1 & I1 & S1). rewrite E1. cbn [obind].
    destruct (IH s1 G1 ltac:(lia)) as (s2 & E2 & G2 & S2 & T2).
    exists s2. split; [exact E2|]. split; [exact G2|]. lia.
Qed.

Lemma plain_rewind ts s i : plain_good ts s -> i <= size s ->
  exists s', rewind i s = Some s' /\ plain_good ts s' /\ buf s' = buf s /\ idx s' = i.
Proof.
  intros (Hb & Hi) H. unfold rewind. replace (Nat.leb i (size s)) with true by lia.
  eexists; split; [reflexivity|]. cbn. split; [|split; reflexivity]. split; [exact Hb|exact H].
Qed.

Lemma plain_run ts : forall ops hi s, plain_good ts s -> hi <= size s -> legal hi (idx s) ops ->
  exists s', run base_lex ops s = Some (view (then_eof ts) (idx s) ops, s') /\
    idx s' = cursor (idx s) ops.
Proof.
  induction ops as [|[|k|i] ops IH]; intros hi s HG Hh Hl; cbn [run view cursor legal] in *.
  - exists s. split; reflexivity.
  - destruct (plain_read ts s HG) as (s1 & E1 & G1 & I1 & S1). rewrite E1. cbn [obind].
    destruct (IH (Nat.max hi (S (idx s))) s1 G1) as (s2 & E2 & I2).
    + destruct G1 as (_ & Hi). lia.
    + rewrite I1. exact Hl.
    + rewrite I1 in E2, I2. rewrite E2. exists s2. split; [reflexivity|exact I2].
  - destruct Hl as (Hk & Hl). unfold LA.
    destruct (plain_rewind ts s (size s) HG ltac:(lia)) as (s1 & E1 & G1 & B1 & I1).
    rewrite E1. cbn [obind]. set (target := (Z.of_nat (idx s) - 1 + k - 1)%Z).
    destruct (plain_la_loop ts target (Z.to_nat (target + 1)) s1 G1 ltac:(lia)) as (s2 & E2 & G2 & S2 & T2).
    rewrite E2. cbn [obind].
    assert (Hsz : size s <= size s2) by (unfold size in *; rewrite B1 in S2; exact S2).
    destruct (plain_rewind ts s2 (idx s) G2) as (s3 & E3 & G3 & B3 & I3).
    { destruct HG as (_ & Hi). lia. }
    rewrite E3. cbn [obind]. unfold at_. replace (target <? 0)%Z with false by (unfold target; lia).
    assert (En : nth_error (buf s3) (Z.to_nat target) = Some (then_eof ts (Z.to_nat target))).
    { pose proof G3 as ((m & Hm) & _). rewrite B3 in *. unfold size in T2. rewrite Hm in *.
      unfold then_eof. rewrite app_length, repeat_length in T2.
      destruct (Nat.lt_ge_cases (Z.to_nat target) (length ts)) as [C|C].
      - rewrite nth_error_app1 by lia. apply nth_error_nth'. exact C.
      - rewrite nth_error_app2 by lia. rewrite nth_overflow by lia.
        rewrite (nth_error_nth' _ eof_token) by (rewrite repeat_length; lia).
        rewrite nth_repeat. reflexivity. }
    rewrite En. cbn [obind].
    assert (Hsz3 : size s3 = size s2) by (unfold size; rewrite B3; reflexivity).
    destruct (IH hi s3 G3 ltac:(lia)) as (s4 & E4 & I4); [rewrite I3; exact Hl|].
    rewrite I3 in E4, I4. rewrite E4. exists s4. split; [|exact I4]. cbn [obind].
    do 4 f_equal. unfold target. lia.
  - destruct Hl as (Hi & Hl).
    destruct (plain_rewind ts s i HG ltac:(lia)) as (s1 & E1 & G1 & B1 & I1).
    rewrite E1. cbn [obind].
    assert (SZ : size s1 = size s) by (unfold size; rewrite B1; reflexivity).
    destruct (IH hi s1 G1 ltac:(lia)) as (s2 & E2 & I2); [rewrite I1; exact Hl|].
    rewrite I1 in E2, I2. exists s2. split; [exact E2|exact I2].
Qed.
