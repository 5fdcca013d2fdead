From Coq Require Import List NArith Bool Lia.
From Verif Require Import UtfSpec TextModel TextSpec.
Import ListNotations.
Local Open Scope N_scope.

Lemma digit_16 c d : digit 16 c = Some d <-> numeral c d /\ d < 16.
Proof.
  unfold digit. change (16 =? 16) with true. cbv iota.
  destruct ((97 <=? c) && (c <=? 102))%bool eqn:A; [|destruct ((65 <=? c) && (c <=? 70))%bool eqn:B; [|destruct ((48 <=? c) && (c <=? 57))%bool eqn:C]].
  - apply andb_true_iff in A. destruct A as [A1 A2]. apply N.leb_le in A1, A2. split.
    + intros [= <-]. split; [|lia]. replace c with (97 + (c - 97)) at 1 by lia. replace (c - 97 + 10) with (10 + (c - 97)) by lia. constructor. lia.
    + intros [H _]. inversion H; subst; f_equal; lia.
  - apply andb_true_iff in B. destruct B as [A1 A2]. apply N.leb_le in A1, A2. split.
    + intros [= <-]. split; [|lia]. replace c with (65 + (c - 65)) at 1 by lia. replace (c - 65 + 10) with (10 + (c - 65)) by lia. constructor. lia.
    + intros [H _]. inversion H; subst; f_equal; lia.
  - apply andb_true_iff in C. destruct C as [A1 A2]. apply N.leb_le in A1, A2. split.
    + intros [= <-]. split; [|lia]. replace c with (48 + (c - 48)) at 1 by lia. constructor. lia.
    + intros [H _]. inversion H; subst; f_equal; lia.
  - split; [discriminate|]. intros [H _]. apply andb_false_iff in A, B, C. repeat rewrite N.leb_gt in A, B, C. inversion H; subst; lia.
Qed.
Lemma digit_low base c d : base <= 10 -> digit base c = Some d <-> numeral c d /\ d < base.
Proof.
  intros L. unfold digit. destruct (N.eqb_spec base 16) as [E|_]; [lia|].
  destruct ((48 <=? c) && (c <? 48 + base))%bool eqn:C.
  - apply andb_true_iff in C. destruct C as [A1 A2]. apply N.leb_le in A1. apply N.ltb_lt in A2. split.
    + intros [= <-]. split; [|lia]. replace c with (48 + (c - 48)) at 1 by lia. constructor. lia.
    + intros [H D]. inversion H; subst; f_equal; lia.
  - split; [discriminate|]. intros [H D]. apply andb_false_iff in C. rewrite N.leb_gt, N.ltb_ge in C. inversion H; subst; lia.
Qed.
Definition base_ok (b : N) : Prop := b = 16 \/ b = 10 \/ b = 8 \/ b = 2.
Lemma digit_iff base c d : base_ok base -> digit base c = Some d <-> numeral c d /\ d < base.
Proof. intros [-> | [-> | [-> | ->]]]; [apply digit_16|apply digit_low; lia..]. Qed.
Lemma digit_none base s : base_ok base -> ends_number base s -> match s with [] => True | c :: _ => digit base c = None end.
Proof.
  intros B E. destruct s as [|c s]; [exact I|]. destruct (digit base c) as [d|] eqn:D; [|reflexivity]. apply digit_iff in D; [|exact B]. destruct E. exists d. exact D.
Qed.

(** The value of a number read left to right. *)
Fixpoint value (base x : N) (ds : list N) : N :=
  match ds with [] => x | c :: r => match digit base c with Some d => value base (x * base + d) r | None => x end end.
Lemma value_le base : 1 <= base -> forall ds x, x <= value base x ds.
Proof.
  intros B. induction ds as [|c ds IH]; intros x; cbn [value]; [lia|]. destruct (digit base c) as [d|]; [|lia]. specialize (IH (x * base + d)). nia.
Qed.
Lemma value_app base ds c d : base_ok base -> (forall x, In x ds -> exists e, digit base x = Some e) -> digit base c = Some d ->
  forall x, value base x (ds ++ [c]) = value base x ds * base + d.
Proof.
  intros B A D. induction ds as [|e ds IH]; intros x; cbn [app value]; [rewrite D; reflexivity|].
  destruct (A e (or_introl eq_refl)) as (v & Ev). rewrite Ev. apply IH. intros y Iy. apply A. right. exact Iy.
Qed.
Lemma digits_value base ds v : base_ok base -> digits base ds v -> value base 0 ds = v /\ (forall x, In x ds -> exists e, digit base x = Some e).
Proof.
  intros B. induction 1 as [c d H L|ds v c d _ [IH1 IH2] H L].
  - assert (D : digit base c = Some d) by (apply digit_iff; auto). split; [cbn [value]; rewrite D; lia|]. intros x [<- | []]. eauto.
  - assert (D : digit base c = Some d) by (apply digit_iff; auto). split; [rewrite (value_app base ds c d B IH2 D), IH1; reflexivity|].
    intros x I. apply in_app_or in I. destruct I as [I|[<- | []]]; eauto.
Qed.
Lemma number_value base s : base_ok base -> ends_number base s -> forall ds x, (forall c, In c ds -> exists e, digit base c = Some e) ->
  value base x ds < 0x10000000 -> number base x (ds ++ s) = (value base x ds, s).
Proof.
  intros B E. assert (B' : 2 <= base <= 16) by (destruct B as [-> | [-> | [-> | ->]]]; lia).
  assert (W : forall x, x < 0x10000000 -> wrap32 (x * base) = x * base) by (intros x L; unfold wrap32; apply N.mod_small; nia).
  induction ds as [|c ds IH]; intros x A L.
  - cbn [app value] in *. assert (N1 : number base x s = (wrap32 (x * base) / base, s)).
    { destruct s as [|c s]; cbn [number]; [reflexivity|]. pose proof (digit_none base (c :: s) B E) as H. cbn in H. rewrite H. reflexivity. }
    rewrite N1, (W x L), N.div_mul by lia. reflexivity.
  - destruct (A c (or_introl eq_refl)) as (d & D). cbn [app value number] in *. rewrite D in *. pose proof (value_le base ltac:(lia) ds (x * base + d)) as LV.
    assert (LX : x < 0x10000000) by nia. rewrite (W x LX). unfold wrap32 at 1. rewrite N.mod_small by lia. apply IH; [|exact L]. intros e I. apply A. right. exact I.
Qed.

Lemma from_ucs4_utf16 c : code_point c -> from_ucs4 c = utf16_char c.
Proof.
  unfold code_point, from_ucs4, utf16_char. intros L. destruct (N.ltb_spec c 0x10000) as [_|G]; [reflexivity|].
  assert (E : c = 0x10000 + (c - 0x10000)) by lia. set (k := c - 0x10000) in *.
  assert (K : k < 0x100000) by (unfold k; lia). clearbody k. subst c.
  replace (0x10000 + k) with (k + 64 * 1024) by lia. rewrite N.div_add, N.mod_add by lia.
  assert (k / 1024 < 1024) by (apply N.div_lt_upper_bound; lia). rewrite N.mod_small by lia. f_equal; [lia|]. f_equal. apply N.add_comm.
Qed.

Lemma radix_base l base : In (l, base) radix -> base_of l = Some base /\ named l = None /\ base_ok base.
Proof. intros H. unfold base_ok. cbn in H. decompose [or] H; try contradiction; match goal with E : _ = _ |- _ => injection E as <- <- end; repeat split; auto. Qed.
Lemma short_named l c : In (l, c) short -> named l = Some c.
Proof. intros H. cbn in H. decompose [or] H; try contradiction; match goal with E : _ = _ |- _ => injection E as <- <- end; reflexivity. Qed.
Lemma other_none c : ~ In c (map fst radix) -> ~ In c (map fst short) -> named c = None /\ base_of c = None.
Proof.
  intros R H. split.
  - unfold named. repeat match goal with |- context [?x =? ?y] => destruct (N.eqb_spec x y) as [-> |]; [destruct H; cbn; tauto|] end. reflexivity.
  - unfold base_of. cbn [existsb]. repeat match goal with |- context [?x =? ?y] => destruct (N.eqb_spec x y) as [-> |]; [destruct R; cbn; tauto|] end. reflexivity.
Qed.

Lemma short_low l c : In (l, c) short -> c < 256.
Proof. intros H. cbn in H. decompose [or] H; try contradiction; match goal with E : _ = _ |- _ => injection E as <- <- end; lia. Qed.
Lemma unescape_not f c r : c <> 92 -> unescape (S f) (c :: r) = option_map (cons c) (unescape f r).
Proof. intros N. cbn [unescape]. destruct c as [|p]; [reflexivity|]. do 7 (destruct p as [p|p|]; try reflexivity). congruence. Qed.
Lemma utf16_low c cs : c < 256 -> utf16 (c :: cs) = c :: utf16 cs.
Proof. intros L. unfold utf16. cbn [flat_map]. unfold utf16_char at 1. destruct (N.ltb_spec c 0x10000); [reflexivity|lia]. Qed.
Lemma unescape_spells s cs : spells s cs -> forall f, (length s < f)%nat -> unescape f s = Some (utf16 cs).
Proof.
  induction 1 as [|c s cs L N _ IH|l c s cs I _ IH|l base ds c s cs I D P E _ IH|c s cs L R H _ IH]; intros f F; (destruct f as [|f]; [lia|]); cbn [length] in F.
  - reflexivity.
  - rewrite unescape_not by exact N. rewrite IH by lia. rewrite utf16_low by exact L. reflexivity.
  - cbn [unescape]. rewrite (short_named l c I), IH by lia. rewrite utf16_low by (eapply short_low; exact I). reflexivity.
  - destruct (radix_base l base I) as (B & NM & BO). destruct (digits_value base ds c BO D) as [V A]. unfold code_point in P.
    cbn [unescape]. rewrite NM, B. rewrite (number_value base s BO E ds 0 A) by (rewrite V; lia). rewrite V, IH by (rewrite app_length in F; lia).
    rewrite from_ucs4_utf16 by exact P. reflexivity.
  - destruct (other_none c R H) as [N1 N2]. cbn [unescape]. rewrite N1, N2, IH by lia. rewrite utf16_low by exact L. reflexivity.
Qed.

Lemma spells_app s cs : spells s cs -> forall s' cs', spells s' cs' -> (forall base, ends_number base s') -> spells (s ++ s') (cs ++ cs').
Proof.
  induction 1 as [|c s cs L N _ IH|l c s cs I _ IH|l base ds c s cs I D P E _ IH|c s cs L R H _ IH]; intros s' cs' H' EN; cbn [app].
  - exact H'.
  - apply sp_plain; auto.
  - apply sp_short; auto.
  - rewrite <- app_assoc. eapply sp_number; try eassumption; [|auto]. destruct s as [|x s]; [apply EN|exact E].
  - apply sp_other; auto.
Qed.
Lemma no_digit base c : (c < 48 \/ 57 < c < 65 \/ 70 < c < 97 \/ 102 < c)%N -> ~ is_digit base c.
Proof. intros L (d & H & _). inversion H; subst; lia. Qed.

(** Every code point has a decimal spelling. *)
Lemma decimal fuel : forall v, v < N.of_nat fuel -> exists ds, digits 10 ds v.
Proof.
  induction fuel as [|fuel IH]; intros v L; [lia|]. destruct (N.lt_ge_cases v 10) as [S0|G].
  - exists [48 + v]. apply ds_one; [constructor; lia|lia].
  - destruct (IH (v / 10)) as (ds & D); [pose proof (N.div_lt v 10); lia|]. exists (ds ++ [48 + v mod 10]). pose proof (N.mod_lt v 10 ltac:(lia)).
    pose proof (N.div_mod v 10 ltac:(lia)) as E. replace v with (v / 10 * 10 + v mod 10) at 2 by lia. apply ds_more; [exact D|constructor; lia|lia].
Qed.
Lemma every_spelled cs : (forall c, In c cs -> code_point c) -> exists s, spells s cs /\ (s = [] \/ exists r, s = 92 :: r).
Proof.
  induction cs as [|c cs IH]; intros A; [exists []; split; [constructor|auto]|]. destruct IH as (s & H & B); [intros x I; apply A; right; exact I|].
  destruct (decimal (S (N.to_nat c)) c) as (ds & D); [lia|]. exists (92 :: 100 :: ds ++ s). split; [|right; eexists; reflexivity].
  eapply sp_number; [cbn; tauto|exact D|apply A; left; reflexivity| |exact H]. destruct B as [-> | (r & ->)]; [exact I|]. cbn. apply no_digit. lia.
Qed.

Lemma surrogates_pair k : k < 0x100000 -> surrogates (0xd800 + k / 1024) (0xdc00 + k mod 1024) = 0x10000 + k.
Proof.
  intros L. unfold surrogates, wrap32. pose proof (N.div_mod k 1024 ltac:(lia)) as E. set (q := k / 1024) in *. set (r := k mod 1024) in *. clearbody q r. subst k.
  replace ((0xd800 + q) * 1024 + (0xdc00 + r) + (0x100000000 - 0x35fdc00)) with (0x10000 + (1024 * q + r) + 1 * 0x100000000) by lia.
  rewrite N.mod_add by lia. apply N.mod_small. lia.
Qed.
Lemma range_units b e : code_point b -> code_point e -> range_bounds (utf16 [b; 45; e]) = Some (b, e + 1).
Proof.
  unfold code_point. intros LB LE. unfold utf16. cbn [flat_map]. change (utf16_char 45) with [45]. rewrite app_nil_r.
  assert (W : forall x, x < 0x110000 -> wrap32 (x + 1) = x + 1) by (intros x L; apply N.mod_small; lia).
  unfold utf16_char. destruct (N.ltb_spec b 0x10000) as [B|B], (N.ltb_spec e 0x10000) as [E|E]; cbn [app].
  - cbn [range_bounds]. change (45 =? 45) with true. cbv iota. rewrite W by lia. reflexivity.
  - cbn [range_bounds]. change (45 =? 45) with true. cbv iota. rewrite surrogates_pair by lia. replace (0x10000 + (e - 0x10000)) with e by lia. rewrite W by lia. reflexivity.
  - cbn [range_bounds]. replace (0xdc00 + (b - 0x10000) mod 1024 =? 45) with false by (symmetry; apply N.eqb_neq; intros X; clear - X; generalize dependent ((b - 0x10000) mod 1024); lia). change (45 =? 45) with true. cbv iota.
    rewrite surrogates_pair by lia. replace (0x10000 + (b - 0x10000)) with b by lia. rewrite W by lia. reflexivity.
  - cbn [range_bounds]. replace (0xdc00 + (b - 0x10000) mod 1024 =? 45) with false by (symmetry; apply N.eqb_neq; intros X; clear - X; generalize dependent ((b - 0x10000) mod 1024); lia). change (45 =? 45) with true. cbv iota.
    rewrite !surrogates_pair by lia. replace (0x10000 + (b - 0x10000)) with b by lia. replace (0x10000 + (e - 0x10000)) with e by lia. rewrite W by lia. reflexivity.
Qed.
