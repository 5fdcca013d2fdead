(** Proofs about the decoding iterators. *)
From Coq Require Import List NArith Lia Bool PeanoNat ZifyBool ZifyN ZifyNat.
From Verif Require Import UtfModel UtfSpec.
Import ListNotations.
Local Open Scope N_scope.

(** ** Bits *)
Definition bytes256 : list N := map N.of_nat (seq 0 256).
Lemma in_bytes b : b < 256 -> In b bytes256.
Proof. intros H. apply in_map_iff. exists (N.to_nat b). split; [lia|]. apply in_seq. lia. Qed.
Lemma check_bytes (P : N -> bool) : forallb P bytes256 = true -> forall b, b < 256 -> P b = true.
Proof. intros H b B. rewrite forallb_forall in H. apply H, in_bytes, B. Qed.
Lemma lead2 b : b < 256 -> (N.land b 0xe0 =? 0xc0) = ((192 <=? b) && (b <? 224)).
Proof. intros H. apply eqb_prop. revert b H. apply (check_bytes (fun b => Bool.eqb (N.land b 0xe0 =? 0xc0) ((192 <=? b) && (b <? 224)))). vm_compute. reflexivity. Qed.
Lemma lead3 b : b < 256 -> (N.land b 0xf0 =? 0xe0) = ((224 <=? b) && (b <? 240)).
Proof. intros H. apply eqb_prop. revert b H. apply (check_bytes (fun b => Bool.eqb (N.land b 0xf0 =? 0xe0) ((224 <=? b) && (b <? 240)))). vm_compute. reflexivity. Qed.
Lemma lead4 b : b < 256 -> (N.land b 0xf8 =? 0xf0) = ((240 <=? b) && (b <? 248)).
Proof. intros H. apply eqb_prop. revert b H. apply (check_bytes (fun b => Bool.eqb (N.land b 0xf8 =? 0xf0) ((240 <=? b) && (b <? 248)))). vm_compute. reflexivity. Qed.
Lemma land_mod a k : N.land a (2 ^ k - 1) = a mod 2 ^ k.
Proof. rewrite <- N.pred_sub, <- N.ones_equiv. apply N.land_ones. Qed.
Lemma land_1f a : N.land a 0x1f = a mod 32. Proof. apply (land_mod a 5). Qed.
Lemma land_0f a : N.land a 0x0f = a mod 16. Proof. apply (land_mod a 4). Qed.
Lemma land_3f a : N.land a 0x3f = a mod 64. Proof. apply (land_mod a 6). Qed.
Lemma shift_lor a b k : b < 2 ^ k -> N.lor (N.shiftl a k) b = a * 2 ^ k + b.
Proof.
  intros H. assert (Z : N.land (N.shiftl a k) b = 0).
  { apply N.bits_inj. intros i. rewrite N.land_spec, N.bits_0. destruct (N.ltb_spec i k) as [K|K].
    - rewrite N.shiftl_spec_low by exact K. reflexivity.
    - destruct (N.eq_dec b 0) as [->|NZ]; [rewrite N.bits_0; apply andb_false_r|]. rewrite (N.bits_above_log2 b i); [apply andb_false_r|].
      apply N.lt_le_trans with k; [|exact K]. apply N.log2_lt_pow2; lia. }
  rewrite <- N.lxor_lor by exact Z. rewrite <- N.add_nocarry_lxor by exact Z. rewrite N.shiftl_mul_pow2. reflexivity.
Qed.
Lemma more6_val r b : more6 r b = r * 64 + b mod 64.
Proof. unfold more6. rewrite land_3f. apply (shift_lor r (b mod 64) 6). apply N.mod_lt. discriminate. Qed.

(** ** One round *)
Definition bytes (l : list N) : Prop := Forall (fun b => b < 256) l.
Definition piece_of (s : list N) : piece :=
  match s with
  | b :: _ => if b <? 0x80 then Plain b else if (b <? 0xc0) || (0xf8 <=? b) then Bad else Seq (seq_value s)
  | [] => Bad
  end.
Lemma rd_at pre rest i : (i <= length rest)%nat -> rd (pre ++ rest) (i + length pre) = Ok (nth i rest 0).
Proof.
  intros H. unfold rd. rewrite app_length. destruct (Nat.leb_spec (i + length pre) (length pre + length rest)) as [K|K]; [|lia].
  rewrite app_nth2 by lia. replace (i + length pre - length pre)%nat with i by lia. reflexivity.
Qed.
Lemma rd_out pre rest i : (length rest < i)%nat -> rd (pre ++ rest) (i + length pre) = Overrun.
Proof. intros H. unfold rd. rewrite app_length. destruct (Nat.leb_spec (i + length pre) (length pre + length rest)) as [K|K]; [lia|reflexivity]. Qed.
Lemma rd_over buf p : (length buf < p)%nat -> rd buf p = Overrun.
Proof. intros H. unfold rd. destruct (Nat.leb_spec p (length buf)); [lia|reflexivity]. Qed.
Lemma round_over buf p : (length buf < p)%nat -> round buf p = Overrun.
Proof. intros H. unfold round. rewrite rd_over by exact H. reflexivity. Qed.

Lemma round_nil pre : round pre (length pre) = Ok (Plain 0, S (length pre)).
Proof. pose proof (rd_at pre [] 0 (le_n _)) as H. rewrite app_nil_r in H. cbn [plus nth] in H. unfold round. rewrite H. reflexivity. Qed.
Lemma round_ok pre b r s : b < 256 -> length r = Nat.pred (seq_len b) ->
  round (pre ++ b :: r ++ s) (length pre) = Ok (piece_of (b :: r), (length (b :: r) + length pre)%nat).
Proof.
  intros B H. unfold round. set (rest := b :: r ++ s). assert (LR : length rest = S (length r + length s)) by (unfold rest; cbn; rewrite app_length; reflexivity).
  assert (R0 : rd (pre ++ rest) (length pre) = Ok b) by (apply (rd_at pre rest 0); lia). rewrite R0. cbn [rbind]. clear R0.
  rewrite (lead2 b B), (lead3 b B), (lead4 b B). unfold seq_len in H. unfold piece_of.
  destruct (N.ltb_spec b 128) as [C1|C1].
  { destruct (N.ltb_spec b 192); [|lia]. destruct r; [|discriminate H]. reflexivity. }
  destruct (N.leb_spec 192 b) as [C2|C2]; cbn [andb].
  2:{ destruct (N.leb_spec 224 b); [lia|]. destruct (N.leb_spec 240 b); [lia|]. cbn [andb]. destruct (N.ltb_spec b 192); [|lia].
      destruct r; [|discriminate H]. reflexivity. }
  destruct (N.ltb_spec b 192); [lia|]. cbn [orb].
  destruct (N.ltb_spec b 224) as [C3|C3]; cbn [andb].
  { destruct r as [|x1 [|]]; try discriminate H. rewrite (rd_at pre rest 1) by (cbn; lia). cbn [rbind nth rest app].
    destruct (N.leb_spec 248 b); [lia|]. rewrite more6_val, land_1f. reflexivity. }
  destruct (N.leb_spec 224 b) as [C4|C4]; [|lia]. cbn [andb]. destruct (N.ltb_spec b 240) as [C5|C5]; cbn [andb].
  { destruct r as [|x1 [|x2 [|]]]; try discriminate H. rewrite (rd_at pre rest 1), (rd_at pre rest 2) by (cbn; lia). cbn [rbind nth rest app].
    destruct (N.leb_spec 248 b); [lia|]. rewrite !more6_val, land_0f. reflexivity. }
  destruct (N.leb_spec 240 b) as [C6|C6]; [|lia]. cbn [andb]. destruct (N.ltb_spec b 248) as [C7|C7]; cbn [andb].
  { destruct r as [|x1 [|x2 [|x3 [|]]]]; try discriminate H. rewrite (rd_at pre rest 1), (rd_at pre rest 2), (rd_at pre rest 3) by (cbn; lia). cbn [rbind nth rest app].
    destruct (N.leb_spec 248 b); [lia|]. rewrite !more6_val, land_0f. reflexivity. }
  destruct (N.leb_spec 248 b); [|lia]. destruct r; [|discriminate H]. reflexivity.
Qed.
(** An incomplete sequence at the end. *)
Lemma round_short pre b t : b < 256 -> (length t < Nat.pred (seq_len b))%nat ->
  round (pre ++ b :: t) (length pre) = Overrun \/ exists x p', round (pre ++ b :: t) (length pre) = Ok (x, p') /\ (length (pre ++ b :: t) < p')%nat.
Proof.
  intros B H. unfold round. set (rest := b :: t). assert (LR : length rest = S (length t)) by reflexivity.
  assert (R0 : rd (pre ++ rest) (length pre) = Ok b) by (apply (rd_at pre rest 0); lia). rewrite R0. cbn [rbind]. clear R0.
  rewrite (lead2 b B), (lead3 b B), (lead4 b B). unfold seq_len in H.
  rewrite app_length, LR.
  destruct (N.ltb_spec b 192); [cbn in H; lia|]. destruct (N.ltb_spec b 128); [lia|]. destruct (N.leb_spec 192 b); [|lia]. cbn [andb].
  assert (DEC : forall i, (i <= length rest)%nat \/ (length rest < i)%nat) by (intros; lia).
  destruct (N.ltb_spec b 224) as [C3|C3]; cbn [andb].
  { destruct t; [|cbn in H; lia]. rewrite (rd_at pre rest 1) by (cbn; lia). right. cbn [rbind]. eexists _, _. split; [reflexivity|cbn; lia]. }
  destruct (N.leb_spec 224 b) as [C4|C4]; [|lia]. cbn [andb]. destruct (N.ltb_spec b 240) as [C5|C5]; cbn [andb].
  { cbn [Nat.pred] in H. rewrite (rd_at pre rest 1) by lia. cbn [rbind]. destruct (DEC 2%nat) as [D|D]; [rewrite (rd_at pre rest 2) by exact D|rewrite (rd_out pre rest 2) by exact D; left; reflexivity].
    right. cbn [rbind]. eexists _, _. split; [reflexivity|lia]. }
  destruct (N.leb_spec 240 b) as [C6|C6]; [|lia]. cbn [andb]. destruct (N.ltb_spec b 248) as [C7|C7]; cbn [andb].
  { cbn [Nat.pred] in H. rewrite (rd_at pre rest 1) by lia. cbn [rbind]. destruct (DEC 2%nat) as [D|D]; [rewrite (rd_at pre rest 2) by exact D|rewrite (rd_out pre rest 2) by exact D; left; reflexivity].
    cbn [rbind]. destruct (DEC 3%nat) as [D3|D3]; [rewrite (rd_at pre rest 3) by exact D3|rewrite (rd_out pre rest 3) by exact D3; left; reflexivity].
    right. cbn [rbind]. eexists _, _. split; [reflexivity|lia]. }
  cbn in H. lia.
Qed.

(** ** The loops *)
Section Loop.
Context {X : Type}.
Variable em : piece -> option X.
Fixpoint gen (fuel : nat) (buf : list N) (p : nat) : res (X * nat) :=
  match fuel with
  | O => NoFuel
  | S f => let! (x, p') := round buf p in match em x with Some c => Ok (c, p') | None => gen f buf p' end
  end.
Fixpoint nx (n : nat) (rest : list N) : option (X * list N) :=
  match n, rest with
  | S n', b :: t =>
    let k := Nat.pred (seq_len b) in
    if Nat.ltb (length t) k then None
    else match em (piece_of (b :: firstn k t)) with
         | Some c => Some (c, skipn k t)
         | None => nx n' (skipn k t)
         end
  | _, _ => None
  end.
Lemma gen_over fuel buf p : (length buf < p)%nat -> gen (S fuel) buf p = Overrun.
Proof. intros H. cbn [gen]. rewrite round_over by exact H. reflexivity. Qed.
Lemma gen_nx : forall n rest pre fuel, (length rest <= n)%nat -> (length rest + 2 <= fuel)%nat -> bytes rest ->
  match nx n rest with
  | Some (c, r) => exists mid, rest = mid ++ r /\ mid <> [] /\ gen fuel (pre ++ rest) (length pre) = Ok (c, length (pre ++ mid))
  | None => gen fuel (pre ++ rest) (length pre) = Overrun \/ exists c p', gen fuel (pre ++ rest) (length pre) = Ok (c, p') /\ (length (pre ++ rest) < p')%nat
  end.
Proof.
  assert (SHORT : forall buf p fuel, round buf p = Overrun \/ (exists x p', round buf p = Ok (x, p') /\ (length buf < p')%nat) ->
    gen (S (S fuel)) buf p = Overrun \/ exists c p', gen (S (S fuel)) buf p = Ok (c, p') /\ (length buf < p')%nat).
  { intros buf p fuel [H|(x & p' & H & K)].
    - left. cbn [gen]. rewrite H. reflexivity.
    - change (gen (S (S fuel)) buf p) with (let! (x, p') := round buf p in match em x with Some c => Ok (c, p') | None => gen (S fuel) buf p' end).
      rewrite H. cbn [rbind]. destruct (em x) as [c|]; [right; exists c, p'; auto|left; apply gen_over; exact K]. }
  induction n as [|n IH]; intros rest pre fuel Hn Hf HB.
  - destruct rest; [|cbn in Hn; lia]. cbn [nx]. rewrite app_nil_r. cbn in Hf. destruct fuel as [|[|f]]; [lia|lia|].
    apply SHORT. right. exists (Plain 0), (S (length pre)). split; [apply round_nil|lia].
  - destruct rest as [|b t]; cbn [nx].
    { rewrite app_nil_r. destruct fuel as [|[|f]]; [cbn in Hf; lia..|]. apply SHORT. right. exists (Plain 0), (S (length pre)). split; [apply round_nil|lia]. }
    assert (B : b < 256) by (inversion HB; assumption).
    destruct (Nat.ltb_spec (length t) (Nat.pred (seq_len b))) as [C|C].
    { destruct fuel as [|[|f]]; [lia..|]. apply SHORT. apply round_short; assumption. }
    set (k := Nat.pred (seq_len b)) in *. assert (LF : length (firstn k t) = k) by (rewrite firstn_length; lia).
    pose proof (firstn_skipn k t) as FS.
    pose proof (round_ok pre b (firstn k t) (skipn k t) B LF) as R. rewrite FS in R.
    destruct fuel as [|f]; [lia|]. cbn [gen]. rewrite R. cbn [rbind].
    destruct (em (piece_of (b :: firstn k t))) as [c|].
    { exists (b :: firstn k t). split; [cbn; rewrite FS; reflexivity|]. split; [discriminate|]. f_equal. f_equal. rewrite app_length. lia. }
    assert (LS : length (skipn k t) = (length t - k)%nat) by (rewrite skipn_length; reflexivity). cbn [length] in Hn, Hf.
    specialize (IH (skipn k t) (pre ++ b :: firstn k t) f). rewrite LS in IH. 
    replace ((pre ++ b :: firstn k t) ++ skipn k t) with (pre ++ b :: t) in IH by (rewrite <- FS at 1; rewrite <- app_assoc; reflexivity).
    replace (length (pre ++ b :: firstn k t)) with (length (b :: firstn k t) + length pre)%nat in IH by (rewrite app_length; lia).
    assert (HB' : bytes (skipn k t)) by (inversion HB as [|? ? _ HB2]; subst; rewrite <- FS in HB2; apply Forall_app in HB2; apply HB2).
    specialize (IH ltac:(lia) ltac:(lia) HB'). destruct (nx n (skipn k t)) as [(c, r)|].
    + destruct IH as (mid & E1 & E2 & E3). exists (b :: firstn k t ++ mid). split; [cbn; rewrite <- app_assoc, <- E1, FS; reflexivity|]. split; [discriminate|].
      rewrite E3. f_equal. f_equal. rewrite <- app_assoc. cbn. reflexivity.
    + exact IH.
Qed.
End Loop.

Definition em8 (keep : N -> bool) (x : piece) : option N :=
  match x with Plain c => Some c | Seq c => if keep c then Some c else None | Bad => None end.
Lemma next8_gen keep : forall fuel buf p, next8 keep fuel buf p = gen (em8 keep) fuel buf p.
Proof.
  induction fuel as [|f IH]; intros buf p; [reflexivity|]. cbn [next8 gen]. destruct (round buf p) as [(x, p')| |]; try reflexivity. cbn [rbind].
  destruct x as [c|c|]; cbn [em8]; [reflexivity| |apply IH]. destruct (keep c); [reflexivity|apply IH].
Qed.
Definition em16 (x : piece) : option (N * N) :=
  match x with
  | Plain c => Some (c, 0)
  | Seq c => if c <=? 0xffff then if allowed c then Some (c, 0) else None else Some (high_surrogate c, low_surrogate c)
  | Bad => None
  end.
Lemma next8_16_gen : forall fuel buf p, next8_16_loop fuel buf p = let! (r, p') := gen em16 fuel buf p in Ok (fst r, (p', snd r)).
Proof.
  induction fuel as [|f IH]; intros buf p; [reflexivity|]. cbn [next8_16_loop gen]. destruct (round buf p) as [(x, p')| |]; try reflexivity. cbn [rbind].
  destruct x as [c|c|]; cbn [em16]; [reflexivity| |apply IH]. destruct (c <=? 0xffff); [destruct (allowed c)|]; try reflexivity. apply IH.
Qed.

(** ** Whole buffers *)
Section All.
Context {X : Type}.
Variable em : piece -> option X.
Fixpoint all8 (n : nat) (rest : list N) : option (list X) :=
  match rest with
  | [] => Some []
  | _ => match n with
         | O => None
         | S n' => match nx em (length rest) rest with
                   | Some (c, r) => match all8 n' r with Some l => Some (c :: l) | None => None end
                   | None => None
                   end
         end
  end.
Fixpoint emitted (l : list (list N)) : list X :=
  match l with [] => [] | s :: r => match em (piece_of s) with Some c => c :: emitted r | None => emitted r end end.
Definition ends_kept (l : list (list N)) : Prop := match l with [] => True | _ => em (piece_of (last l [])) <> None end.

Lemma nx_more : forall n m rest, (length rest <= n)%nat -> (n <= m)%nat -> nx em m rest = nx em n rest.
Proof.
  induction n as [|n IH]; intros m rest H K.
  - destruct rest; [destruct m; reflexivity|cbn in H; lia].
  - destruct m as [|m]; [lia|]. destruct rest as [|b t]; [reflexivity|]. cbn [nx]. destruct (Nat.ltb (length t) (Nat.pred (seq_len b))); [reflexivity|].
    destruct (em _); [reflexivity|]. apply IH; [rewrite skipn_length; cbn in H; lia|lia].
Qed.
Lemma nx_shrinks : forall n rest c r, nx em n rest = Some (c, r) -> (length r < length rest)%nat.
Proof.
  induction n as [|n IH]; intros rest c r H; [discriminate H|]. destruct rest as [|b t]; [discriminate H|]. cbn [nx] in H.
  destruct (Nat.ltb (length t) (Nat.pred (seq_len b))); [discriminate H|]. destruct (em _).
  - injection H as _ <-. rewrite skipn_length. cbn. lia.
  - apply IH in H. rewrite skipn_length in H. cbn. lia.
Qed.
Lemma split_all rest l : split8 rest l -> ends_kept l -> forall n, (length rest <= n)%nat -> all8 n rest = Some (emitted l).
Proof.
  induction 1 as [|b r s l H1 H2 IH]; intros EK n Hn.
  - destruct n; reflexivity.
  - destruct n as [|n]; [cbn in Hn; lia|].
    assert (NX : nx em (length (b :: r ++ s)) (b :: r ++ s) = match em (piece_of (b :: r)) with Some c => Some (c, s) | None => nx em (length (r ++ s)) s end).
    { cbn [length nx]. rewrite app_length, <- H1. destruct (Nat.ltb_spec (length r + length s) (length r)) as [B|B]; [lia|].
      rewrite firstn_app, firstn_all, Nat.sub_diag, firstn_O, app_nil_r, skipn_app, skipn_all, Nat.sub_diag, skipn_O. reflexivity. }
    cbn [all8]. rewrite NX. cbn [emitted]. cbn in Hn. rewrite app_length in Hn. destruct (em (piece_of (b :: r))) as [c|] eqn:EM.
    + assert (EK' : ends_kept l) by (destruct l as [|x l']; [exact I|exact EK]). rewrite (IH EK' n) by lia. reflexivity.
    + destruct l as [|x l']; [unfold ends_kept in EK; cbn [last] in EK; congruence|]. assert (EK' : ends_kept (x :: l')) by exact EK.
      specialize (IH EK' (S n) ltac:(lia)). inversion H2 as [|b' r' s' l0 X1 X2 E1 E2]. rewrite <- E1 in IH. cbn [all8] in IH.
      rewrite E1 in *. rewrite (nx_more (length s) (length (r ++ s)) s) by (rewrite ?app_length; lia). rewrite ?E2. exact IH.
Qed.
Lemma nx_split : forall n rest c r, nx em n rest = Some (c, r) -> forall l, split8 r l ->
  exists l0 s, split8 rest (l0 ++ s :: l) /\ emitted l0 = [] /\ em (piece_of s) = Some c.
Proof.
  induction n as [|n IH]; intros rest c r H l SP; [discriminate H|]. destruct rest as [|b t]; [discriminate H|]. cbn [nx] in H.
  destruct (Nat.ltb_spec (length t) (Nat.pred (seq_len b))) as [B|B]; [discriminate H|]. set (k := Nat.pred (seq_len b)) in *.
  assert (LF : length (firstn k t) = k) by (rewrite firstn_length; lia). pose proof (firstn_skipn k t) as FS.
  destruct (em (piece_of (b :: firstn k t))) as [c'|] eqn:EM.
  - injection H as <- <-. exists [], (b :: firstn k t). split; [|auto]. cbn [app]. rewrite <- FS at 1. constructor; assumption.
  - destruct (IH _ _ _ H l SP) as (l0 & s & S1 & S2 & S3). exists ((b :: firstn k t) :: l0), s. split; [|split; [cbn [emitted]; rewrite EM; exact S2|exact S3]].
    cbn [app]. rewrite <- FS at 1. constructor; assumption.
Qed.
Lemma all_split : forall n rest out, all8 n rest = Some out -> exists l, split8 rest l /\ ends_kept l /\ out = emitted l.
Proof.
  induction n as [|n IH]; intros rest out H.
  - destruct rest; [|discriminate H]. injection H as <-. exists []. split; [constructor|]. split; [exact I|reflexivity].
  - destruct rest as [|b t]; [injection H as <-; exists []; split; [constructor|]; split; [exact I|reflexivity]|].
    cbn [all8] in H. destruct (nx em (length (b :: t)) (b :: t)) as [(c, r)|] eqn:NX; [|discriminate H]. destruct (all8 n r) as [o|] eqn:A; [|discriminate H]. injection H as <-.
    destruct (IH _ _ A) as (l & S1 & S2 & S3). destruct (nx_split _ _ _ _ NX l S1) as (l0 & s & T1 & T2 & T3). exists (l0 ++ s :: l). split; [exact T1|].
    assert (EA : forall x y, emitted (x ++ y) = emitted x ++ emitted y).
    { clear. induction x as [|a x IHx]; intros y; [reflexivity|]. cbn [app emitted]. destruct (em (piece_of a)); [cbn; f_equal|]; apply IHx. }
    split; [|rewrite EA, T2; cbn [app emitted]; rewrite T3, S3; reflexivity].
    unfold ends_kept. destruct (l0 ++ s :: l) eqn:Q; [exact I|]. rewrite <- Q. clear Q.
    assert (LA : last (l0 ++ s :: l) [] = last (s :: l) []).
    { clear. induction l0 as [|a l0 IHl]; [reflexivity|]. cbn [app]. rewrite <- IHl. destruct (l0 ++ s :: l) eqn:Q; [destruct l0; discriminate Q|reflexivity]. }
    rewrite LA. destruct l as [|y l']; [cbn [last]; congruence|]. change (last (s :: y :: l') []) with (last (y :: l') []). exact S2.
Qed.
End All.

Lemma collect8_all keep : forall n rest pre fuel, (length rest <= n)%nat -> (length rest + 2 <= fuel)%nat -> bytes rest ->
  collect (fun p => p) (next8 keep (rounds (pre ++ rest)) (pre ++ rest)) fuel (length (pre ++ rest)) (length pre) =
  match all8 (em8 keep) n rest with Some l => Ok l | None => Overrun end.
Proof.
  induction n as [|n IH]; intros rest pre fuel Hn Hf HB.
  - destruct rest; [|cbn in Hn; lia]. rewrite app_nil_r. destruct fuel as [|f]; [lia|]. cbn [collect all8]. rewrite Nat.eqb_refl. reflexivity.
  - destruct rest as [|b t].
    { rewrite app_nil_r. destruct fuel as [|f]; [lia|]. cbn [collect all8]. rewrite Nat.eqb_refl. reflexivity. }
    destruct fuel as [|f]; [lia|]. cbn [all8]. cbn [collect]. destruct (Nat.eqb_spec (length pre) (length (pre ++ b :: t))) as [E|E]; [rewrite app_length in E; cbn in E; lia|].
    rewrite next8_gen. pose proof (gen_nx (em8 keep) (length (b :: t)) (b :: t) pre (rounds (pre ++ b :: t)) (le_n _)) as G.
    specialize (G ltac:(unfold rounds; rewrite app_length; lia) HB). destruct (nx (em8 keep) (length (b :: t)) (b :: t)) as [(c, r)|].
    + destruct G as (mid & E1 & E2 & E3). rewrite E3. cbn [rbind]. rewrite E1, app_assoc. rewrite E1 in Hn, Hf, HB. rewrite app_length in Hn, Hf.
      assert (0 < length mid)%nat by (destruct mid; [congruence|cbn; lia]). rewrite (IH r (pre ++ mid) f); [|lia|lia|apply Forall_app in HB; apply HB].
      destruct (all8 (em8 keep) n r); reflexivity.
    + destruct G as [G|(c & p' & G & K)]; rewrite G; [reflexivity|]. cbn [rbind]. destruct f as [|f]; [cbn in Hf; lia|]. cbn [collect].
      destruct (Nat.eqb_spec p' (length (pre ++ b :: t))); [lia|]. rewrite next8_gen. unfold rounds. rewrite gen_over by exact K. reflexivity.
Qed.

(** Exactly what the UTF-8 iterators do with any bytes. *)
Theorem collect8_exact keep buf : bytes buf ->
  (forall l, split8 buf l -> ends_kept (em8 keep) l -> collect8 keep buf = Ok (emitted (em8 keep) l)) /\
  ((forall l, split8 buf l -> ~ ends_kept (em8 keep) l) -> collect8 keep buf = Overrun).
Proof.
  intros HB. unfold collect8. pose proof (collect8_all keep (length buf) buf [] (rounds buf) (le_n _)) as H. cbn [app length] in H.
  rewrite H by (try exact HB; unfold rounds; lia). split.
  - intros l S E. rewrite (split_all (em8 keep) buf l S E (length buf) (le_n _)). reflexivity.
  - intros N. destruct (all8 (em8 keep) (length buf) buf) as [o|] eqn:A; [|reflexivity]. destruct (all_split _ _ _ _ A) as (l & S & E & _). destruct (N l S E).
Qed.

(** ** Encoded text *)
Ltac divs := repeat match goal with
  | |- context [?a / ?b] => let q := fresh "q" in let r := fresh "r" in
      pose proof (N.div_mod a b ltac:(discriminate)); pose proof (N.mod_lt a b ltac:(discriminate)); set (q := a / b) in *; set (r := a mod b) in *
  end.
Lemma utf8_char_len c : c < 0x200000 -> exists b r, utf8_char c = b :: r /\ length r = Nat.pred (seq_len b) /\ bytes (b :: r).
Proof.
  intros H. unfold utf8_char, seq_len. assert (M : forall a, a mod 64 < 64) by (intros a; apply N.mod_lt; discriminate).
  pose proof (M c). pose proof (M (c / 64)). pose proof (M (c / 4096)).
  destruct (N.ltb_spec c 0x80) as [C1|C1].
  { exists c, []. split; [reflexivity|]. split; [destruct (N.ltb_spec c 192); [reflexivity|lia]|]. repeat constructor. lia. }
  destruct (N.ltb_spec c 0x800) as [C2|C2].
  { assert (c / 64 < 32) by (apply N.div_lt_upper_bound; lia). eexists _, _. split; [reflexivity|]. split.
    - destruct (N.ltb_spec (192 + c / 64) 192); [lia|]. destruct (N.ltb_spec (192 + c / 64) 224); [reflexivity|lia].
    - repeat constructor; lia. }
  destruct (N.ltb_spec c 0x10000) as [C3|C3].
  { assert (c / 4096 < 16) by (apply N.div_lt_upper_bound; lia). eexists _, _. split; [reflexivity|]. split.
    - destruct (N.ltb_spec (224 + c / 4096) 192); [lia|]. destruct (N.ltb_spec (224 + c / 4096) 224); [lia|]. destruct (N.ltb_spec (224 + c / 4096) 240); [reflexivity|lia].
    - repeat constructor; lia. }
  assert (c / 262144 < 8) by (apply N.div_lt_upper_bound; lia). eexists _, _. split; [reflexivity|]. split.
  - destruct (N.ltb_spec (240 + c / 262144) 192); [lia|]. destruct (N.ltb_spec (240 + c / 262144) 224); [lia|]. destruct (N.ltb_spec (240 + c / 262144) 240); [lia|].
    destruct (N.ltb_spec (240 + c / 262144) 248); [reflexivity|lia].
  - repeat constructor; lia.
Qed.
Lemma join64 a : a / 64 * 64 + a mod 64 = a.
Proof. rewrite N.mul_comm. symmetry. apply N.div_mod. discriminate. Qed.
Lemma div64 a b : a / (b * 64) = a / b / 64.
Proof. destruct (N.eq_dec b 0) as [->|B]; [rewrite N.mul_0_l; destruct a; reflexivity|]. symmetry. apply N.div_div; [exact B|discriminate]. Qed.
Lemma tail_mod a : (0x80 + a mod 64) mod 64 = a mod 64.
Proof. replace (0x80 + a mod 64) with (a mod 64 + 2 * 64) by lia. rewrite N.mod_add by discriminate. apply N.mod_small, N.mod_lt. discriminate. Qed.
Lemma head_mod h a k : a < k -> k <> 0 -> h mod k = 0 -> (h + a) mod k = a.
Proof. intros H K Z. rewrite <- N.add_mod_idemp_l by exact K. rewrite Z. apply N.mod_small. exact H. Qed.
Lemma utf8_char_piece c : c < 0x200000 -> piece_of (utf8_char c) = if c <? 0x80 then Plain c else Seq c.
Proof.
  intros H. unfold utf8_char. destruct (N.ltb_spec c 0x80) as [C1|C1]; [cbn [piece_of]; destruct (N.ltb_spec c 128); [reflexivity|lia]|].
  destruct (N.ltb_spec c 0x800) as [C2|C2].
  { assert (Q : c / 64 < 32) by (apply N.div_lt_upper_bound; lia). cbn [piece_of]. destruct (N.ltb_spec (192 + c / 64) 128); [lia|].
    destruct (N.ltb_spec (192 + c / 64) 192); [lia|]. destruct (N.leb_spec 248 (192 + c / 64)); [lia|]. cbn [orb]. f_equal.
    unfold seq_value. cbn [length fold_left]. rewrite tail_mod, (head_mod 192 (c / 64) 32) by (try reflexivity; try discriminate; exact Q). apply join64. }
  destruct (N.ltb_spec c 0x10000) as [C3|C3].
  { assert (Q : c / 4096 < 16) by (apply N.div_lt_upper_bound; lia). cbn [piece_of]. destruct (N.ltb_spec (224 + c / 4096) 128); [lia|].
    destruct (N.ltb_spec (224 + c / 4096) 192); [lia|]. destruct (N.leb_spec 248 (224 + c / 4096)); [lia|]. cbn [orb]. f_equal.
    unfold seq_value. cbn [length fold_left]. rewrite !tail_mod, (head_mod 224 (c / 4096) 16) by (try reflexivity; try discriminate; exact Q).
    rewrite (div64 c 64 : c / 4096 = c / 64 / 64). rewrite !join64. reflexivity. }
  assert (Q : c / 262144 < 8) by (apply N.div_lt_upper_bound; lia). cbn [piece_of]. destruct (N.ltb_spec (240 + c / 262144) 128); [lia|].
  destruct (N.ltb_spec (240 + c / 262144) 192); [lia|]. destruct (N.leb_spec 248 (240 + c / 262144)); [lia|]. cbn [orb]. f_equal.
  unfold seq_value. cbn [length fold_left]. rewrite !tail_mod, (head_mod 240 (c / 262144) 16) by (try reflexivity; try discriminate; lia).
  rewrite (div64 c 4096 : c / 262144 = c / 4096 / 64), (div64 c 64 : c / 4096 = c / 64 / 64). rewrite !join64. reflexivity.
Qed.
Definition coded (cs : list N) : Prop := Forall (fun c => c < 0x200000) cs.
Lemma utf8_split cs : coded cs -> split8 (utf8 cs) (map utf8_char cs) /\ bytes (utf8 cs).
Proof.
  induction 1 as [|c cs H _ (IH1 & IH2)]; [split; constructor|]. destruct (utf8_char_len c H) as (b & r & E & L & B).
  cbn [utf8 flat_map map]. fold (utf8 cs). rewrite E. split; [cbn [app]; constructor; assumption|]. apply Forall_app. auto.
Qed.
Lemma last_map {A B} (f : A -> B) l d d' : l <> [] -> last (map f l) d' = f (last l d).
Proof. induction l as [|a l IH]; intros H; [congruence|]. destruct l as [|b l]; [reflexivity|]. change (last (map f (b :: l)) d' = f (last (b :: l) d)). apply IH. discriminate. Qed.
Definition kept8 (keep : N -> bool) (c : N) : bool := (c <? 0x80) || keep c.
Lemma em8_char keep c : c < 0x200000 -> em8 keep (piece_of (utf8_char c)) = if kept8 keep c then Some c else None.
Proof. intros H. rewrite utf8_char_piece by exact H. unfold kept8. destruct (c <? 128); reflexivity. Qed.
Lemma emitted_coded keep cs : coded cs -> emitted (em8 keep) (map utf8_char cs) = filter (kept8 keep) cs.
Proof. induction 1 as [|c cs H _ IH]; [reflexivity|]. cbn [map emitted filter]. rewrite (em8_char keep c H), IH. destruct (kept8 keep c); reflexivity. Qed.
Theorem collect8_coded keep cs : coded cs -> (cs = [] \/ kept8 keep (last cs 0) = true) -> collect8 keep (utf8 cs) = Ok (filter (kept8 keep) cs).
Proof.
  intros H E. destruct (utf8_split cs H) as (S & B). rewrite <- (emitted_coded keep cs H). apply (collect8_exact keep _ B); [exact S|].
  destruct cs as [|c cs]; [exact I|]. destruct E as [E|E]; [discriminate E|]. unfold ends_kept. cbn [map].
  change (utf8_char c :: map utf8_char cs) with (map utf8_char (c :: cs)). rewrite (last_map utf8_char (c :: cs) 0 []) by discriminate.
  rewrite em8_char; [rewrite E; discriminate|]. 
  assert (In (last (c :: cs) 0) (c :: cs)) by (destruct (exists_last (l := c :: cs)) as (x & y & ->); [discriminate|]; rewrite last_last; apply in_or_app; right; left; reflexivity).
  exact (proj1 (Forall_forall _ _) H _ H0).
Qed.

(** The filter. *)
Lemma land_fffe c : N.land c 0xfffe = 2 * ((c / 2) mod 0x8000).
Proof.
  apply N.bits_inj. intros i. rewrite N.land_spec. change 0xfffe with (2 * N.ones 15). 
  destruct (N.eq_dec i 0) as [->|NZ]; [rewrite !N.testbit_even_0, andb_false_r; reflexivity|].
  replace i with (N.succ (i - 1)) by lia. rewrite !N.double_bits_succ || rewrite !N.testbit_even_succ by lia.
  change 0x8000 with (2 ^ 15). rewrite <- N.land_ones, N.land_spec. f_equal. change 2 with (2 ^ 1) at 1. rewrite <- N.shiftr_div_pow2, N.shiftr_spec by lia. f_equal. lia.
Qed.
Lemma allowed_iff c : c < 0x200000 -> (allowed c = true <-> ~ dropped c).
Proof.
  intros H. unfold allowed, dropped. rewrite land_fffe.
  assert (E : (2 * ((c / 2) mod 0x8000) =? 0xfffe) = ((c mod 0x10000 =? 0xfffe) || (c mod 0x10000 =? 0xffff))).
  { pose proof (N.div_mod c 2 ltac:(discriminate)) as D1. pose proof (N.mod_lt c 2 ltac:(discriminate)) as D2.
    pose proof (N.div_mod (c / 2) 0x8000 ltac:(discriminate)) as D3. pose proof (N.mod_lt (c / 2) 0x8000 ltac:(discriminate)) as D4.
    set (q := c / 2) in *. set (m := c mod 2) in *. set (u := q / 0x8000) in *. set (v := q mod 0x8000) in *.
    assert (M : c mod 0x10000 = 2 * v + m) by (symmetry; apply (N.mod_unique c 0x10000 u); lia). rewrite M.
    destruct (N.eqb_spec (2 * v) 0xfffe); destruct (N.eqb_spec (2 * v + m) 0xfffe); destruct (N.eqb_spec (2 * v + m) 0xffff); cbn; try reflexivity; lia. }
  rewrite E. assert (F : (15 <? (c + 2 ^ 32 - 64976) mod 2 ^ 32) = negb ((64976 <=? c) && (c <? 64992))).
  { destruct (N.leb_spec 64976 c) as [K|K]; cbn [andb].
    - replace (c + 2 ^ 32 - 64976) with (c - 64976 + 1 * 2 ^ 32) by lia. rewrite N.mod_add by discriminate. rewrite N.mod_small by lia.
      destruct (N.ltb_spec 15 (c - 64976)); destruct (N.ltb_spec c 64992); cbn; try reflexivity; lia.
    - rewrite N.mod_small by lia. apply N.ltb_lt. lia. }
  rewrite F. split.
  - intros K. apply andb_prop in K. destruct K as (K1 & K2). intros [D|[D|D]].
    + rewrite D in K1. discriminate K1.
    + rewrite D in K1. discriminate K1.
    + apply negb_true_iff, andb_false_iff in K2. destruct K2 as [K2|K2]; [apply N.leb_gt in K2|apply N.ltb_ge in K2]; lia.
  - intros K. apply andb_true_intro. split.
    + apply negb_true_iff, orb_false_iff. split; apply N.eqb_neq; intros D; apply K; auto.
    + apply negb_true_iff, andb_false_iff. destruct (N.leb_spec 64976 c); [right; apply N.ltb_ge|left; reflexivity]. destruct (N.le_gt_cases 64992 c); [assumption|]. exfalso. apply K. right. right. lia.
Qed.
Lemma small_not_dropped c : c < 0x80 -> ~ dropped c.
Proof. intros H [D|[D|D]]; [rewrite N.mod_small in D by lia; lia..|lia]. Qed.
Lemma kept8_allowed c : c < 0x200000 -> (kept8 allowed c = true <-> ~ dropped c).
Proof.
  intros H. unfold kept8. destruct (N.ltb_spec c 0x80) as [C|C]; cbn [orb].
  - split; [intros _; apply small_not_dropped; exact C|reflexivity].
  - apply allowed_iff. exact H.
Qed.

(** ** UTF-8 to UTF-16 *)
Fixpoint flush (l : list (N * N)) : list N :=
  match l with
  | [] => []
  | (c, s) :: r => match r with [] => [c] | _ => if s =? 0 then c :: flush r else c :: s :: flush r end
  end.
Lemma collect_end {St} (pos : St -> nat) next fuel len s : pos s = len -> collect pos next fuel len s = Ok [].
Proof. intros H. destruct fuel; cbn [collect]; rewrite H, Nat.eqb_refl; reflexivity. Qed.
Lemma collect16_all : forall n rest pre fuel, (length rest <= n)%nat -> (2 * length rest + 2 <= fuel)%nat -> bytes rest ->
  collect fst (next8_16 (rounds (pre ++ rest)) (pre ++ rest)) fuel (length (pre ++ rest)) (length pre, 0) =
  match all8 em16 n rest with Some l => Ok (flush l) | None => Overrun end.
Proof.
  induction n as [|n IH]; intros rest pre fuel Hn Hf HB.
  - destruct rest; [|cbn in Hn; lia]. rewrite app_nil_r. rewrite collect_end by reflexivity. reflexivity.
  - destruct rest as [|b t].
    { rewrite app_nil_r. rewrite collect_end by reflexivity. reflexivity. }
    destruct fuel as [|f]; [lia|]. cbn [all8]. cbn [collect fst]. destruct (Nat.eqb_spec (length pre) (length (pre ++ b :: t))) as [E|E]; [rewrite app_length in E; cbn in E; lia|].
    unfold next8_16 at 1. change (0 =? 0) with true. cbn [negb]. rewrite next8_16_gen. pose proof (gen_nx em16 (length (b :: t)) (b :: t) pre (rounds (pre ++ b :: t)) (le_n _)) as G.
    specialize (G ltac:(unfold rounds; rewrite app_length; lia) HB). destruct (nx em16 (length (b :: t)) (b :: t)) as [((c, s), r)|].
    + destruct G as (mid & E1 & E2 & E3). rewrite E3. cbn [rbind fst snd]. rewrite E1, app_assoc. rewrite E1 in Hn, Hf, HB. rewrite app_length in Hn, Hf.
      assert (0 < length mid)%nat by (destruct mid; [congruence|cbn; lia]).
      assert (HB' : bytes r) by (apply Forall_app in HB; apply HB).
      destruct (N.eqb_spec s 0) as [->|NZ].
      * rewrite (IH r (pre ++ mid) f) by (try assumption; lia). destruct (all8 em16 n r) as [[|y l]|]; reflexivity.
      * destruct r as [|b2 t2].
        { rewrite collect_end by (rewrite app_nil_r; reflexivity). destruct n; reflexivity. }
        assert (NE : Nat.eqb (length (pre ++ mid)) (length ((pre ++ mid) ++ b2 :: t2)) = false) by (apply Nat.eqb_neq; rewrite (app_length (pre ++ mid)); cbn; lia).
        destruct f as [|f]; [lia|]. cbn [collect fst]. rewrite NE. unfold next8_16 at 1. apply N.eqb_neq in NZ as NZb. rewrite NZb. cbn [negb rbind].
        rewrite (IH (b2 :: t2) (pre ++ mid) f) by (try assumption; lia). 
        destruct (all8 em16 n (b2 :: t2)) as [[|y l]|] eqn:A; [|cbn [rbind flush]; rewrite NZb; reflexivity|reflexivity].
        destruct n; [discriminate A|]. cbn [all8] in A. destruct (nx em16 _ (b2 :: t2)) as [(cc, rr)|]; [|discriminate A]. destruct (all8 em16 n rr); discriminate A.
    + destruct G as [G|((c, s) & p' & G & K)]; rewrite G; [reflexivity|]. cbn [rbind fst snd]. destruct f as [|f]; [cbn in Hf; lia|].
      assert (NE : Nat.eqb p' (length (pre ++ b :: t)) = false) by (apply Nat.eqb_neq; lia).
      assert (OV : forall g, next8_16_loop (rounds (pre ++ b :: t)) (pre ++ b :: t) p' = g -> g = Overrun).
      { intros g <-. rewrite next8_16_gen. unfold rounds. rewrite gen_over by exact K. reflexivity. }
      cbn [collect fst]. rewrite NE. unfold next8_16 at 1. destruct (N.eqb_spec s 0) as [Z|Z]; cbn [negb].
      * rewrite (OV _ eq_refl). reflexivity.
      * cbn [rbind]. destruct f as [|f]; [cbn in Hf; lia|]. cbn [collect fst]. rewrite NE. unfold next8_16 at 1. change (0 =? 0) with true. cbn [negb]. rewrite (OV _ eq_refl). reflexivity.
Qed.
Theorem collect8_16_exact buf : bytes buf ->
  (forall l, split8 buf l -> ends_kept em16 l -> collect8_16 buf = Ok (flush (emitted em16 l))) /\
  ((forall l, split8 buf l -> ~ ends_kept em16 l) -> collect8_16 buf = Overrun).
Proof.
  intros HB. unfold collect8_16. pose proof (collect16_all (length buf) buf [] (2 * rounds buf) (le_n _)) as H. cbn [app length] in H.
  rewrite H by (try exact HB; unfold rounds; lia). split.
  - intros l S E. rewrite (split_all em16 buf l S E (length buf) (le_n _)). reflexivity.
  - intros N. destruct (all8 em16 (length buf) buf) as [o|] eqn:A; [|reflexivity]. destruct (all_split _ _ _ _ A) as (l & S & E & _). destruct (N l S E).
Qed.
Definition kept16 (c : N) : bool := (c <? 0x80) || (0x10000 <=? c) || allowed c.
Definition halves (c : N) : N * N := if c <? 0x10000 then (c, 0) else (high_surrogate c, low_surrogate c).
Lemma em16_char c : c < 0x200000 -> em16 (piece_of (utf8_char c)) = if kept16 c then Some (halves c) else None.
Proof.
  intros H. rewrite utf8_char_piece by exact H. unfold kept16, halves. destruct (N.ltb_spec c 128) as [C|C]; cbn [em16 orb].
  - destruct (N.ltb_spec c 0x10000); [reflexivity|lia].
  - destruct (N.leb_spec c 0xffff); destruct (N.leb_spec 0x10000 c); destruct (N.ltb_spec c 0x10000); try lia; cbn [orb]; try reflexivity. 
Qed.
Lemma emitted_coded16 cs : coded cs -> emitted em16 (map utf8_char cs) = map halves (filter kept16 cs).
Proof. induction 1 as [|c cs H _ IH]; [reflexivity|]. cbn [map emitted filter]. rewrite (em16_char c H), IH. destruct (kept16 c); reflexivity. Qed.
Lemma halves_utf16 c : code_point c -> utf16_char c = if snd (halves c) =? 0 then [fst (halves c)] else [fst (halves c); snd (halves c)].
Proof.
  unfold code_point. intros H. unfold utf16_char, halves. destruct (N.ltb_spec c 0x10000) as [C|C]; [reflexivity|]. cbn [fst snd].
  unfold low_surrogate, high_surrogate. destruct (N.eqb_spec (c mod 0x400 + 0xdc00) 0) as [Z|Z]; [lia|].
  rewrite N.shiftr_div_pow2. change (2 ^ 10) with 1024. change 0x400 with 1024.
  assert (E : c = (c - 0x10000) + 64 * 1024) by lia.
  assert (D : c / 1024 = (c - 0x10000) / 1024 + 64) by (rewrite E at 1; apply N.div_add; discriminate).
  assert (M : c mod 1024 = (c - 0x10000) mod 1024) by (rewrite E at 1; apply N.mod_add; discriminate).
  assert (L : (c - 0x10000) / 1024 < 1024) by (apply N.div_lt_upper_bound; lia).
  rewrite D, M. rewrite (N.mod_small ((c - 0x10000) / 1024 + 64 + 0xd7c0)) by lia. f_equal; [lia|]. f_equal. lia.
Qed.
Lemma removelast_app' {A} (x y : list A) : y <> [] -> removelast (x ++ y) = x ++ removelast y.
Proof. apply removelast_app. Qed.
Lemma flush_utf16 cs : Forall code_point cs -> cs <> [] ->
  flush (map halves cs) = if last cs 0 <? 0x10000 then utf16 cs else removelast (utf16 cs).
Proof.
  assert (NN : forall c cs, utf16 (c :: cs) <> []).
  { intros c0 cs0. cbn [utf16 flat_map]. unfold utf16_char. destruct (c0 <? 0x10000); discriminate. }
  induction 1 as [|c cs H F IH]; intros NE; [congruence|]. destruct cs as [|d cs].
  - cbn [last map flush utf16 flat_map]. rewrite app_nil_r, halves_utf16 by exact H. unfold halves. destruct (c <? 0x10000); [reflexivity|]. cbn [fst snd].
    destruct (N.eqb_spec (low_surrogate c) 0) as [Z|Z]; [unfold low_surrogate in Z; lia|reflexivity].
  - specialize (IH ltac:(discriminate)). change (last (c :: d :: cs) 0) with (last (d :: cs) 0). change (utf16 (c :: d :: cs)) with (utf16_char c ++ utf16 (d :: cs)).
    rewrite removelast_app by apply NN. 
    transitivity (utf16_char c ++ flush (map halves (d :: cs))); [|rewrite IH; destruct (last (d :: cs) 0 <? 0x10000); reflexivity].
    rewrite (halves_utf16 c H). cbn [map flush]. destruct (halves c) as (h, l). cbn [fst snd]. destruct (l =? 0); reflexivity.
Qed.
Lemma last_in (cs : list N) : cs <> [] -> In (last cs 0) cs.
Proof. intros H. destruct (exists_last H) as (x & y & ->). rewrite last_last. apply in_or_app. right. left. reflexivity. Qed.
Lemma last_filter (f : N -> bool) cs : cs <> [] -> f (last cs 0) = true -> filter f cs <> [] /\ last (filter f cs) 0 = last cs 0.
Proof.
  intros H K. destruct (exists_last H) as (x & y & ->). rewrite last_last in *. rewrite filter_app. cbn [filter]. rewrite K.
  split; [destruct (filter f x); discriminate|apply last_last].
Qed.
Theorem collect8_16_coded cs : Forall code_point cs -> cs <> [] -> kept16 (last cs 0) = true ->
  collect8_16 (utf8 cs) = Ok (if last cs 0 <? 0x10000 then utf16 (filter kept16 cs) else removelast (utf16 (filter kept16 cs))).
Proof.
  intros H NE E. assert (CO : coded cs) by (eapply Forall_impl; [|exact H]; unfold code_point; cbn; intros; lia).
  destruct (utf8_split cs CO) as (S & B). rewrite (proj1 (collect8_16_exact _ B) _ S).
  - f_equal. rewrite (emitted_coded16 cs CO). destruct (last_filter kept16 cs NE E) as (F1 & F2). rewrite flush_utf16; [rewrite F2; reflexivity| |exact F1].
    apply Forall_forall. intros c IC. apply filter_In in IC. exact (proj1 (Forall_forall _ _) H c (proj1 IC)).
  - unfold ends_kept. destruct cs as [|c cs]; [congruence|]. cbn [map]. change (utf8_char c :: map utf8_char cs) with (map utf8_char (c :: cs)). rewrite (last_map utf8_char (c :: cs) 0 []) by discriminate.
    rewrite em16_char; [rewrite E; discriminate|]. exact (proj1 (Forall_forall _ _) CO _ (last_in _ NE)).
Qed.

(** ** UTF-16 *)
Definition units (l : list N) : Prop := Forall (fun u => u < 0x10000) l.
Lemma is_high_iff c : c < 0x10000 -> (is_high c = true <-> high_half c).
Proof.
  intros H. unfold is_high, high_half. assert (E : N.land c 0xfc00 = c / 1024 * 1024).
  { rewrite <- (N.shiftl_mul_pow2 _ 10), <- (N.shiftr_div_pow2 _ 10). apply N.bits_inj. intros i. rewrite N.land_spec. change 0xfc00 with (N.shiftl (N.ones 6) 10).
    destruct (N.ltb_spec i 10) as [K|K].
    - rewrite !N.shiftl_spec_low by exact K. apply andb_false_r.
    - rewrite !N.shiftl_spec_high by lia. rewrite N.shiftr_spec by lia. replace (i - 10 + 10) with i by lia. destruct (N.ltb_spec i 16) as [J|J].
      + rewrite N.ones_spec_low by lia. apply andb_true_r.
      + rewrite N.ones_spec_high by lia. rewrite andb_false_r. destruct (N.eq_dec c 0) as [->|NZ]; [rewrite N.bits_0; reflexivity|]. symmetry. apply N.bits_above_log2.
        apply N.lt_le_trans with 16; [apply N.log2_lt_pow2; [lia|exact H]|exact J]. }
  rewrite E. pose proof (N.div_mod c 1024 ltac:(discriminate)) as D1. pose proof (N.mod_lt c 1024 ltac:(discriminate)) as D2. set (q := c / 1024) in *.
  destruct (N.eqb_spec (q * 1024) 55296); split; intros; try lia; try discriminate.
Qed.
Lemma surrogate_value c d : high_half c -> d < 0x10000 -> surrogate_to_ucs4 c d = 0x10000 + (c - 0xd800) * 1024 + d - 0xdc00.
Proof.
  unfold high_half. intros H D. unfold surrogate_to_ucs4. rewrite N.shiftl_mul_pow2. change (2 ^ 10) with 1024.
  replace (c * 1024 + d + 2 ^ 32 - 56613888) with (0x10000 + (c - 0xd800) * 1024 + d - 0xdc00 + 1 * 2 ^ 32) by lia.
  rewrite N.mod_add by discriminate. apply N.mod_small. lia.
Qed.
Lemma collect_16 : forall n rest pre fuel, (length rest <= n)%nat -> (length rest + 2 <= fuel)%nat -> units rest ->
  (forall l, split16 rest l -> collect (fun p => p) (next16 (pre ++ rest)) fuel (length (pre ++ rest)) (length pre) = Ok (map pair_value l)) /\
  ((forall l, ~ split16 rest l) -> collect (fun p => p) (next16 (pre ++ rest)) fuel (length (pre ++ rest)) (length pre) = Overrun).
Proof.
  induction n as [|n IH]; intros rest pre fuel Hn Hf HU.
  - destruct rest; [|cbn in Hn; lia]. rewrite collect_end by (rewrite app_nil_r; reflexivity). split; [intros l S; inversion S; reflexivity|].
    intros N. destruct (N [] split16_nil).
  - destruct rest as [|c t].
    { rewrite collect_end by (rewrite app_nil_r; reflexivity). split; [intros l S; inversion S; reflexivity|]. intros N. destruct (N [] split16_nil). }
    destruct fuel as [|f]; [lia|]. cbn [collect]. destruct (Nat.eqb_spec (length pre) (length (pre ++ c :: t))) as [E|_]; [rewrite app_length in E; cbn in E; lia|].
    assert (C : c < 0x10000) by (inversion HU; assumption). assert (HT : units t) by (inversion HU; assumption). cbn [length] in Hn, Hf.
    unfold next16 at 1 3. assert (R0 : rd (pre ++ c :: t) (length pre) = Ok c) by (apply (rd_at pre (c :: t) 0); lia). rewrite R0. cbn [rbind].
    destruct (is_high c) eqn:HI.
    + apply (is_high_iff c C) in HI. destruct t as [|d t].
      * assert (R1 : rd (pre ++ [c]) (1 + length pre) = Ok 0) by (apply (rd_at pre [c] 1); cbn; lia). rewrite R1. cbn [rbind]. split.
        { intros l S. inversion S as [|? ? ? X _|]; subst. contradiction. }
        intros _. destruct f as [|f]; [lia|]. cbn [collect]. destruct (Nat.eqb_spec (2 + length pre) (length (pre ++ [c]))) as [E|_]; [rewrite app_length in E; cbn in E; lia|].
        unfold next16 at 1. rewrite rd_over by (rewrite app_length; cbn; lia). reflexivity.
      * assert (R1 : rd (pre ++ c :: d :: t) (1 + length pre) = Ok d) by (apply (rd_at pre (c :: d :: t) 1); cbn; lia). rewrite R1. cbn [rbind].
        assert (D : d < 0x10000) by (inversion HT; assumption). assert (HT2 : units t) by (inversion HT; assumption). cbn [length] in Hn, Hf.
        specialize (IH t (pre ++ [c; d]) f ltac:(lia) ltac:(lia) HT2). rewrite <- app_assoc in IH. cbn [app] in IH.
        replace (length (pre ++ [c; d])) with (2 + length pre)%nat in IH by (rewrite app_length; cbn; lia).
        destruct IH as (IH1 & IH2). split.
        { intros l S. inversion S as [| |? ? ? l' X1 X2]; subst; [contradiction|]. rewrite (IH1 l' X2). cbn [rbind map pair_value]. rewrite (surrogate_value c d HI D). reflexivity. }
        intros N. rewrite IH2; [reflexivity|]. intros l S. apply (N ([c; d] :: l)). constructor; assumption.
    + assert (NH : ~ high_half c) by (intros X; apply (is_high_iff c C) in X; congruence).
      specialize (IH t (pre ++ [c]) f ltac:(lia) ltac:(lia) HT). rewrite <- app_assoc in IH. cbn [app] in IH.
      replace (length (pre ++ [c])) with (S (length pre)) in IH by (rewrite app_length; cbn; lia). destruct IH as (IH1 & IH2). split.
      * intros l S. inversion S as [|? ? l' X1 X2|]; subst; [|contradiction]. cbn [rbind]. rewrite (IH1 l' X2). reflexivity.
      * intros N. cbn [rbind]. rewrite IH2; [reflexivity|]. intros l S. apply (N ([c] :: l)). constructor; assumption.
Qed.
Theorem collect16_exact buf : units buf ->
  (forall l, split16 buf l -> collect16 buf = Ok (map pair_value l)) /\ ((forall l, ~ split16 buf l) -> collect16 buf = Overrun).
Proof. intros H. unfold collect16. apply (collect_16 (length buf) buf [] (rounds buf) (le_n _)); [unfold rounds; lia|exact H]. Qed.
Lemma utf16_split cs : Forall (fun c => code_point c /\ ~ high_half c) cs -> exists l, split16 (utf16 cs) l /\ map pair_value l = cs /\ units (utf16 cs).
Proof.
  induction 1 as [|c cs (H1 & H2) _ (l & I1 & I2 & I3)]; [exists []; repeat split; constructor|]. cbn [utf16 flat_map]. fold (utf16 cs). unfold utf16_char, code_point in *.
  destruct (N.ltb_spec c 0x10000) as [C|C].
  - exists ([c] :: l). split; [constructor; assumption|]. split; [cbn [map pair_value]; rewrite I2; reflexivity|]. constructor; assumption.
  - assert (L : (c - 0x10000) / 1024 < 1024) by (apply N.div_lt_upper_bound; lia). pose proof (N.mod_lt (c - 0x10000) 1024 ltac:(discriminate)) as M.
    pose proof (N.div_mod (c - 0x10000) 1024 ltac:(discriminate)) as D. set (q := (c - 0x10000) / 1024) in *. set (r := (c - 0x10000) mod 1024) in *.
    exists ([0xd800 + q; 0xdc00 + r] :: l). split; [constructor; [unfold high_half; lia|assumption]|]. split; [|constructor; [lia|constructor; [lia|exact I3]]].
    cbn [map pair_value]. f_equal; [lia|exact I2].
Qed.
Theorem collect16_coded cs : Forall (fun c => code_point c /\ ~ high_half c) cs -> collect16 (utf16 cs) = Ok cs.
Proof. intros H. destruct (utf16_split cs H) as (l & S & E & U). rewrite (proj1 (collect16_exact _ U) l S), E. reflexivity. Qed.

(** ** Reads behind the buffer *)
Lemma seq_value_bound b r : b < 256 -> length r = Nat.pred (seq_len b) -> seq_value (b :: r) < 0x200000.
Proof.
  intros B H. unfold seq_len in H. assert (M : forall a, a mod 64 < 64) by (intros a; apply N.mod_lt; discriminate). unfold seq_value.
  destruct (N.ltb_spec b 192); [destruct r; [cbn; lia|discriminate H]|].
  destruct (N.ltb_spec b 224); [destruct r as [|x [|]]; try discriminate H; cbn [length fold_left]; pose proof (M x); pose proof (N.mod_lt b 32 ltac:(discriminate)); lia|].
  destruct (N.ltb_spec b 240); [destruct r as [|x [|y [|]]]; try discriminate H; cbn [length fold_left]; pose proof (M x); pose proof (M y); pose proof (N.mod_lt b 16 ltac:(discriminate)); lia|].
  destruct (N.ltb_spec b 248); [|destruct r; [cbn; lia|discriminate H]].
  destruct r as [|x [|y [|z [|]]]]; try discriminate H. cbn [length fold_left]. pose proof (M x). pose proof (M y). pose proof (M z).
  replace b with (b - 240 + 15 * 16) by lia. rewrite N.mod_add by discriminate. rewrite (N.mod_small (b - 240) 16) by lia. lia.
Qed.
Lemma split_last buf l : split8 buf l -> bytes buf -> l <> [] -> exists b r, last l [] = b :: r /\ b < 256 /\ length r = Nat.pred (seq_len b).
Proof.
  induction 1 as [|b r s l H1 H2 IH]; intros HB NE; [congruence|]. destruct l as [|x l].
  - exists b, r. split; [reflexivity|]. split; [inversion HB; assumption|exact H1].
  - destruct IH as (b' & r' & E1 & E2 & E3); [inversion HB as [|? ? _ HB2]; subst; apply Forall_app in HB2; apply HB2|discriminate|]. exists b', r'. auto.
Qed.
Lemma piece_yields {X} (em : piece -> option X) (keep : N -> Prop) b r : b < 256 -> length r = Nat.pred (seq_len b) ->
  (forall c, em (Plain c) <> None) -> em Bad = None -> (forall c, c < 0x200000 -> (em (Seq c) <> None <-> keep c)) ->
  (em (piece_of (b :: r)) <> None <-> yields keep (b :: r)).
Proof.
  intros B H E1 E2 E3. pose proof (E3 _ (seq_value_bound b r B H)) as E. unfold seq_len in H. cbn [piece_of].
  destruct (N.ltb_spec b 128) as [C|C].
  { destruct (N.ltb_spec b 192); [|lia]. destruct r; [|discriminate H]. cbn [yields]. split; [intros _; exact C|intros _; apply E1]. }
  destruct (N.ltb_spec b 192) as [C2|C2]; cbn [orb].
  { destruct r; [|discriminate H]. cbn [yields]. rewrite E2. split; [congruence|lia]. }
  destruct (N.ltb_spec b 224) as [C3|C3]; [destruct (N.leb_spec 248 b); [lia|]; destruct r as [|x r]; [discriminate H|]; exact E|].
  destruct (N.ltb_spec b 240) as [C4|C4]; [destruct (N.leb_spec 248 b); [lia|]; destruct r as [|x r]; [discriminate H|]; exact E|].
  destruct (N.ltb_spec b 248) as [C5|C5]; [destruct (N.leb_spec 248 b); [lia|]; destruct r as [|x r]; [discriminate H|]; exact E|].
  destruct (N.leb_spec 248 b); [|lia]. destruct r; [|discriminate H]. cbn [yields]. rewrite E2. split; [congruence|lia].
Qed.
Lemma ends_iff {X} (em : piece -> option X) (keep : N -> Prop) buf l : bytes buf -> split8 buf l ->
  (forall c, em (Plain c) <> None) -> em Bad = None -> (forall c, c < 0x200000 -> (em (Seq c) <> None <-> keep c)) ->
  (ends_kept em l <-> (l = [] \/ yields keep (last l []))).
Proof.
  intros HB S E1 E2 E3. destruct l as [|x l]; [cbn; split; auto|]. destruct (split_last _ _ S HB ltac:(discriminate)) as (b & r & L & B & K).
  unfold ends_kept. rewrite L. rewrite (piece_yields em keep b r B K E1 E2 E3). split; [auto|intros [Q|Q]; [discriminate Q|exact Q]].
Qed.
Lemma split8_det buf l1 : split8 buf l1 -> forall l2, split8 buf l2 -> l1 = l2.
Proof.
  induction 1 as [|b r s l H1 H2 IH]; intros l2 S2; [inversion S2; reflexivity|].
  remember (b :: r ++ s) as q eqn:Q. destruct S2 as [|b' r' s' l' X1 X2]; [discriminate Q|]. injection Q as -> Q.
  assert (E : r' = r /\ s' = s).
  { assert (L : length r' = length r) by congruence. clear -Q L. revert r L Q. induction r' as [|a r' IH]; intros [|b r] L Q; try discriminate L; [auto|].
    injection Q as -> Q. injection L as L. destruct (IH r L Q) as (-> & ->). auto. }
  destruct E as (-> & ->). rewrite (IH _ X2). reflexivity.
Qed.
Theorem overrun_iff {X} (em : piece -> option X) (keep : N -> Prop) buf r (f : list X -> list N) : bytes buf ->
  (forall c, em (Plain c) <> None) -> em Bad = None -> (forall c, c < 0x200000 -> (em (Seq c) <> None <-> keep c)) ->
  (forall l, split8 buf l -> ends_kept em l -> r = Ok (f (emitted em l))) -> ((forall l, split8 buf l -> ~ ends_kept em l) -> r = Overrun) ->
  (r = Overrun <-> ~ well_ended keep buf) /\ r <> NoFuel.
Proof.
  intros HB E1 E2 E3 H1 H2. pose proof (ends_iff em keep buf) as EI.
  assert (D : (exists l, split8 buf l) \/ ~ exists l, split8 buf l).
  { clear -HB. remember (length buf) as n eqn:Hn. assert (L : (length buf <= n)%nat) by lia. clear Hn. revert buf L HB. induction n as [|n IH]; intros buf L HB.
    - destruct buf; [left; exists []; constructor|cbn in L; lia].
    - destruct buf as [|b t]; [left; exists []; constructor|]. set (k := Nat.pred (seq_len b)). destruct (Nat.ltb_spec (length t) k) as [C|C].
      + right. intros (l & S). inversion S as [|b' r' s' l' X1 X2]; subst. unfold k in C. rewrite app_length in C. lia.
      + pose proof (firstn_skipn k t) as FS. assert (LF : length (firstn k t) = k) by (rewrite firstn_length; lia).
        destruct (IH (skipn k t)) as [(l & S)|N].
        * rewrite skipn_length. cbn in L. lia.
        * inversion HB as [|? ? _ HB2]; subst. rewrite <- FS in HB2. apply Forall_app in HB2. apply HB2.
        * left. exists ((b :: firstn k t) :: l). rewrite <- FS at 1. constructor; assumption.
        * right. intros (l & S). inversion S as [|b' r' s' l' X1 X2]; subst. apply N. exists l'. unfold k. rewrite <- X1, skipn_app, skipn_all, Nat.sub_diag. exact X2. }
  assert (WE : well_ended keep buf <-> exists l, split8 buf l /\ ends_kept em l).
  { split; intros (l & S & E); exists l; (split; [exact S|]); apply (EI l HB S E1 E2 E3); exact E. }
  assert (DD : (exists l, split8 buf l /\ ends_kept em l) \/ (forall l, split8 buf l -> ~ ends_kept em l)).
  { destruct D as [(l & S)|N]; [|right; intros l S; destruct N; exists l; exact S].
    assert (DE : ends_kept em l \/ ~ ends_kept em l).
    { destruct l as [|x l]; [left; exact I|]. unfold ends_kept. destruct (em (piece_of (last (x :: l) []))); [left; discriminate|right; intros Q; apply Q; reflexivity]. }
    destruct DE as [Y|Y]; [left; exists l; auto|right]. intros l' S' K. rewrite (split8_det _ _ S l' S') in Y. contradiction. }
  destruct DD as [(l & S & E)|N].
  - rewrite (H1 l S E). split; [|discriminate]. split; [discriminate|]. intros W. destruct W. apply WE. exists l. auto.
  - rewrite (H2 N). split; [|discriminate]. split; [|reflexivity]. intros _ W. apply WE in W. destruct W as (l & S & E). exact (N l S E).
Qed.
Theorem overrun8 keep (P : N -> Prop) buf : bytes buf -> (forall c, c < 0x200000 -> (keep c = true <-> P c)) ->
  (collect8 keep buf = Overrun <-> ~ well_ended P buf) /\ collect8 keep buf <> NoFuel.
Proof.
  intros HB H. apply (overrun_iff (em8 keep) P buf _ (fun x => x) HB); [discriminate|reflexivity| |apply (collect8_exact keep buf HB)..].
  intros c C. rewrite <- (H c C). cbn [em8]. destruct (keep c); split; congruence.
Qed.
Theorem overrun8_16 buf : bytes buf ->
  (collect8_16 buf = Overrun <-> ~ well_ended (fun c => 0x10000 <= c \/ ~ dropped c) buf) /\ collect8_16 buf <> NoFuel.
Proof.
  intros HB. apply (overrun_iff em16 _ buf _ flush HB); [discriminate|reflexivity| |apply (collect8_16_exact buf HB)..].
  intros c C. cbn [em16]. destruct (N.leb_spec c 0xffff) as [L|L].
  - destruct (allowed c) eqn:A; [apply (allowed_iff c C) in A; split; [auto|discriminate]|]. split; [congruence|]. intros [K|K]; [lia|]. apply (allowed_iff c C) in K. congruence.
  - split; [left; lia|discriminate].
Qed.

Lemma split8_strip cs s l : coded cs -> split8 (utf8 cs ++ s) l -> exists l', split8 s l'.
Proof.
  intros H. revert l. induction H as [|c cs H _ IH]; intros l S; [exists l; exact S|]. destruct (utf8_char_len c H) as (b & r & E & L & _).
  cbn [utf8 flat_map] in S. fold (utf8 cs) in S. rewrite E in S. remember (((b :: r) ++ utf8 cs) ++ s) as q eqn:Q. destruct S as [|b' r' s' l' X1 X2]; [discriminate Q|].
  cbn [app] in Q. injection Q as -> Q. apply (IH l'). rewrite <- app_assoc in Q.
  assert (EE : r' = r /\ s' = utf8 cs ++ s); [|rewrite <- (proj2 EE); exact X2].
  assert (K : length r' = length r) by congruence. clear -Q K. revert r K Q. induction r' as [|a r' IH]; intros [|b r] K Q; try discriminate K; [auto|].
  injection Q as -> Q. injection K as K. destruct (IH r K Q) as (-> & ->). auto.
Qed.
