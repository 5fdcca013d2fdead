(** Properties of the decoding iterators: C36 to C39. *)
From Coq Require Import List NArith Lia Bool.
From Verif Require Import UtfModel UtfSpec UtfProofs.
Import ListNotations.
Local Open Scope N_scope.

Definition octets (l : list N) : Prop := Forall (fun b => b < 256) l.
Definition words (l : list N) : Prop := Forall (fun u => u < 0x10000) l.
(** The Unicode non-characters. *)
Definition non_character (c : N) : Prop := c mod 0x10000 = 0xfffe \/ c mod 0x10000 = 0xffff \/ 0xfdd0 <= c < 0xfdf0.

(** C36: UTF-8 text decodes to the characters encoded. *)
Theorem C36_decode : forall cs, Forall (fun c => scalar c /\ ~ non_character c) cs -> ucs4_of_utf8 (utf8 cs) = Ok cs.
Proof.
  intros cs H. assert (CO : coded cs) by (eapply Forall_impl; [|exact H]; unfold scalar, code_point; cbn; intros a ((Q & _) & _); lia).
  assert (K : forall c, In c cs -> kept8 allowed c = true).
  { intros c IC. apply kept8_allowed; [exact (proj1 (Forall_forall _ _) CO c IC)|]. pose proof (proj1 (Forall_forall _ _) H c IC) as (_ & NC).
    intros D. apply NC. unfold non_character, dropped in *. lia. }
  unfold ucs4_of_utf8. rewrite collect8_coded; [|exact CO|].
  - f_equal. clear -K. induction cs as [|c cs IH]; [reflexivity|]. cbn [filter]. rewrite (K c (or_introl eq_refl)), IH; [reflexivity|]. intros d D. apply K. right. exact D.
  - destruct cs as [|c cs]; [left; reflexivity|right]. apply K, last_in. discriminate.
Qed.
Print Assumptions C36_decode.
(** "aé€" and U+1F600. *)
Example C36_decode_case : Forall (fun c => scalar c /\ ~ non_character c) [0x61; 0xe9; 0x20ac; 0x1f600] /\ utf8 [0x61; 0xe9; 0x20ac; 0x1f600] = [0x61; 0xc3; 0xa9; 0xe2; 0x82; 0xac; 0xf0; 0x9f; 0x98; 0x80].
Proof.
  split; [|vm_compute; reflexivity].
  repeat constructor; unfold scalar, code_point, non_character; cbn; lia.
Qed.

(** What happens to the other code points, and in the narrower iterators:
    unwanted ones are left out, as long as the text does not end in one. *)
Theorem C36_filtered : forall cs (wanted : N -> Prop) (w : N -> bool),
  Forall code_point cs -> (forall c, code_point c -> (w c = true <-> wanted c)) -> (cs = [] \/ wanted (last cs 0)) ->
  ((forall c, wanted c <-> ~ dropped c) -> ucs4_of_utf8 (utf8 cs) = Ok (filter w cs)) /\
  ((forall c, wanted c <-> c < 0x10000 /\ ~ dropped c) -> ucs2_of_utf8 (utf8 cs) = Ok (filter w cs)) /\
  ((forall c, wanted c <-> c < 0x80) -> ascii_of_utf8 (utf8 cs) = Ok (filter w cs)).
Proof.
  intros cs wanted w H W E. assert (CO : coded cs) by (eapply Forall_impl; [|exact H]; unfold code_point; cbn; intros; lia).
  assert (G : forall keep, (forall c, code_point c -> (kept8 keep c = true <-> wanted c)) -> collect8 keep (utf8 cs) = Ok (filter w cs)).
  { intros keep K. rewrite collect8_coded; [|exact CO|].
    - f_equal. apply filter_ext_in. intros c IC. pose proof (proj1 (Forall_forall _ _) H c IC) as CP.
      specialize (K c CP). specialize (W c CP). destruct (kept8 keep c), (w c); try reflexivity; [destruct (proj2 W (proj1 K eq_refl))|destruct (proj2 K (proj1 W eq_refl))]; reflexivity.
    - destruct cs as [|c cs]; [left; reflexivity|right]. destruct E as [E|E]; [discriminate E|]. apply K; [|exact E]. refine (proj1 (Forall_forall _ _) H _ _). apply last_in. discriminate. }
  split; [|split]; intros D; apply G; intros c CP; rewrite D; unfold code_point in CP.
  - apply kept8_allowed. lia.
  - pose proof (kept8_allowed c ltac:(lia)) as KA. unfold kept8, ucs2_keep in *. destruct (N.ltb_spec c 128) as [C|C]; cbn [orb] in *.
    + split; [intros _; split; [lia|apply KA; reflexivity]|reflexivity].
    + rewrite andb_true_iff, KA. rewrite N.leb_le. split; intros (Q1 & Q2); split; auto; lia.
  - unfold kept8. rewrite orb_false_r. apply N.ltb_lt.
Qed.
Print Assumptions C36_filtered.
Example C36_filtered_case : ucs4_of_utf8 (utf8 [0xfffe; 0xfdd0; 0x41]) = Ok [0x41] /\ ucs2_of_utf8 (utf8 [0x1f600; 0x20ac]) = Ok [0x20ac] /\ ascii_of_utf8 (utf8 [0x20ac; 0x41]) = Ok [0x41].
Proof. vm_compute. auto. Qed.
(** Not every scalar value survives: the filter takes U+FFFE, and hasNext()
    does not know, so a text ending in it is read behind its end. *)
Theorem C36_nonchar_refuted : exists cs, Forall scalar cs /\ ucs4_of_utf8 (utf8 cs) = Overrun.
Proof. exists [0x41; 0xfffe]. split; [repeat constructor; unfold scalar, code_point; cbn; lia|vm_compute; reflexivity]. Qed.
Print Assumptions C36_nonchar_refuted.

(** C37: which byte sequences are read inside the buffer and its terminator. *)
Theorem C37_bounds_partial : forall buf, octets buf ->
  (ucs4_of_utf8 buf = Overrun <-> ~ well_ended (fun c => ~ dropped c) buf) /\
  (ucs2_of_utf8 buf = Overrun <-> ~ well_ended (fun c => c < 0x10000 /\ ~ dropped c) buf) /\
  (ascii_of_utf8 buf = Overrun <-> ~ well_ended (fun _ => False) buf) /\
  (collect8_16 buf = Overrun <-> ~ well_ended (fun c => 0x10000 <= c \/ ~ dropped c) buf).
Proof.
  intros buf H. repeat split; try (apply (overrun8 allowed); [exact H|exact allowed_iff]);
    try (apply (overrun8 ucs2_keep); [exact H|]; intros c C; unfold ucs2_keep; rewrite andb_true_iff, N.leb_le, (allowed_iff c C); split; intros (Q1 & Q2); split; auto; lia);
    try (apply (overrun8 (fun _ => false)); [exact H|]; intros; split; [discriminate|contradiction]);
    apply (overrun8_16 buf H).
Qed.
Print Assumptions C37_bounds_partial.
Example C37_bounds_partial_case : octets [0xff; 0xc3; 0xa9] /\ ucs4_of_utf8 [0xff; 0xc3; 0xa9] = Ok [0xe9] /\ well_ended (fun c => ~ dropped c) [0xff; 0xc3; 0xa9].
Proof.
  split; [repeat constructor; reflexivity|]. split; [vm_compute; reflexivity|]. exists [[0xff]; [0xc3; 0xa9]]. split.
  - apply (split8_cons 0xff [] [0xc3; 0xa9]); [reflexivity|]. apply (split8_cons 0xc3 [0xa9] []); [reflexivity|constructor].
  - right. vm_compute. intros [D|[D|(D & _)]]; [discriminate D..|apply D; reflexivity].
Qed.
(** Every read stops. *)
Theorem C37_terminates : forall buf, octets buf ->
  ucs4_of_utf8 buf <> NoFuel /\ ucs2_of_utf8 buf <> NoFuel /\ ascii_of_utf8 buf <> NoFuel /\ collect8_16 buf <> NoFuel.
Proof.
  intros buf H. repeat split.
  - apply (overrun8 allowed (fun c => allowed c = true)); [exact H|reflexivity].
  - apply (overrun8 ucs2_keep (fun c => ucs2_keep c = true)); [exact H|reflexivity].
  - apply (overrun8 (fun _ => false) (fun _ => False)); [exact H|]. split; [discriminate|contradiction].
  - apply (overrun8_16 buf H).
Qed.
Print Assumptions C37_terminates.
(** A truncated sequence, a lone invalid byte: both are read past the end. *)
Theorem C37_truncated_refuted : forall cs b, Forall code_point cs -> 0xc0 <= b < 0xf8 -> ucs4_of_utf8 (utf8 cs ++ [b]) = Overrun.
Proof.
  intros cs b H B. assert (CO : coded cs) by (eapply Forall_impl; [|exact H]; unfold code_point; cbn; intros; lia).
  apply (overrun8 allowed (fun c => ~ dropped c)).
  - apply Forall_app. split; [apply (utf8_split cs CO)|repeat constructor; lia].
  - exact allowed_iff.
  - intros (l & SP & _). destruct (split8_strip _ _ _ CO SP) as (l' & S). remember [b] as q eqn:Q. destruct S as [|b2 r2 s2 l2 Y1 Y2]; [discriminate Q|]. injection Q as -> Q.
    destruct r2; [|discriminate Q]. unfold seq_len in Y1. destruct (N.ltb_spec b 192); [lia|]. destruct (N.ltb_spec b 224); [discriminate Y1|]. destruct (N.ltb_spec b 240); [discriminate Y1|].
    destruct (N.ltb_spec b 248); [discriminate Y1|lia].
Qed.
Print Assumptions C37_truncated_refuted.
Theorem C37_invalid_refuted : ucs4_of_utf8 [0x41; 0xff] = Overrun /\ ascii_of_utf8 (utf8 [0xe9]) = Overrun /\ ucs2_of_utf8 (utf8 [0x1f600]) = Overrun /\ collect8_16 [0x80] = Overrun.
Proof. vm_compute. auto. Qed.
Print Assumptions C37_invalid_refuted.

(** C38: UTF-16 text decodes to the characters encoded. *)
Theorem C38_decode : forall cs, Forall scalar cs -> collect16 (utf16 cs) = Ok cs.
Proof. intros cs H. apply collect16_coded. eapply Forall_impl; [|exact H]. unfold scalar, high_half. cbn. intros a (Q1 & Q2). split; [exact Q1|lia]. Qed.
Print Assumptions C38_decode.
Example C38_decode_case : Forall scalar [0x61; 0x1f600] /\ utf16 [0x61; 0x1f600] = [0x61; 0xd83d; 0xde00].
Proof. split; [repeat constructor; unfold scalar, code_point; cbn; lia|vm_compute; reflexivity]. Qed.
(** Any units: pairs begun by a high half are joined; only a high half at the
    very end is read past the end. *)
Theorem C38_any_units : forall buf, words buf ->
  (forall l, split16 buf l -> collect16 buf = Ok (map pair_value l)) /\ ((forall l, ~ split16 buf l) -> collect16 buf = Overrun).
Proof. exact collect16_exact. Qed.
Print Assumptions C38_any_units.
Example C38_any_units_case : words [0xdc00; 0xd800; 0xdc01] /\ split16 [0xdc00; 0xd800; 0xdc01] [[0xdc00]; [0xd800; 0xdc01]] /\ map pair_value [[0xdc00]; [0xd800; 0xdc01]] = [0xdc00; 0x10001].
Proof.
  split; [repeat constructor; reflexivity|]. split; [|vm_compute; reflexivity].
  apply split16_one; [unfold high_half; lia|]. apply split16_two; [unfold high_half; lia|constructor].
Qed.
Theorem C38_lone_half_refuted : exists buf, words buf /\ collect16 buf = Overrun.
Proof. exists [0x41; 0xd800]. split; [repeat constructor; reflexivity|vm_compute; reflexivity]. Qed.
Print Assumptions C38_lone_half_refuted.

(** C39: transcoding UTF-8 to UTF-16 — right when the text does not end in a
    character outside the basic plane; otherwise its last half is lost. *)
Theorem C39_transcode_partial : forall cs, Forall (fun c => scalar c /\ ~ non_character c) cs ->
  collect8_16 (utf8 cs) = Ok (if last cs 0 <? 0x10000 then utf16 cs else removelast (utf16 cs)).
Proof.
  intros cs H. destruct cs as [|c cs]; [vm_compute; reflexivity|]. set (t := c :: cs) in *. assert (NE : t <> []) by discriminate. clearbody t. clear c cs.
  assert (CP : Forall code_point t) by (eapply Forall_impl; [|exact H]; intros a ((Q & _) & _); exact Q).
  assert (K : forall c, In c t -> kept16 c = true).
  { intros c IC. pose proof (proj1 (Forall_forall _ _) H c IC) as ((P & _) & NC). unfold code_point in P. unfold kept16. destruct (c <? 0x80); [reflexivity|].
    destruct (0x10000 <=? c); [reflexivity|]. cbn [orb]. apply allowed_iff; [lia|]. intros D. apply NC. unfold non_character, dropped in *. lia. }
  rewrite (collect8_16_coded t CP NE (K _ (last_in t NE))).
  assert (F : filter kept16 t = t) by (clear -K; induction t as [|c t IH]; [reflexivity|]; cbn [filter]; rewrite (K c (or_introl eq_refl)), IH; [reflexivity|]; intros d D; apply K; right; exact D).
  rewrite F. reflexivity.
Qed.
Print Assumptions C39_transcode_partial.
Example C39_transcode_partial_case : Forall (fun c => scalar c /\ ~ non_character c) [0x1f600; 0x61] /\ collect8_16 (utf8 [0x1f600; 0x61]) = Ok [0xd83d; 0xde00; 0x61].
Proof. split; [repeat constructor; unfold scalar, code_point, non_character; cbn; lia|vm_compute; reflexivity]. Qed.
Theorem C39_last_half_refuted : exists cs, Forall (fun c => scalar c /\ ~ non_character c) cs /\ collect8_16 (utf8 cs) <> Ok (utf16 cs).
Proof. exists [0x1f600]. split; [repeat constructor; unfold scalar, code_point, non_character; cbn; lia|vm_compute; discriminate]. Qed.
Print Assumptions C39_last_half_refuted.
