(** Properties C40, C41 and C65 to C67: ranges, '.', strings and collections
    in the encodings. *)
From Coq Require Import List NArith Lia Bool Permutation ZifyBool ZifyN.
From Verif Require Import Base CharSetModel AutomatonModel AutomatonSpec CsetLaws ThompsonProofs DfaOpsProofs UtfModel UtfSpec UtfProofs UtfProps RangeModel RangeSpec RangeProofs.
Import ListNotations.
Local Open Scope N_scope.

(** A lexer over the encoding: one of the two character set classes, of the
    size that belongs to it. *)
Definition over (enc : encoding) (C : cset) (ok : car C -> Prop) (rng : N -> N -> car C) : Prop := ranged C ok rng /\ c_size C = enc_size enc.
Lemma over_seq enc : over enc (seq_cset (enc_size enc)) (seq_ok (enc_size enc)) seq_range.
Proof. split; [constructor; destruct enc; reflexivity|reflexivity]. Qed.
Lemma over_tab enc : over enc (tab_cset (enc_size enc)) tab_ok (tab_rng (enc_size enc)).
Proof. split; [constructor; destruct enc; reflexivity|reflexivity]. Qed.

(** C40: a range in a UTF-8 lexer accepts exactly the encodings of its
    characters if and only if it is one of the [tidy8] ranges. *)
Theorem C40_exact : forall C ok rng b e, over Utf8 C ok rng -> b <= e -> e <= 0x110000 ->
  single C ok (gnfa_range C rng Utf8 b e) /\ (accepts_range C Utf8 (gnfa_range C rng Utf8 b e) b e <-> tidy8 b e).
Proof.
  intros C ok rng b e (R & SZ) B E. cbn [gnfa_range]. destruct (utf8_range_words C ok rng R SZ b e B E) as (S & L). split; [exact S|].
  rewrite <- (utf8_range_exact b e B E). unfold accepts_range. cbn [has units]. unfold Enc, code_point.
  split; intros H w; specialize (H w).
  - rewrite <- L, H. split; [intros (c & ? & ? & ?)|intros (c & ? & ?)]; exists c; repeat split; auto; lia.
  - rewrite L, H. split; [intros (c & ? & ?)|intros (c & ? & ? & ?)]; exists c; repeat split; auto; lia.
Qed.
Print Assumptions C40_exact.
Example C40_exact_case : tidy8 0x61 0x7b /\ tidy8 0x3b1 0x3c9 /\ tidy8 0x4e00 0xa000 /\ tidy8 0x20000 0x30000 /\ tidy8 0x61 0x3c9 /\ ~ tidy8 0x61 0x900 /\ ~ tidy8 0x4e01 0x9fa6.
Proof. unfold tidy8, tidy4, tidy3. lia. Qed.
(** Enough for ranges inside the first 0x800 code points, and between multiples
    of 64 or 4096 further up. *)
Theorem C40_simple_partial : forall C ok rng b e, over Utf8 C ok rng -> b <= e -> e <= 0x110000 ->
  (e <= 0x800 \/ 0x800 <= b /\ e <= 0x10000 /\ b mod 64 = 0 /\ e mod 64 = 0 \/ 0x10000 <= b /\ b mod 0x1000 = 0 /\ e mod 0x1000 = 0) ->
  accepts_range C Utf8 (gnfa_range C rng Utf8 b e) b e.
Proof.
  intros C ok rng b e O B E H. apply (C40_exact C ok rng b e O B E). unfold tidy8, tidy4, tidy3. destruct H as [H|[H|H]]; [left; exact H|right; left; lia|]. right. right. lia.
Qed.
Print Assumptions C40_simple_partial.
(** Single characters come out right but for four of them. *)
Theorem C40_character_partial : forall C ok rng c, over Utf8 C ok rng -> code_point c ->
  (accepts_range C Utf8 (gnfa_character C rng Utf8 c) c (c + 1) <-> c mod 0x40000 <> 0x3ffff).
Proof.
  intros C ok rng c O H. unfold code_point in H. unfold gnfa_character. rewrite (proj2 (C40_exact C ok rng c (c + 1) O ltac:(lia) ltac:(lia))).
  unfold tidy8, tidy4, tidy3. lia.
Qed.
Print Assumptions C40_character_partial.
(** [a-ࣿ] accepts a sequence that encodes nothing. *)
Theorem C40_junk_refuted : forall C ok rng, over Utf8 C ok rng ->
  lang C (gnfa_range C rng Utf8 0x61 0x900) [0xe0; 0x80] /\ forall c, utf8_char c <> [0xe0; 0x80].
Proof.
  intros C ok rng (R & SZ). split.
  - cbn [gnfa_range]. apply (utf8_range_words C ok rng R SZ 0x61 0x900 ltac:(lia) ltac:(lia)). right. left. exists 0xe0, 0x80. split; [reflexivity|].
    right. split; [discriminate|]. right. right. unfold Q1. lia.
  - intros c E. apply (Enc_e0 c (c + 1)). exists c. split; [lia|symmetry; exact E].
Qed.
Print Assumptions C40_junk_refuted.
(** The range from U+4E01 to U+9FA5 misses U+5000. *)
Theorem C40_missing_refuted : forall C ok rng, over Utf8 C ok rng -> ~ lang C (gnfa_range C rng Utf8 0x4e01 0x9fa6) (utf8_char 0x5000).
Proof.
  intros C ok rng (R & SZ) H. cbn [gnfa_range] in H. apply (utf8_range_words C ok rng R SZ 0x4e01 0x9fa6 ltac:(lia) ltac:(lia)) in H.
  change (W3 0xe4 0xe9 0xb8 0xbe 0x81 0xa6 [0xe5; 0x80; 0x80]) in H. destruct H as (x0 & x1 & x2 & E & H). injection E as <- <- <-. unfold Q3, Q2, Q1 in H. lia.
Qed.
Print Assumptions C40_missing_refuted.
(** U+3FFFF as a single character also accepts U+40FFF. *)
Theorem C40_character_refuted : forall C ok rng, over Utf8 C ok rng -> lang C (gnfa_character C rng Utf8 0x3ffff) (utf8_char 0x40fff).
Proof.
  intros C ok rng (R & SZ). unfold gnfa_character. cbn [gnfa_range]. apply (utf8_range_words C ok rng R SZ 0x3ffff (0x3ffff + 1) ltac:(lia) ltac:(lia)).
  change (W4 0xf0 0xf1 0xbf 0x80 0xbf 0x80 0xbf 0x80 [0xf1; 0x80; 0xbf; 0xbf]). exists 0xf1, 0x80, 0xbf, 0xbf. split; [reflexivity|]. unfold Q4, Q3, Q2, Q1. lia.
Qed.
Print Assumptions C40_character_refuted.
(** A range with exchanged ends is not empty. *)
Theorem C40_reversed_refuted : forall C ok rng, over Utf8 C ok rng -> lang C (gnfa_range C rng Utf8 0x100 0x90) (utf8_char 0x100).
Proof.
  intros C ok rng (R & SZ). change (gnfa_range C rng Utf8 0x100 0x90) with (nfa_or C (nfa_empty C) (tuples2 C rng 0xc4 0xc2 0x80 0x90)).
  change (utf8_char 0x100) with [0xc4; 0x80].
  apply (fw_or C ok rng R _ _ _ _ (fw_empty C ok) (tuples2_lang C ok rng R ltac:(rewrite SZ; cbn; lia) 0xc4 0xc2 0x80 0x90 ltac:(lia) ltac:(lia) ltac:(lia))).
  right. exists 0xc4, 0x80. split; [reflexivity|]. unfold Q2, Q1. lia.
Qed.
Print Assumptions C40_reversed_refuted.

(** C41: a range in a UTF-16 lexer is right if and only if it is [tidy16]. *)
Theorem C41_exact : forall C ok rng b e, over Utf16 C ok rng ->
  single C ok (gnfa_range C rng Utf16 b e) /\ (accepts_range C Utf16 (gnfa_range C rng Utf16 b e) b e <-> tidy16 b e).
Proof. intros C ok rng b e (R & SZ). exact (utf16_exact C ok rng R SZ b e). Qed.
Print Assumptions C41_exact.
Example C41_exact_case : tidy16 0x61 0x7b /\ tidy16 0x20 0x10900 /\ tidy16 0x10000 0x20000 /\ tidy16 0x1f600 0x1f650 /\ ~ tidy16 0x1f400 0x1f500 /\ ~ tidy16 0x20 0x110000.
Proof. unfold tidy16. lia. Qed.
(** All ranges that begin in the basic plane and end before U+10FFFF. *)
Theorem C41_basic_partial : forall C ok rng b e, over Utf16 C ok rng -> b < 0x10000 -> e < 0x110000 -> accepts_range C Utf16 (gnfa_range C rng Utf16 b e) b e.
Proof. intros C ok rng b e O B E. apply (C41_exact C ok rng b e O). unfold tidy16. lia. Qed.
Print Assumptions C41_basic_partial.
Theorem C41_character_partial : forall C ok rng c, over Utf16 C ok rng -> code_point c ->
  (accepts_range C Utf16 (gnfa_character C rng Utf16 c) c (c + 1) <-> c < 0x10000 \/ c mod 1024 <> 0 /\ c mod 1024 <> 1023).
Proof.
  intros C ok rng c O H. unfold code_point in H. unfold gnfa_character. rewrite (proj2 (C41_exact C ok rng c (c + 1) O)). unfold tidy16. lia.
Qed.
Print Assumptions C41_character_partial.
(** U+10000 cannot be matched, nor can U+10FFFF or any range reaching it. *)
Theorem C41_refuted : forall C ok rng, over Utf16 C ok rng ->
  ~ lang C (gnfa_character C rng Utf16 0x10000) (utf16_char 0x10000) /\ forall b w, ~ lang C (gnfa_range C rng Utf16 b 0x110000) w.
Proof.
  intros C ok rng (R & SZ). split.
  - change (gnfa_character C rng Utf16 0x10000) with (nfa_set C (rng 0xd800 0xd800)). intros H. apply (fw_rng C ok rng R) in H; [|rewrite SZ; cbn; lia]. destruct H as (x & E & _). discriminate E.
  - intros b w. change (gnfa_range C rng Utf16 b 0x110000) with (nfa_empty C). exact (empty_lang C ok w).
Qed.
Print Assumptions C41_refuted.

(** C65: '.' accepts exactly the encodings of single characters. *)
Theorem C65_any : forall C ok rng enc fuel ord, enc = Ascii \/ enc = Latin1 \/ enc = Ucs2 \/ enc = Ucs4 -> over enc C ok rng ->
  exists a, gnfa_any C rng enc fuel ord = Some a /\ single C ok a /\ accepts_range C enc a 0 (enc_size enc).
Proof.
  intros C ok rng enc fuel ord HE (R & SZ). pose proof (supported_laws C ok (ranged_supported C ok rng R)) as L. destruct (l_full C ok L) as (F1 & F2 & F3).
  exists (nfa_set C (c_full C)). split; [destruct HE as [-> | [-> | [-> | ->]]]; reflexivity|]. split; [apply set_single; exact F1|].
  intros w. rewrite (set_lang C ok _ w F1 F2). split.
  - intros (x & -> & K). rewrite F3, SZ in K. exists x. destruct HE as [-> | [-> | [-> | ->]]]; (split; [cbn [enc_size] in *; lia|]); (split; [|reflexivity]); unfold has, code_point, enc_size in *; lia.
  - intros (x & K1 & K2 & ->). exists x. rewrite F3, SZ. split; [destruct HE as [-> | [-> | [-> | ->]]]; reflexivity|lia].
Qed.
Print Assumptions C65_any.
(** In UTF-8: a lead byte with the number of continuation bytes it asks for.
    Every encoding but that of U+007F is one. *)
Definition cont (x : N) : Prop := 0x80 <= x < 0xc0.
Definition sequence8 (w : list N) : Prop :=
  match w with
  | [x] => x < 0x7f
  | [x; y] => 0xc0 <= x < 0xe0 /\ cont y
  | [x; y; z] => 0xe0 <= x < 0xf0 /\ cont y /\ cont z
  | [x; y; z; t] => 0xf0 <= x < 0x100 /\ cont y /\ cont z /\ cont t
  | _ => False
  end.
Theorem C65_any_utf8_partial : forall C ok rng fuel ord, over Utf8 C ok rng ->
  exists a, gnfa_any C rng Utf8 fuel ord = Some a /\ single C ok a /\ (forall w, lang C a w <-> sequence8 w) /\
    (forall c, code_point c -> c <> 0x7f -> lang C a (utf8_char c)).
Proof.
  intros C ok rng fuel ord (R & SZ). cbn [enc_size] in SZ.
  set (low := nfa_set C (rng 0x80 0xc0)).
  assert (LO : for_words C ok low (fun w => exists x, w = [x] /\ cont x)) by (apply (fw_rng C ok rng R); lia).
  assert (F : for_words C ok (nfa_or C (nfa_set C (rng 0 0x7f)) (nfa_or C (nfa_concat C (nfa_set C (rng 0xc0 0xe0)) low)
     (nfa_or C (nfa_concat C (nfa_concat C (nfa_set C (rng 0xe0 0xf0)) low) low) (nfa_concat C (nfa_concat C (nfa_concat C (nfa_set C (rng 0xf0 0x100)) low) low) low)))) sequence8).
  { eapply fw_ext.
    - apply (fw_or C ok rng R); [apply (fw_rng C ok rng R); lia|]. apply (fw_or C ok rng R).
      + apply (fw_cat C ok rng R); [apply (fw_rng C ok rng R); lia|exact LO].
      + apply (fw_or C ok rng R).
        * apply (fw_cat C ok rng R); [apply (fw_cat C ok rng R); [apply (fw_rng C ok rng R); lia|exact LO]|exact LO].
        * apply (fw_cat C ok rng R); [apply (fw_cat C ok rng R); [apply (fw_cat C ok rng R); [apply (fw_rng C ok rng R); lia|exact LO]|exact LO]|exact LO].
    - intros w. cbn beta. split.
      + intros [(x & -> & H)|[(u & v & -> & (x & -> & X) & y & -> & Y)|[(u & v & -> & (u2 & v2 & -> & (x & -> & X) & y & -> & Y) & z & -> & Z)|(u & v & -> & (u2 & v2 & -> & (u3 & v3 & -> & (x & -> & X) & y & -> & Y) & z & -> & Z) & t & -> & T)]]]; cbn [app sequence8]; unfold cont in *; lia.
      + intros H. destruct w as [|x [|y [|z [|t [|]]]]]; try contradiction; cbn [sequence8] in H.
        * left. exists x. split; [reflexivity|lia].
        * right. left. exists [x], [y]. split; [reflexivity|]. split; [exists x; tauto|exists y; tauto].
        * right. right. left. exists [x; y], [z]. split; [reflexivity|]. split; [|exists z; tauto]. exists [x], [y]. split; [reflexivity|]. split; [exists x; tauto|exists y; tauto].
        * right. right. right. exists [x; y; z], [t]. split; [reflexivity|]. split; [|exists t; tauto]. exists [x; y], [z]. split; [reflexivity|]. split; [|exists z; tauto]. exists [x], [y]. split; [reflexivity|]. split; [exists x; tauto|exists y; tauto]. }
  eexists. split; [reflexivity|]. split; [exact (proj1 F)|]. split; [exact (proj2 F)|].
  intros c CP NE. apply (proj2 F). unfold code_point in CP. unfold utf8_char. destruct (N.ltb_spec c 0x80); [cbn [sequence8]; lia|]. destruct (N.ltb_spec c 0x800); [cbn [sequence8]; unfold cont; lia|].
  destruct (N.ltb_spec c 0x10000); cbn [sequence8]; unfold cont; lia.
Qed.
Print Assumptions C65_any_utf8_partial.
(** DEL is not matched, and sequences that encode nothing are. *)
Theorem C65_any_utf8_refuted : forall C ok rng fuel ord a, over Utf8 C ok rng -> gnfa_any C rng Utf8 fuel ord = Some a ->
  ~ lang C a (utf8_char 0x7f) /\ lang C a [0xc0; 0x80] /\ forall c, utf8_char c <> [0xc0; 0x80].
Proof.
  intros C ok rng fuel ord a O H. destruct (C65_any_utf8_partial C ok rng fuel ord O) as (a' & H' & _ & L & _). rewrite H in H'. injection H' as <-. rewrite !L. split; [cbn; lia|]. split; [cbn; unfold cont; lia|].
  intros c E. unfold utf8_char in E. destruct (N.ltb_spec c 0x80); [discriminate E|]. destruct (N.ltb_spec c 0x800).
  - apply (f_equal (fun l => nth 0 l 0)) in E. cbn [nth] in E. assert (1 <= c / 64) by (apply N.div_le_lower_bound; lia). lia.
  - destruct (c <? 0x10000); discriminate E.
Qed.
Print Assumptions C65_any_utf8_refuted.
(** In UTF-16: the characters of the basic plane only. *)
Theorem C65_any_utf16_partial : forall C ok rng ord, over Utf16 C ok rng -> (forall l, Permutation (ord l) l) ->
  exists F a, (forall fuel, (F <= fuel)%nat -> gnfa_any C rng Utf16 fuel ord = Some a) /\ single C ok a /\ accepts_range C Utf16 a 0 0x10000.
Proof.
  intros C ok rng ord (R & SZ) P. cbn [enc_size] in SZ. pose proof (supported_laws C ok (ranged_supported C ok rng R)) as L. destruct (l_full C ok L) as (F1 & F2 & F3).
  pose proof (fw_rng C ok rng R 0xd800 0xe000 ltac:(lia)) as (S2 & L2). pose proof (set_single C ok _ F1) as S1.
  destruct (but_ends C ok L _ _ ord S1 S2 P) as (a & F & H). exists F, a. split; [intros fuel HF; apply H; exact HF|].
  destruct (but_ok C ok L F F ord _ _ a S1 S2 P (H F F (le_n F) (le_n F))) as (S3 & L3). split; [exact S3|].
  intros w. rewrite L3, L2, (set_lang C ok _ w F1 F2). cbn [has units]. unfold scalar, code_point. split.
  - intros ((x & -> & K) & K2). rewrite F3, SZ in K. exists x. unfold utf16_char. destruct (N.ltb_spec x 0x10000) as [J|J]; [|lia]. split; [lia|]. split; [split; [lia|]|reflexivity]. intros Q. apply K2. exists x. auto.
  - intros (x & K & (K1 & K2) & ->). unfold utf16_char. destruct (N.ltb_spec x 0x10000) as [J|J]; [|lia]. split; [exists x; split; [reflexivity|]; rewrite F3, SZ; lia|]. intros (y & E & Y). injection E as <-. lia.
Qed.
Print Assumptions C65_any_utf16_partial.
Theorem C65_any_utf16_refuted : forall C ok rng ord fuel a c, over Utf16 C ok rng -> (forall l, Permutation (ord l) l) ->
  gnfa_any C rng Utf16 fuel ord = Some a -> 0x10000 <= c -> ~ lang C a (utf16_char c).
Proof.
  intros C ok rng ord fuel a c (R & SZ) P H K. cbn [enc_size] in SZ. pose proof (supported_laws C ok (ranged_supported C ok rng R)) as L. destruct (l_full C ok L) as (F1 & F2 & F3).
  destruct (but_ok C ok L fuel fuel ord _ _ a (set_single C ok _ F1) (proj1 (fw_rng C ok rng R 0xd800 0xe000 ltac:(lia))) P H) as (_ & L3). rewrite L3, (set_lang C ok _ _ F1 F2).
  intros ((x & E & _) & _). unfold utf16_char in E. destruct (N.ltb_spec c 0x10000); [lia|discriminate E].
Qed.
Print Assumptions C65_any_utf16_refuted.

(** C66: a string literal accepts exactly its own encoding — for the strings
    in which the decoding iterators lose nothing. *)
Definition literal (enc : encoding) (c : N) : Prop :=
  match enc with
  | Ascii | Latin1 => c < 0x80
  | Utf8 => code_point c
  | Ucs2 | Utf16 => c < 0x10000 /\ ~ dropped c
  | Ucs4 => code_point c /\ ~ dropped c
  end.
Lemma filter_all {A} (f : A -> bool) l : (forall x, In x l -> f x = true) -> filter f l = l.
Proof. induction l as [|x l IH]; intros H; [reflexivity|]. cbn [filter]. rewrite (H x (or_introl eq_refl)), IH; [reflexivity|]. intros y Y. apply H. right. exact Y. Qed.
Lemma utf8_bytes cs : Forall code_point cs -> Forall (fun b => b < 256) (utf8 cs).
Proof.
  intros H. apply Forall_forall. intros x X. unfold utf8 in X. apply in_flat_map in X. destruct X as (c & IC & X). pose proof (proj1 (Forall_forall _ _) H c IC) as K. unfold code_point in K.
  unfold utf8_char in X. destruct (N.ltb_spec c 0x80); [cbn [In] in X; lia|]. destruct (N.ltb_spec c 0x800); [cbn [In] in X; lia|]. destruct (N.ltb_spec c 0x10000); cbn [In] in X; lia.
Qed.
Lemma flat_one (f : N -> list N) cs : (forall c, In c cs -> f c = [c]) -> flat_map f cs = cs.
Proof. induction cs as [|c cs IH]; intros H; [reflexivity|]. cbn [flat_map]. rewrite (H c (or_introl eq_refl)), IH; [reflexivity|]. intros d D. apply H. right. exact D. Qed.
Theorem C66_word_partial : forall C ok rng enc cs, over enc C ok rng -> Forall (literal enc) cs ->
  exists a, gnfa_word C enc (utf8 cs) = Ok a /\ single C ok a /\ forall w, lang C a w <-> w = flat_map (units enc) cs.
Proof.
  intros C ok rng enc cs (R & SZ) H. pose proof (supported_laws C ok (ranged_supported C ok rng R)) as L.
  assert (HI : forall c, In c cs -> literal enc c) by (intros c IC; exact (proj1 (Forall_forall _ _) H c IC)).
  assert (CP : Forall code_point cs).
  { apply Forall_forall. intros c IC. specialize (HI c IC). unfold literal, code_point in *. destruct enc; lia. }
  assert (EN : forall P : N -> Prop, (forall c, In c cs -> P c) -> cs = [] \/ P (last cs 0)).
  { intros P HP. destruct cs as [|c r]; [left; reflexivity|right]. apply HP, last_in. discriminate. }
  assert (U : word_units enc (utf8 cs) = Ok (flat_map (units enc) cs)).
  { destruct enc; cbn [word_units units literal] in *.
    - rewrite flat_one by reflexivity. destruct (C36_filtered cs (fun c => c < 0x80) (fun c => c <? 0x80) CP (fun c _ => N.ltb_lt c 0x80) (EN _ HI)) as (_ & _ & K).
      rewrite K by reflexivity. rewrite filter_all; [reflexivity|]. intros c IC. specialize (HI c IC). lia.
    - f_equal. unfold utf8. rewrite (flat_one (fun c => [c])) by reflexivity. apply flat_one. intros c IC. specialize (HI c IC). unfold utf8_char. destruct (N.ltb_spec c 0x80); [reflexivity|lia].
    - reflexivity.
    - rewrite flat_one by reflexivity. set (f := fun c => (c <? 0x10000) && allowed c). destruct (C36_filtered cs (fun c => c < 0x10000 /\ ~ dropped c) f CP) as (_ & K & _).
      { intros c K. unfold f. rewrite andb_true_iff, N.ltb_lt. split; intros (K1 & K2); (split; [exact K1|]); [apply allowed_iff; [lia|exact K2]|apply allowed_iff; [lia|exact K2]]. }
      { apply (EN (fun c => c < 0x10000 /\ ~ dropped c)). exact HI. }
      rewrite K by reflexivity. rewrite filter_all; [reflexivity|]. intros c IC. specialize (HI c IC). unfold f. rewrite andb_true_iff. split; [lia|]. apply allowed_iff; [lia|tauto].
    - set (f := fun c => (c <? 0x10000) && allowed c). destruct (C36_filtered cs (fun c => c < 0x10000 /\ ~ dropped c) f CP) as (_ & K & _).
      { intros c K. unfold f. rewrite andb_true_iff, N.ltb_lt. split; intros (K1 & K2); (split; [exact K1|]); [apply allowed_iff; [lia|exact K2]|apply allowed_iff; [lia|exact K2]]. }
      { apply (EN (fun c => c < 0x10000 /\ ~ dropped c)). exact HI. }
      rewrite K by reflexivity. rewrite filter_all; [|intros c IC; specialize (HI c IC); unfold f; rewrite andb_true_iff; split; [lia|apply allowed_iff; [lia|tauto]]].
      f_equal. symmetry. apply flat_one. intros c IC. specialize (HI c IC). change (utf16_char c = [c]). unfold utf16_char. destruct (N.ltb_spec c 0x10000); [reflexivity|lia].
    - rewrite flat_one by reflexivity. destruct (C36_filtered cs (fun c => ~ dropped c) allowed CP) as (K & _).
      { intros c K. unfold code_point in K. apply allowed_iff. lia. }
      { apply (EN (fun c => ~ dropped c)). intros c IC. apply HI. exact IC. }
      rewrite K by reflexivity. rewrite filter_all; [reflexivity|]. intros c IC. specialize (HI c IC). unfold code_point in HI. apply allowed_iff; [lia|tauto]. }
  assert (IC : in_codec C (flat_map (units enc) cs)).
  { unfold in_codec. rewrite SZ.
    assert (ONE : (forall c, In c cs -> units enc c = [c] /\ c < enc_size enc) -> Forall (fun x => x < enc_size enc) (flat_map (units enc) cs)).
    { intros K. rewrite flat_one by (intros c Hc; apply K; exact Hc). apply Forall_forall. intros c Hc. apply K. exact Hc. }
    destruct enc; try (apply ONE; intros c Hc; specialize (HI c Hc); unfold literal, code_point, enc_size in *; split; [reflexivity|lia]).
    - apply utf8_bytes. exact CP.
    - apply ONE. intros c Hc. specialize (HI c Hc). unfold literal, enc_size in *. split; [|lia]. change (utf16_char c = [c]). unfold utf16_char. destruct (N.ltb_spec c 0x10000); [reflexivity|lia]. }
  exists (nfa_word C (flat_map (units enc) cs)). split; [unfold gnfa_word; rewrite U; reflexivity|]. split; [apply (word_single C ok L); exact IC|]. intros w. apply (word_lang C ok L). exact IC.
Qed.
Print Assumptions C66_word_partial.
Example C66_word_partial_case : Forall (literal Utf8) [0x61; 0x1f600] /\ Forall (literal Utf16) [0x20ac; 0x61] /\ flat_map (units Utf8) [0x61; 0x1f600] = [0x61; 0xf0; 0x9f; 0x98; 0x80].
Proof. split; [|split; [|vm_compute; reflexivity]]; repeat constructor; unfold code_point, dropped; cbn; lia. Qed.
(** "é" in a Latin-1 lexer matches the two bytes of its UTF-8 encoding, not
    the character. *)
Theorem C66_latin1_refuted : forall C ok rng, over Latin1 C ok rng -> exists a, gnfa_word C Latin1 (utf8 [0xe9]) = Ok a /\ lang C a [0xc3; 0xa9] /\ ~ lang C a [0xe9].
Proof.
  intros C ok rng (R & SZ). cbn [enc_size] in SZ. pose proof (supported_laws C ok (ranged_supported C ok rng R)) as L. exists (nfa_word C [0xc3; 0xa9]). split; [reflexivity|].
  assert (IC : in_codec C [0xc3; 0xa9]) by (repeat constructor; lia). rewrite !(word_lang C ok L) by exact IC. split; [reflexivity|discriminate].
Qed.
Print Assumptions C66_latin1_refuted.
(** A character outside the basic plane drops out of a string in a UTF-16
    lexer; at its end the generator itself reads out of bounds. *)
Theorem C66_utf16_refuted : forall C ok rng, over Utf16 C ok rng ->
  (exists a, gnfa_word C Utf16 (utf8 [0x1f600; 0x61]) = Ok a /\ lang C a [0x61] /\ ~ lang C a (utf16 [0x1f600; 0x61])) /\ gnfa_word C Utf16 (utf8 [0x61; 0x1f600]) = Overrun.
Proof.
  intros C ok rng (R & SZ). cbn [enc_size] in SZ. pose proof (supported_laws C ok (ranged_supported C ok rng R)) as L. split.
  - exists (nfa_word C [0x61]). split; [unfold gnfa_word; replace (word_units Utf16 (utf8 [0x1f600; 0x61])) with (Ok [0x61]) by (vm_compute; reflexivity); reflexivity|].
    assert (IC : in_codec C [0x61]) by (repeat constructor; lia). rewrite !(word_lang C ok L) by exact IC. split; [reflexivity|vm_compute; discriminate].
  - unfold gnfa_word. replace (word_units Utf16 (utf8 [0x61; 0x1f600])) with (@Overrun (list N)) by (vm_compute; reflexivity). reflexivity.
Qed.
Print Assumptions C66_utf16_refuted.

(** C67: ranges in the encodings with one unit per character, and collections
    in all of them. *)
Theorem C67_range : forall C ok rng enc b e, over enc C ok rng -> enc = Ascii \/ enc = Latin1 \/ enc = Ucs2 \/ (enc = Ucs4 /\ e <= 0x110000) ->
  single C ok (gnfa_range C rng enc b e) /\ accepts_range C enc (gnfa_range C rng enc b e) b e.
Proof.
  intros C ok rng enc b e (R & SZ) HE. pose proof (supported_laws C ok (ranged_supported C ok rng R)) as L.
  assert (CUT : for_words C ok (cut_range C rng b e) (fun w => exists x, w = [x] /\ b <= x < e /\ x < c_size C)).
  { unfold cut_range. destruct (N.leb_spec (c_size C) b).
    - destruct (l_none C ok L) as (N1 & N2 & N3). split; [apply set_single; exact N1|]. intros w. rewrite (set_lang C ok _ w N1 N2). split; [intros (x & _ & K); rewrite N3 in K; discriminate K|]. intros (x & _ & K). lia.
    - eapply fw_ext; [apply (fw_rng C ok rng R); lia|]. intros w. split; intros (x & -> & K); exists x; (split; [reflexivity|lia]). }
  assert (G : forall a, for_words C ok a (fun w => exists x, w = [x] /\ b <= x < e /\ x < c_size C) -> (forall c, has enc c <-> c < c_size C) -> (forall c, units enc c = [c]) -> single C ok a /\ accepts_range C enc a b e).
  { intros a (S & K) HH HU. split; [exact S|]. intros w. rewrite K. split; [intros (x & -> & K1 & K2)|intros (x & K1 & K2 & ->)]; exists x; [rewrite HH, HU; auto|]. rewrite HU. rewrite HH in K2. auto. }
  destruct HE as [-> | [-> | [-> | (-> & HE)]]]; cbn [gnfa_range]; (apply G; [|intros c; cbn [has]; unfold code_point; rewrite SZ; reflexivity|reflexivity]).
  - exact CUT.
  - exact CUT.
  - exact CUT.
  - cbn [enc_size] in SZ. eapply fw_ext; [apply (fw_rng C ok rng R); lia|]. intros w. rewrite SZ. split; intros (x & -> & K); exists x; (split; [reflexivity|lia]).
Qed.
Print Assumptions C67_range.
Theorem C67_collection : forall C ok rng enc cs, over enc C ok rng ->
  (forall c, In c cs -> has enc c /\ single C ok (gnfa_character C rng enc c) /\ accepts_range C enc (gnfa_character C rng enc c) c (c + 1)) ->
  single C ok (gnfa_collection C rng enc cs) /\ forall w, lang C (gnfa_collection C rng enc cs) w <-> exists c, In c cs /\ w = units enc c.
Proof.
  intros C ok rng enc cs (R & SZ) H.
  assert (G : forall cs a P, (forall c, In c cs -> has enc c /\ single C ok (gnfa_character C rng enc c) /\ accepts_range C enc (gnfa_character C rng enc c) c (c + 1)) ->
    for_words C ok a P -> for_words C ok (fold_left (fun a c => nfa_or C a (gnfa_range C rng enc c (c + 1))) cs a) (fun w => P w \/ exists c, In c cs /\ w = units enc c)).
  { clear cs H. induction cs as [|c cs IH]; intros a P H A; cbn [fold_left].
    - eapply fw_ext; [exact A|]. intros w. split; [auto|]. intros [K|(c & [] & _)]; exact K.
    - destruct (H c (or_introl eq_refl)) as (HH & S & K). eapply fw_ext.
      + apply IH; [intros d D; apply H; right; exact D|]. apply (fw_or C ok rng R); [exact A|]. split; [exact S|exact K].
      + intros w. cbn beta. split.
        * intros [[K1|(d & D & _ & ->)]|(d & D & ->)]; [auto| |right; exists d; split; [right; exact D|reflexivity]]. right. exists d. split; [left; lia|reflexivity].
        * intros [K1|(d & [D|D] & ->)]; [auto| |right; exists d; auto]. subst d. left. right. exists c. split; [lia|auto]. }
  destruct (G cs (nfa_empty C) (fun _ => False) H (fw_empty C ok)) as (S & K). split; [exact S|]. intros w. unfold gnfa_collection. rewrite K. tauto.
Qed.
Print Assumptions C67_collection.
(** "aé" in a UTF-8 lexer. *)
Example C67_collection_case : forall C ok rng, over Utf8 C ok rng -> forall w, lang C (gnfa_collection C rng Utf8 [0x61; 0xe9]) w <-> w = [0x61] \/ w = [0xc3; 0xa9].
Proof.
  intros C ok rng O w. destruct (C67_collection C ok rng Utf8 [0x61; 0xe9] O) as (_ & K).
  - intros c [<- | [<- | []]]; (split; [reflexivity|]); (split; [apply (C40_exact C ok rng _ _ O); lia|]); apply (C40_character_partial C ok rng _ O); [reflexivity|discriminate|reflexivity|discriminate].
  - rewrite K. split; [intros (c & [<- | [<- | []]] & ->); vm_compute; auto|]. intros [-> | ->]; [exists 0x61|exists 0xe9]; (split; [cbn; auto|reflexivity]).
Qed.
