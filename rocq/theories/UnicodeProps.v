(** Properties C111 and C112: the classes of characters known by name. *)
From Coq Require Import List NArith ZArith Bool Ascii String Lia ZifyBool ZifyN ZifyNat.
From Verif Require Import Base CharSetModel AutomatonModel AutomatonSpec CsetLaws ThompsonProofs UtfSpec UtfProofs RangeModel RangeSpec RangeProofs RangeProps FlexModel UnicodeModel UnicodeSpec UnicodeProofs.
From Verif Require ScanModel.
From Verif Require Import UnicodeNameProofs.
Import ListNotations.
Local Open Scope N_scope.

(** The classes that are not named in the files. *)
Definition extra : list text := [chars "num"; chars "ascii-range"; chars "latin1-range"].
(** The files have what [num] is made of. *)
Definition has_numbers (es : list entry) : Prop := forall k, In k [chars "numeric"; chars "digit"; chars "decimal"] -> exists e, In e es /\ under e = k.
(** The ranges for which the automata are right (C40, C41, C67). *)
Definition tidy (enc : encoding) (b e : N) : Prop := match enc with Utf8 => tidy8 b e | Utf16 => tidy16 b e | _ => True end.

Lemma eqb_text a b : (if list_eq_dec ascii_dec a b then true else false) = true <-> a = b.
Proof. destruct (list_eq_dec ascii_dec a b); split; congruence. Qed.
Lemma load_grown C ok rng enc files ess m0 : over enc C ok rng -> Forall2 data_file files ess -> Forall short files -> (forall n a, class C n m0 = Some a -> single C ok a) -> has_numbers (List.concat ess) ->
  exists m a b c, load C rng enc files m0 = Done m /\ (forall n, n <> [] -> ~ In n extra -> grown C rng enc ok m0 (List.concat ess) m n) /\
    class C (chars "numeric") m = Some a /\ class C (chars "digit") m = Some b /\ class C (chars "decimal") m = Some c /\
    class C (chars "num") m = Some (nfa_or C (nfa_or C a b) c) /\
    class C (chars "ascii-range") m = Some (gnfa_range C rng enc 0 0x80) /\ class C (chars "latin1-range") m = Some (gnfa_range C rng enc 0 0x100).
Proof.
  intros O D S H N. destruct (formats_grown C rng enc ok O files ess m0 D S H) as (m & E & G).
  assert (X : forall k, In k [chars "numeric"; chars "digit"; chars "decimal"] -> exists a, class C k m = Some a).
  { intros k K. assert (NE : k <> []) by (destruct K as [<-|[<-|[<-|[]]]]; discriminate). pose proof (G k NE) as GK. unfold grown in GK. destruct (class C k m) as [a|]; [eauto|].
    destruct GK as (_ & GK). destruct (N k K) as (e & I & U). destruct (GK e I U). }
  destruct (X (chars "numeric") (or_introl eq_refl)) as (a & A). destruct (X (chars "digit") (or_intror (or_introl eq_refl))) as (b & B). destruct (X (chars "decimal") (or_intror (or_intror (or_introl eq_refl)))) as (c & K).
  unfold load. rewrite E. cbn [and_then]. unfold deref at 1. rewrite A. cbn [and_then]. unfold or_into, deref.
  assert (P1 : class C (chars "num") (put C (chars "num") a m) = Some a) by reflexivity.
  assert (P2 : class C (chars "digit") (put C (chars "num") a m) = Some b) by (rewrite <- B; reflexivity).
  rewrite P1, P2. cbn [and_then].
  set (m1 := put C (chars "num") (nfa_or C a b) (put C (chars "num") a m)).
  assert (P3 : class C (chars "num") m1 = Some (nfa_or C a b)) by reflexivity.
  assert (P4 : class C (chars "decimal") m1 = Some c) by (rewrite <- K; reflexivity).
  rewrite P3, P4. cbn [and_then]. eexists _, a, b, c. split; [reflexivity|]. split; [|repeat split; try reflexivity; first [rewrite <- A; reflexivity | rewrite <- B; reflexivity | rewrite <- K; reflexivity]].
  intros n NE NX. specialize (G n NE). unfold grown in *. unfold m1. rewrite !class_put.
  destruct (list_eq_dec ascii_dec (chars "latin1-range") n) as [Q|_]; [destruct NX; subst; cbn; auto|].
  destruct (list_eq_dec ascii_dec (chars "ascii-range") n) as [Q|_]; [destruct NX; subst; cbn; auto|].
  destruct (list_eq_dec ascii_dec (chars "num") n) as [Q|_]; [destruct NX; subst; cbn; auto|]. exact G.
Qed.

Lemma tidy_range C ok rng enc b e : over enc C ok rng -> b <= e -> e <= 0x110000 -> tidy enc b e -> accepts_range C enc (gnfa_range C rng enc b e) b e.
Proof.
  intros O B E T. destruct enc; cbn [tidy] in T.
  1,2,4,6: apply (C67_range C ok rng _ b e O); first [left; reflexivity | right; left; reflexivity | right; right; left; reflexivity | right; right; right; split; [reflexivity|exact E]].
  - apply (C40_exact C ok rng _ _ O B E). exact T.
  - apply (C41_exact C ok rng _ _ O). exact T.
Qed.
(** C111: whatever the data files list, loading them succeeds and there is a class for each name,
    in lower case and with underscores, that has exactly the characters listed for it in one of
    the files.  Partial: the last for the ranges that are translated correctly. *)
Theorem C111_loaded_partial : forall C ok rng enc files ess, over enc C ok rng -> Forall2 data_file files ess -> Forall short files -> has_numbers (List.concat ess) ->
  exists m, load C rng enc files [] = Done m /\
    (forall n, n <> [] -> ~ In n extra -> (class C n m <> None <-> exists c, listed (List.concat ess) n c)) /\
    (forall n a, n <> [] -> ~ In n extra -> class C n m = Some a -> single C ok a /\
       ((forall e, In e (List.concat ess) -> under e = n -> tidy enc (first e) (last_ e + 1)) ->
        forall w, lang C a w <-> exists c, listed (List.concat ess) n c /\ has enc c /\ w = units enc c)) /\
    (exists a, class C (chars "num") m = Some a /\ forall w, lang C a w <-> exists k b, In k [chars "numeric"; chars "digit"; chars "decimal"] /\ class C k m = Some b /\ lang C b w).
Proof.
  intros C ok rng enc files ess O D S N.
  destruct (load_grown C ok rng enc files ess [] O D S) as (m & a & b & c & E & G & A & B & K & NU & _ & _); [discriminate|exact N|].
  pose proof (files_sound _ _ D) as FS. rewrite Forall_forall in FS.
  exists m. split; [exact E|]. split; [|split].
  - intros n NE NX. specialize (G n NE NX). unfold grown in G. destruct (class C n m) as [x|].
    + split; [intros _|intros _; discriminate]. destruct G as ([G|(e & I & U)] & _); [destruct G; reflexivity|]. exists (first e), e. destruct (FS e I). repeat split; auto; lia.
    + split; [congruence|]. intros (y & e & I & U & _). destruct G as (_ & G). destruct (G e I U).
  - intros n x NE NX H. specialize (G n NE NX). unfold grown in G. rewrite H in G. destruct G as (_ & SI & L). split; [exact SI|]. intros T w. rewrite L. split.
    + intros [(a0 & X & _)|(e & I & U & X)]; [discriminate X|]. destruct (FS e I) as (F1 & F2).
      assert (AR : accepts_range C enc (range_of C rng enc e) (first e) (last_ e + 1)).
      { apply (tidy_range C ok); auto; lia. }
      apply AR in X. destruct X as (y & R & Hy & W). exists y. split; [exists e; repeat split; auto; lia|auto].
    + intros (y & (e & I & U & R) & Hy & W). right. exists e. split; [exact I|]. split; [exact U|]. destruct (FS e I) as (F1 & F2).
      assert (AR : accepts_range C enc (range_of C rng enc e) (first e) (last_ e + 1)).
      { apply (tidy_range C ok); auto; lia. }
      apply AR. exists y. repeat split; auto; lia.
  - exists (nfa_or C (nfa_or C a b) c). split; [exact NU|].
    assert (SG : forall k x, In k [chars "numeric"; chars "digit"; chars "decimal"] -> class C k m = Some x -> single C ok x).
    { intros k x I H. assert (NE : k <> [] /\ ~ In k extra) by (destruct I as [<-|[<-|[<-|[]]]]; (split; [discriminate|]); intros [Q|[Q|[Q|[]]]]; discriminate Q).
      specialize (G k (proj1 NE) (proj2 NE)). unfold grown in G. rewrite H in G. apply G. }
    pose proof (SG _ _ (or_introl eq_refl) A) as SA. pose proof (SG _ _ (or_intror (or_introl eq_refl)) B) as SB. pose proof (SG _ _ (or_intror (or_intror (or_introl eq_refl))) K) as SK.
    destruct O as (R & _). pose proof (supported_laws C ok (ranged_supported C ok rng R)) as LW.
    intros w. rewrite (or_lang C ok LW _ _ w (or_single C ok LW a b SA SB) SK), (or_lang C ok LW a b w SA SB). split.
    + intros [[X|X]|X]; [exists (chars "numeric"), a|exists (chars "digit"), b|exists (chars "decimal"), c]; cbn [In]; auto 6.
    + intros (k & x & [<-|[<-|[<-|[]]]] & Hx & L); [rewrite A in Hx|rewrite B in Hx|rewrite K in Hx]; injection Hx as <-; auto.
Qed.
Print Assumptions C111_loaded_partial.

(** Some lines in the format of the files. *)
Definition nl_ : string := String "010"%char EmptyString.
Definition sample : text :=
  chars ("# PropList" ++ nl_ ++ nl_ ++ "0009..000D    ; White_Space # Cc   [5] <control-0009>..<control-000D>" ++ nl_ ++ "0020          ; White_Space # Zs       SPACE" ++ nl_ ++ "00b2;Digit" ++ nl_)%string.
Definition sample2 : text := chars ("0030..0039 ; Decimal # Nd" ++ nl_ ++ "00BC..00BE ; Numeric" ++ nl_ ++ "1680; White Space")%string.
Definition sample_entries : list entry := [Entry 9 13 (chars "white_space"); Entry 32 32 (chars "white_space"); Entry 0xb2 0xb2 (chars "digit")].
Definition sample_entries2 : list entry := [Entry 0x30 0x39 (chars "decimal"); Entry 0xbc 0xbe (chars "numeric"); Entry 0x1680 0x1680 (chars "white_space")].
Ltac a_digit := first [left; reflexivity | right; reflexivity].
Lemma number_4 a b c d x y z t : digit_of a x -> digit_of b y -> digit_of c z -> digit_of d t -> number [a; b; c; d] (16 * (16 * (16 * x + y) + z) + t).
Proof. intros. apply (number_more [a; b; c]); [|assumption]. apply (number_more [a; b]); [|assumption]. apply (number_more [a]); [|assumption]. constructor. assumption. Qed.
Ltac number4 := match goal with |- number ?s ?v => let s' := eval vm_compute in s in change (number s' v) end; match goal with |- number [?a; ?b; ?c; ?d] ?v => 
  let x := eval vm_compute in (v / 4096) in let y := eval vm_compute in (v / 256 mod 16) in let z := eval vm_compute in (v / 16 mod 16) in let t := eval vm_compute in (v mod 16) in
  exact (number_4 a b c d x y z t ltac:(a_digit) ltac:(a_digit) ltac:(a_digit) ltac:(a_digit)) end.
Lemma spelt_by c : spelt c (replaced "-" "_" (replaced " " "_" (lower c))).
Proof.
  destruct (in_dec ascii_dec c upper_case) as [I|I].
  - apply In_nth_error in I. destruct I as (i & I).
    do 26 (destruct i as [|i]; [match type of I with nth_error _ ?k = _ => injection I as <-; apply (spelt_upper k); reflexivity end|]). destruct i; discriminate I.
  - destruct (ascii_dec c " ") as [-> |A]; [apply spelt_gap; left; reflexivity|]. destruct (ascii_dec c "-") as [-> |B]; [apply spelt_gap; right; reflexivity|].
    pose proof (spelt_same c I A B) as SP. rewrite (spelt_letter c c SP). exact SP.
Qed.
Lemma spelt_all s : Forall2 spelt s (map (fun c => replaced "-" "_" (replaced " " "_" (lower c))) s).
Proof. induction s as [|c s IH]; cbn [map]; constructor; [apply spelt_by|exact IH]. Qed.
Lemma names_by b core b' : forallb space b = true -> forallb space b' = true -> match core with [] => True | c :: _ => space c = false end -> match rev core with [] => True | c :: _ => space c = false end ->
  names (b ++ core ++ b') (map (fun c => replaced "-" "_" (replaced " " "_" (lower c))) core).
Proof.
  intros B B' F L. exists b, core, b'. split; [reflexivity|]. rewrite forallb_forall in B, B'. split; [apply Forall_forall; intros x I; apply space_blank; auto|]. split; [apply Forall_forall; intros x I; apply space_blank; auto|].
  split; [|split; [|apply spelt_all]].
  - intros c r -> H. apply space_blank in H. congruence.
  - intros c r -> H. rewrite rev_app_distr in L. cbn in L. apply space_blank in H. congruence.
Qed.
Definition lacks (c : ascii) (s : text) : bool := negb (existsb (Ascii.eqb c) s).
Lemma lacks_in c s : lacks c s = true -> ~ In c s.
Proof. unfold lacks. intros H I. rewrite negb_true_iff in H. rewrite <- not_true_iff_false in H. apply H. apply existsb_exists. exists c. split; [exact I|apply Ascii.eqb_refl]. Qed.
Lemma lacks_dots s at_ : (dots_ s at_ = -1)%Z -> (0 <= at_)%Z -> ~ has_dots s.
Proof.
  intros H P (u & v & ->). revert at_ H P. induction u as [|c u IH]; intros at_ H P; cbn in H; [lia|].
  destruct (u ++ "."%char :: "."%char :: v) as [|d r] eqn:Q; [destruct u; discriminate Q|]. destruct (Ascii.eqb c "." && Ascii.eqb d "."); [lia|]. apply (IH (at_ + 1)%Z); [cbn [app]; rewrite Q; exact H|lia].
Qed.
Ltac padded_ := split; [apply lacks_in; reflexivity|]; let c := fresh in let r := fresh in let E := fresh in intros c r E; first [discriminate E | injection E as <- <-; apply not_digit; reflexivity].
Ltac ended b core b' := exists (b ++ core ++ b'); split; [exact (names_by b core b' eq_refl eq_refl eq_refl eq_refl)|split; [apply lacks_in; reflexivity|first [left; reflexivity | right; eexists; reflexivity]]].
Lemma sample_file : data_file sample sample_entries.
Proof.
  apply (data_line (chars "# PropList") [] _ sample_entries); [apply line_comment|apply lacks_in; reflexivity|].
  apply (data_line [] [] _ sample_entries); [apply line_empty|intros []|].
  apply (data_line (chars "0009..000D    ; White_Space # Cc   [5] <control-0009>..<control-000D>") [Entry 9 13 (chars "white_space")] _ [Entry 32 32 (chars "white_space"); Entry 0xb2 0xb2 (chars "digit")]).
  { apply (line_range (chars "0009") 9 (chars "000D") 13 (chars "    ") (chars " White_Space # Cc   [5] <control-0009>..<control-000D>") (chars "white_space")); [number4|number4|lia|lia|padded_| |discriminate].
    ended (chars " ") (chars "White_Space") (chars " "). }
  { apply lacks_in. reflexivity. }
  apply (data_line (chars "0020          ; White_Space # Zs       SPACE") [Entry 32 32 (chars "white_space")] _ [Entry 0xb2 0xb2 (chars "digit")]).
  { apply (line_one (chars "0020") 32 (chars "          ") (chars " White_Space # Zs       SPACE") (chars "white_space")); [number4|lia|padded_| |discriminate|apply (lacks_dots _ 0); [reflexivity|lia]].
    ended (chars " ") (chars "White_Space") (chars " "). }
  { apply lacks_in. reflexivity. }
  apply (data_line (chars "00b2;Digit") [Entry 0xb2 0xb2 (chars "digit")] [] []); [|apply lacks_in; reflexivity|constructor].
  apply (line_one (chars "00b2") 0xb2 [] (chars "Digit") (chars "digit")); [number4|lia|padded_| |discriminate|apply (lacks_dots _ 0); [reflexivity|lia]].
  ended (@nil ascii) (chars "Digit") (@nil ascii).
Qed.
Lemma sample_file2 : data_file sample2 sample_entries2.
Proof.
  apply (data_line (chars "0030..0039 ; Decimal # Nd") [Entry 0x30 0x39 (chars "decimal")] _ [Entry 0xbc 0xbe (chars "numeric"); Entry 0x1680 0x1680 (chars "white_space")]).
  { apply (line_range (chars "0030") 0x30 (chars "0039") 0x39 (chars " ") (chars " Decimal # Nd") (chars "decimal")); [number4|number4|lia|lia|padded_| |discriminate].
    ended (chars " ") (chars "Decimal") (chars " "). }
  { apply lacks_in. reflexivity. }
  apply (data_line (chars "00BC..00BE ; Numeric") [Entry 0xbc 0xbe (chars "numeric")] _ [Entry 0x1680 0x1680 (chars "white_space")]).
  { apply (line_range (chars "00BC") 0xbc (chars "00BE") 0xbe (chars " ") (chars " Numeric") (chars "numeric")); [number4|number4|lia|lia|padded_| |discriminate].
    ended (chars " ") (chars "Numeric") (@nil ascii). }
  { apply lacks_in. reflexivity. }
  apply data_last; [|apply lacks_in; reflexivity].
  apply (line_one (chars "1680") 0x1680 [] (chars " White Space") (chars "white_space")); [number4|lia|padded_| |discriminate|apply (lacks_dots _ 0); [reflexivity|lia]].
  ended (chars " ") (chars "White Space") (@nil ascii).
Qed.
Lemma sample_numbers : has_numbers (sample_entries ++ sample_entries2 ++ []).
Proof. intros k [<-|[<-|[<-|[]]]]; [exists (Entry 0xbc 0xbe (chars "numeric"))|exists (Entry 0xb2 0xb2 (chars "digit"))|exists (Entry 0x30 0x39 (chars "decimal"))]; cbn; auto 10. Qed.
(** White space of the two files together, in UTF-8. *)
Example C111_case : exists m a, load (seq_cset 0x100) seq_range Utf8 [sample; sample2] [] = Done m /\ class (seq_cset 0x100) (chars "white_space") m = Some a /\
  forall w, lang (seq_cset 0x100) a w <-> exists c, (9 <= c <= 13 \/ c = 32 \/ c = 0x1680) /\ w = utf8_char c.
Proof.
  destruct (C111_loaded_partial (seq_cset 0x100) _ seq_range Utf8 [sample; sample2] [sample_entries; sample_entries2] (over_seq Utf8)) as (m & E & H1 & H2 & _).
  - constructor; [apply sample_file|constructor; [apply sample_file2|constructor]].
  - constructor; [reflexivity|constructor; [reflexivity|constructor]].
  - exact sample_numbers.
  - assert (NX : ~ In (chars "white_space") extra) by (intros [Q|[Q|[Q|[]]]]; discriminate Q).
    destruct (class (seq_cset 0x100) (chars "white_space") m) as [a|] eqn:Q.
    + exists m, a. split; [exact E|]. split; [exact Q|]. destruct (H2 (chars "white_space") a ltac:(discriminate) NX Q) as (_ & L). intros w. rewrite L.
      * split.
        -- intros (c & (e & I & U & R) & _ & W). exists c. split; [|exact W]. cbn in I. repeat (destruct I as [<-|I]; [cbn in U, R; try discriminate U; lia|]). contradiction.
        -- intros (c & R & W). exists c. split; [|split; [cbn; unfold code_point; lia|exact W]].
           destruct R as [R|[R|R]]; [exists (Entry 9 13 (chars "white_space"))|exists (Entry 32 32 (chars "white_space"))|exists (Entry 0x1680 0x1680 (chars "white_space"))]; (split; [cbn; auto 10|split; [reflexivity|cbn; lia]]).
      * intros e I U. cbn in I. repeat (destruct I as [<-|I]; [cbn in U |- *; try discriminate U; unfold tidy8, tidy4, tidy3; lia|]). contradiction.
    + exfalso. apply (proj2 (H1 (chars "white_space") ltac:(discriminate) NX)); [|exact Q]. exists 9, (Entry 9 13 (chars "white_space")). split; [cbn; auto|]. split; [reflexivity|cbn; lia].
Qed.
(** A line of PropList.txt: the class is not right in UTF-8, it accepts something that is not UTF-8. *)
Definition ideographic : text := chars "4E00..9FCB    ; Ideographic # Lo [20940] CJK UNIFIED IDEOGRAPH-4E00..CJK UNIFIED IDEOGRAPH-9FCB".
Theorem C111_utf8_refuted : forall C ok rng, over Utf8 C ok rng -> exists m a, standard_format C rng Utf8 ideographic [] = Done m /\ class C (chars "ideographic") m = Some a /\
  lang C a [0xe4; 0xc0; 0x80] /\ forall c, utf8_char c <> [0xe4; 0xc0; 0x80].
Proof.
  intros C ok rng (R & SZ).
  assert (D : data_file ideographic [Entry 0x4e00 0x9fcb (chars "ideographic")]).
  { apply data_last; [|apply lacks_in; reflexivity].
    apply (line_range (chars "4E00") 0x4e00 (chars "9FCB") 0x9fcb (chars "    ") (chars " Ideographic # Lo [20940] CJK UNIFIED IDEOGRAPH-4E00..CJK UNIFIED IDEOGRAPH-9FCB") (chars "ideographic")); [number4|number4|lia|lia|padded_| |discriminate].
    ended (chars " ") (chars "Ideographic") (chars " "). }
  destruct (file_ok C rng Utf8 ideographic _ [] D eq_refl) as (l & E & K).
  pose proof (grown_noted C rng Utf8 ok (conj R SZ) [] l [] [] (chars "ideographic") ltac:(discriminate)) as G. rewrite K in G.
  assert (G' : grown C rng Utf8 ok [] [Entry 0x4e00 0x9fcb (chars "ideographic")] (noted C rng Utf8 l []) (chars "ideographic")).
  { apply G; [repeat constructor; cbn; lia|]. apply grown_nil. discriminate. }
  unfold grown in G'. destruct (class C (chars "ideographic") (noted C rng Utf8 l [])) as [a|] eqn:Q.
  2:{ destruct G' as (_ & N). destruct (N _ (or_introl eq_refl) eq_refl). }
  exists (noted C rng Utf8 l []), a. split; [exact E|]. split; [exact Q|]. split.
  - apply G'. right. exists (Entry 0x4e00 0x9fcb (chars "ideographic")). split; [left; reflexivity|]. split; [reflexivity|]. unfold range_of. cbn [first last_ gnfa_range].
    apply (utf8_range_words C ok rng R SZ 0x4e00 (0x9fcb + 1) ltac:(lia) ltac:(lia)). change (W3 0xe4 0xe9 0xb8 0xbf 0x80 0x8c [0xe4; 0xc0; 0x80]). exists 0xe4, 0xc0, 0x80. split; [reflexivity|]. unfold Q3, Q2, Q1. lia.
  - intros c X. unfold utf8_char in X. destruct (N.ltb_spec c 0x80); [discriminate X|]. destruct (N.ltb_spec c 0x800); [discriminate X|]. destruct (N.ltb_spec c 0x10000); [|discriminate X].
    apply (f_equal (fun l => nth 1 l 0)) in X. cbn [nth] in X. assert (c / 64 mod 64 < 64) by (apply N.mod_lt; discriminate). lia.
Qed.
Print Assumptions C111_utf8_refuted.

(** C112: once the data is loaded, a name means what it was last defined to mean, and the class of
    the data if it was not defined.  Partial: what is missing is refuted below. *)
Lemma list_eq_dec_nil {A} (l : list A) : {l = []} + {exists l' x, l = l' ++ [x]}.
Proof. destruct l as [|a l]; [left; reflexivity|right]. destruct (@exists_last A (a :: l) ltac:(discriminate)) as (l' & x & ->). eauto. Qed.
Definition defined {C : cset} (l : list (event C)) (n : text) (a : nfa C) : Prop := exists l1 l2, l = l1 ++ [Definition_of n a] ++ l2 /\ forall b, ~ In (Definition_of n b) l2.
Theorem C112_names_partial : forall C rng enc files l m, exists m', events C rng enc files l (true, m) = Done (true, m') /\
  (forall n a, defined l n a -> class C n m' = Some a) /\ (forall n, (forall a, ~ In (Definition_of n a) l) -> class C n m' = class C n m).
Proof.
  intros C rng enc files l. induction l as [|e l IH] using rev_ind; intros m.
  - exists m. split; [reflexivity|]. split; [intros n a (l1 & l2 & Q & _); destruct l1; discriminate Q|reflexivity].
  - destruct (IH m) as (m1 & E & A & B).
    assert (EV : forall k, events C rng enc files (l ++ k) (true, m) = and_then (events C rng enc files l (true, m)) (events C rng enc files k)).
    { intros k. clear. generalize (true, m). induction l as [|x l IH]; intros s; cbn [app events and_then]; [reflexivity|]. destruct (happen C rng enc files x s); cbn [and_then]; auto. }
    rewrite EV, E. cbn [and_then events]. destruct e as [st|n0 a0].
    + exists m1. split; [destruct st; reflexivity|]. split.
      * intros n a (l1 & l2 & Q & N). destruct (list_eq_dec_nil l2) as [-> |(l3 & x & ->)].
        -- replace (l1 ++ [Definition_of n a] ++ []) with (l1 ++ [Definition_of n a]) in Q by (rewrite app_nil_r; reflexivity). apply app_inj_tail in Q. destruct Q as (_ & Q). discriminate Q.
        -- apply A. replace (l1 ++ [Definition_of n a] ++ l3 ++ [x]) with ((l1 ++ [Definition_of n a] ++ l3) ++ [x]) in Q by (rewrite <- !app_assoc; reflexivity). apply app_inj_tail in Q. destruct Q as (Q & _).
           exists l1, l3. split; [exact Q|]. intros b I. apply (N b). apply in_or_app. left. exact I.
      * intros n N. apply B. intros a I. apply (N a). apply in_or_app. left. exact I.
    + exists (put C n0 a0 m1). split; [reflexivity|]. split.
      * intros n a (l1 & l2 & Q & N). rewrite class_put. destruct (list_eq_dec_nil l2) as [-> |(l3 & x & ->)].
        -- replace (l1 ++ [Definition_of n a] ++ []) with (l1 ++ [Definition_of n a]) in Q by (rewrite app_nil_r; reflexivity). apply app_inj_tail in Q. destruct Q as (_ & Q). injection Q as -> ->. destruct (list_eq_dec ascii_dec n n); congruence.
        -- replace (l1 ++ [Definition_of n a] ++ l3 ++ [x]) with ((l1 ++ [Definition_of n a] ++ l3) ++ [x]) in Q by (rewrite <- !app_assoc; reflexivity). apply app_inj_tail in Q. destruct Q as (Q & <-).
           destruct (list_eq_dec ascii_dec n0 n) as [-> |NE]; [destruct (N a0); apply in_or_app; right; left; reflexivity|]. apply A. exists l1, l3. split; [exact Q|]. intros b I. apply (N b). apply in_or_app. left. exact I.
      * intros n N. rewrite class_put. destruct (list_eq_dec ascii_dec n0 n) as [-> |NE]; [destruct (N a0); apply in_or_app; right; left; reflexivity|]. apply B. intros a I. apply (N a). apply in_or_app. left. exact I.
Qed.
Print Assumptions C112_names_partial.
Definition Asc : cset := seq_cset 0x80.
Example C112_names_case : exists m', events Asc seq_range Ascii [] [Definition_of (chars "x") (nfa_empty _); Section_start (Some (chars "s")); Definition_of (chars "x") (nfa_word Asc [97]); Section_start None] (true, []) = Done (true, m') /\
  class Asc (chars "x") m' = Some (nfa_word Asc [97]) /\ class Asc (chars "y") m' = None.
Proof. eexists. split; [reflexivity|]. split; reflexivity. Qed.
(** ... but the data is loaded when the first section without the name of a state begins.  Before
    that no class is known, *)
Theorem C112_states_refuted : forall C rng enc files l, ~ In (Section_start None) l -> exists m, events C rng enc files l (false, []) = Done (false, m) /\ forall n, class C n m <> None -> exists a, In (Definition_of n a) l.
Proof.
  intros C rng enc files l N. assert (G : forall l m, ~ In (Section_start None) l -> exists m', events C rng enc files l (false, m) = Done (false, m') /\ forall n, class C n m' <> None -> class C n m <> None \/ exists a, In (Definition_of n a) l).
  { clear l N. induction l as [|e l IH]; intros m N; [exists m; split; [reflexivity|auto]|]. destruct e as [[s|]|n0 a0]; [| destruct N; left; reflexivity |].
    - destruct (IH m) as (m' & E & H); [intros I; apply N; right; exact I|]. exists m'. split; [exact E|]. intros n X. destruct (H n X) as [Y|(a & Y)]; [left; exact Y|right; exists a; right; exact Y].
    - destruct (IH (put C n0 a0 m)) as (m' & E & H); [intros I; apply N; right; exact I|]. exists m'. split; [exact E|]. intros n X. destruct (H n X) as [Y|(a & Y)]; [|right; exists a; right; exact Y].
      rewrite class_put in Y. destruct (list_eq_dec ascii_dec n0 n) as [-> |NE]; [right; exists a0; left; reflexivity|left; exact Y]. }
  destruct (G l [] N) as (m & E & H). exists m. split; [exact E|]. intros n X. destruct (H n X) as [Y|Y]; [destruct Y; reflexivity|exact Y].
Qed.
Print Assumptions C112_states_refuted.
(** and what the author defined before that is changed: characters of the data come in, and a
    definition of [num] is lost. *)
Theorem C112_merged_refuted : forall C ok rng enc files ess s a z, over enc C ok rng -> Forall2 data_file files ess -> Forall short files -> has_numbers (List.concat ess) -> single C ok a -> single C ok z ->
  exists m b, events C rng enc files [Section_start (Some s); Definition_of (chars "digit") a; Definition_of (chars "num") z; Section_start None] (false, []) = Done (true, m) /\
    class C (chars "digit") m = Some b /\
    (forall w, lang C b w <-> lang C a w \/ exists e, In e (List.concat ess) /\ under e = chars "digit" /\ lang C (gnfa_range C rng enc (first e) (last_ e + 1)) w) /\
    exists x y, class C (chars "num") m = Some (nfa_or C (nfa_or C x b) y).
Proof.
  intros C ok rng enc files ess s a z O D S N SA SZ.
  set (m0 := put C (chars "num") z (put C (chars "digit") a [])).
  destruct (load_grown C ok rng enc files ess m0 O D S) as (m & x & b & y & E & G & _ & B & _ & NU & _ & _); [|exact N|].
  { intros n v H. unfold m0 in H. rewrite !class_put in H. destruct (list_eq_dec ascii_dec (chars "num") n); [congruence|]. destruct (list_eq_dec ascii_dec (chars "digit") n); [congruence|discriminate H]. }
  exists m, b. split; [cbn [events and_then happen fst snd]; fold m0; rewrite E; reflexivity|]. split; [exact B|]. split; [|exists x, y; exact NU].
  specialize (G (chars "digit") ltac:(discriminate) ltac:(intros [Q|[Q|[Q|[]]]]; discriminate Q)). unfold grown in G. rewrite B in G. destruct G as (_ & _ & L). intros w. rewrite L.
  change (class C (chars "digit") m0) with (Some a). split; (intros [H|H]; [left|right; exact H]).
  - destruct H as (a0 & Q & H). injection Q as <-. exact H.
  - exists a. split; [reflexivity|exact H].
Qed.
Print Assumptions C112_merged_refuted.
(** The names between braces are words, so that two of the classes cannot be written. *)
Theorem C112_written_refuted : forall cfg bytes x, In x (tokens_of (ScanModel.scan_file cfg bytes)) -> ScanModel.ltok x = ScanModel.Tok "T_NAMED_REGEXP" ->
  ScanModel.lval x <> chars "ascii-range" /\ ScanModel.lval x <> chars "latin1-range".
Proof.
  intros cfg bytes x I T. assert (W : name_text (ScanModel.lval x)).
  { apply (scan_names (S (List.length (ScanModel.readable bytes))) cfg ScanModel.start (ScanModel.readable bytes)); [intros Q; discriminate Q|exact I|exact T]. }
  split; intros Q; rewrite Q in W; discriminate W.
Qed.
Print Assumptions C112_written_refuted.
Example C112_written_case : exists l s, ScanModel.scan_file (ScanModel.Config ScanModel.BeautifulCode []) (chars "%lexer -> {alphabetic} X ; ;") = ScanModel.Scanned l s /\
  map ScanModel.lval (filter (fun x => match ScanModel.ltok x with ScanModel.Tok "T_NAMED_REGEXP" => true | _ => false end) l) = [chars "alphabetic"].
Proof. eexists _, _. split; vm_compute; reflexivity. Qed.
Example C112_merged_case : exists m b, events (seq_cset 0x100) seq_range Utf8 [sample; sample2]
    [Section_start (Some (chars "s")); Definition_of (chars "digit") (nfa_empty _); Definition_of (chars "num") (nfa_empty _); Section_start None] (false, []) = Done (true, m) /\
  class (seq_cset 0x100) (chars "digit") m = Some b /\ lang (seq_cset 0x100) b (utf8_char 0xb2) /\ ~ lang (seq_cset 0x100) (nfa_empty (seq_cset 0x100)) (utf8_char 0xb2).
Proof.
  destruct (C112_merged_refuted (seq_cset 0x100) _ seq_range Utf8 [sample; sample2] [sample_entries; sample_entries2] (chars "s") (nfa_empty _) (nfa_empty _) (over_seq Utf8)) as (m & b & E & B & L & _).
  - constructor; [apply sample_file|constructor; [apply sample_file2|constructor]].
  - constructor; [reflexivity|constructor; [reflexivity|constructor]].
  - exact sample_numbers.
  - apply empty_single.
  - apply empty_single.
  - exists m, b. split; [exact E|]. split; [exact B|]. split; [|intros X; exact (empty_lang (seq_cset 0x100) (seq_ok 0x100) _ X)]. apply L. right. exists (Entry 0xb2 0xb2 (chars "digit")). split; [cbn; auto|]. split; [reflexivity|].
    apply (tidy_range (seq_cset 0x100) (seq_ok 0x100) seq_range Utf8 0xb2 (0xb2 + 1) (over_seq Utf8)); [lia|lia|cbn; unfold tidy8; lia|]. exists 0xb2. split; [lia|]. split; [cbn; unfold code_point; lia|reflexivity].
Qed.
