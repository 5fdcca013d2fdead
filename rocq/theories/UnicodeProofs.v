(** Proofs about the loader of the data files. *)
From Coq Require Import List NArith ZArith Bool Ascii String Lia ZifyBool ZifyN ZifyNat.
From Verif Require Import Base AutomatonModel AutomatonSpec CsetLaws ThompsonProofs UtfSpec RangeModel RangeSpec RangeProofs RangeProps FlexModel UnicodeModel UnicodeSpec.
Import ListNotations.
Local Open Scope N_scope.

Ltac each_char c := destruct c as [[|] [|] [|] [|] [|] [|] [|] [|]].

(** ** Numbers *)
Lemma hex_some c d : hex_digit c = Some d -> digit_of c d.
Proof. each_char c; vm_compute; intros H; try discriminate H; injection H as <-; vm_compute; auto. Qed.
Lemma digit_hex c d : digit_of c d -> hex_digit c = Some d /\ d < 16.
Proof.
  unfold digit_of. intros H. rewrite <- (N2Nat.id d). generalize dependent (N.to_nat d). intros n H.
  do 16 (destruct n as [|n]; [destruct H as [H|H]; injection H as <-; vm_compute; auto|]). exfalso.
  destruct H as [H|H]; cbn in H; destruct n; discriminate H.
Qed.
Lemma hex_none c : (forall d, ~ digit_of c d) -> hex_digit c = None.
Proof. intros H. destruct (hex_digit c) as [d|] eqn:E; [|reflexivity]. destruct (H d (hex_some c d E)). Qed.
Definition shift (k : nat) (o : option (N * nat)) : option (N * nat) := match o with Some (v, j) => Some (v, (k + j)%nat) | None => None end.
Lemma set_char_number s v r : number s v -> v < 0x10000000 -> set_char (s ++ r) 0 = shift (List.length s) (set_char r v).
Proof.
  intros H. revert r. induction H as [c d H|s v c d H IH K]; intros r B.
  - apply digit_hex in H. destruct H as (H & D). cbn [app set_char]. rewrite H. cbn [List.length]. replace (wrap (wrap (0 * 16) + d)) with d; [reflexivity|]. unfold wrap. rewrite N.mod_small; [reflexivity|]. cbn. lia.
  - rewrite <- app_assoc. rewrite IH by lia. apply digit_hex in K. destruct K as (K & D). cbn [app set_char]. rewrite K.
    replace (wrap (wrap (v * 16) + d)) with (16 * v + d) by (unfold wrap; rewrite (N.mod_small (v * 16)) by lia; rewrite N.mod_small by lia; lia).
    rewrite app_length. cbn [List.length]. destruct (set_char r (16 * v + d)) as [(y & k)|]; cbn [shift]; [|reflexivity]. do 2 f_equal. lia.
Qed.
Lemma set_char_end c r v : (forall d, ~ digit_of c d) -> v < 0x10000000 -> set_char (c :: r) v = Some (v, 0%nat).
Proof.
  intros H B. cbn [set_char]. rewrite (hex_none c H). do 2 f_equal. unfold wrap. rewrite N.mod_small by lia. apply N.div_mul. discriminate.
Qed.
Lemma number_digits s v : number s v -> Forall (fun c => exists d, digit_of c d) s.
Proof. intros H. induction H; [repeat constructor; eauto|]. apply Forall_app. split; [assumption|]. repeat constructor; eauto. Qed.
Lemma number_some s v : number s v -> exists c r d, s = c :: r /\ digit_of c d.
Proof.
  intros H. pose proof (number_digits s v H) as F. destruct s as [|c r].
  - exfalso. inversion H. destruct s; discriminate.
  - inversion F as [|? ? (d & D)]. subst. eauto.
Qed.
Lemma not_digit c : hex_digit c = None -> forall d, ~ digit_of c d.
Proof. intros H d D. apply digit_hex in D. destruct D as (D & _). rewrite H in D. discriminate D. Qed.
Lemma digit_not c x : hex_digit x = None -> (exists d, digit_of c d) -> c <> x.
Proof. intros H (d & D) E. subst. exact (not_digit _ H _ D). Qed.

(** ** Places in a line *)
Lemma index_found c u v at_ : ~ In c u -> index_ c (u ++ c :: v) at_ = (at_ + Z.of_nat (List.length u))%Z.
Proof.
  revert at_. induction u as [|d u IH]; intros at_ H; cbn [app index_].
  - rewrite Ascii.eqb_refl. cbn. lia.
  - destruct (Ascii.eqb_spec d c) as [E|E]; [destruct H; left; exact E|]. rewrite IH by (intros I; apply H; right; exact I). cbn [List.length]. lia.
Qed.
Lemma index_missing c u at_ : ~ In c u -> index_ c u at_ = (-1)%Z.
Proof.
  revert at_. induction u as [|d u IH]; intros at_ H; cbn [index_]; [reflexivity|].
  destruct (Ascii.eqb_spec d c) as [E|E]; [destruct H; left; exact E|]. apply IH. intros I. apply H. right. exact I.
Qed.
Lemma index_of_found c u v w : ~ In c v -> index_of c (u ++ v ++ c :: w) (Z.of_nat (List.length u)) = Z.of_nat (List.length u + List.length v).
Proof. intros H. unfold index_of. rewrite Nat2Z.id, skipn_app, skipn_all, Nat.sub_diag. cbn [skipn app]. rewrite index_found by exact H. lia. Qed.
Lemma index_of_missing c u v : ~ In c v -> index_of c (u ++ v) (Z.of_nat (List.length u)) = (-1)%Z.
Proof. intros H. unfold index_of. rewrite Nat2Z.id, skipn_app, skipn_all, Nat.sub_diag. cbn [skipn app]. apply index_missing. exact H. Qed.
Lemma dots_step d s at_ : d <> "."%char -> dots_ (d :: s) at_ = match s with [] => (-1)%Z | _ => dots_ s (at_ + 1) end.
Proof. intros H. destruct s as [|e s]; [reflexivity|]. cbn [dots_]. destruct (Ascii.eqb_spec d ".") as [E|E]; [contradiction|]. reflexivity. Qed.
Lemma dots_found u v at_ : ~ In "."%char u -> dots_ (u ++ ["."; "."]%char ++ v) at_ = (at_ + Z.of_nat (List.length u))%Z.
Proof.
  revert at_. induction u as [|d u IH]; intros at_ H.
  - cbn. lia.
  - cbn [app]. rewrite dots_step by (intros E; apply H; left; exact E). destruct (u ++ "."%char :: "."%char :: v) as [|x y] eqn:Q; [destruct u; discriminate Q|].
    rewrite <- Q. change (u ++ "."%char :: "."%char :: v) with (u ++ ["."; "."]%char ++ v). rewrite (IH (at_ + 1)%Z) by (intros I; apply H; right; exact I). cbn [List.length]. lia.
Qed.
Lemma dots_missing s at_ : ~ has_dots s -> dots_ s at_ = (-1)%Z.
Proof.
  revert at_. induction s as [|d s IH]; intros at_ H; [reflexivity|]. cbn [dots_]. destruct s as [|e s]; [reflexivity|].
  destruct (Ascii.eqb_spec d ".") as [->|E]; [destruct (Ascii.eqb_spec e ".") as [->|E']|]; cbn [andb].
  - destruct H. exists [], s. reflexivity.
  - apply IH. intros (u & v & Q). apply H. exists ("."%char :: u), v. rewrite Q. reflexivity.
  - apply IH. intros (u & v & Q). apply H. exists (d :: u), v. rewrite Q. reflexivity.
Qed.

(** ** Names *)
Lemma space_blank c : space c = true <-> blank c.
Proof. unfold blank. each_char c; vm_compute; split; intros H; try reflexivity; try discriminate H; try tauto; repeat (destruct H as [H|H]; try discriminate H); contradiction. Qed.
Lemma not_space c : ~ blank c -> space c = false.
Proof. intros H. destruct (space c) eqn:E; [|reflexivity]. destruct H. apply space_blank. exact E. Qed.
Lemma drop_blanks b s : Forall blank b -> drop_space (b ++ s) = drop_space s.
Proof. intros H. induction H as [|c b H F IH]; [reflexivity|]. cbn [app drop_space]. apply space_blank in H. rewrite H. exact IH. Qed.
Lemma trimmed_core b core b' : Forall blank b -> Forall blank b' -> core <> [] -> (forall c r, core = c :: r -> ~ blank c) -> (forall c r, core = r ++ [c] -> ~ blank c) ->
  trimmed (b ++ core ++ b') = core.
Proof.
  intros B B' N F L. unfold trimmed. rewrite drop_blanks by exact B.
  destruct core as [|c r]; [contradiction|]. cbn [app drop_space]. rewrite (not_space c (F c r eq_refl)).
  change (c :: r ++ b') with ((c :: r) ++ b'). rewrite rev_app_distr, drop_blanks by (apply Forall_rev; exact B').
  destruct (exists_last N) as (u & d & Q). rewrite Q, rev_app_distr. cbn [rev app drop_space]. rewrite (not_space d (L d u Q)). change (d :: rev u) with (rev [d] ++ rev u). rewrite <- rev_app_distr. apply rev_involutive.
Qed.
Lemma spelt_letter c d : spelt c d -> replaced "-" "_" (replaced " " "_" (lower c)) = d.
Proof.
  intros H. destruct H as [i c d H K|c H|c H K J].
  - do 26 (destruct i as [|i]; [injection H as <-; injection K as <-; reflexivity|]). cbn in H. destruct i; discriminate H.
  - destruct H as [-> | ->]; reflexivity.
  - assert (L : lower c = c) by (each_char c; try reflexivity; exfalso; apply H; vm_compute; tauto). rewrite L. unfold replaced.
    destruct (Ascii.eqb_spec c " ") as [E|E]; [contradiction|]. destruct (Ascii.eqb_spec c "-") as [E'|E']; [contradiction|]. reflexivity.
Qed.
Lemma spelt_name core n : Forall2 spelt core n -> map (replaced "-" "_") (map (replaced " " "_") (map lower core)) = n.
Proof. intros H. induction H as [|c d l l' H F IH]; [reflexivity|]. cbn [map]. rewrite (spelt_letter c d H), IH. reflexivity. Qed.

Definition line_end (t : text) : Prop := t = [] \/ t = ["010"%char].
Lemma class_name_ok pre s n t : ending s n -> n <> [] -> line_end t -> (Z.of_nat (List.length (pre ++ [";"%char] ++ s ++ t)) < 0x80000000)%Z ->
  class_name (pre ++ [";"%char] ++ s ++ t) (Z.of_nat (List.length pre)) = n.
Proof.
  intros (raw & (b & core & b' & -> & B & B' & F & L & SP) & NH & S) N T SH. unfold class_name.
  assert (TB : Forall blank t) by (destruct T as [-> | ->]; [constructor|repeat constructor; vm_compute; tauto]).
  assert (CN : core <> []) by (intros ->; inversion SP; subst; contradiction).
  replace (pre ++ [";"%char] ++ s ++ t) with ((pre ++ [";"%char]) ++ (s ++ t)) in * by (rewrite <- app_assoc; reflexivity).
  replace (Z.of_nat (List.length pre) + 1)%Z with (Z.of_nat (List.length (pre ++ [";"%char]))) by (rewrite app_length; cbn [List.length]; lia).
  assert (PL : Z.of_nat (List.length (pre ++ [";"%char])) = (Z.of_nat (List.length pre) + 1)%Z) by (rewrite app_length; cbn [List.length]; lia).
  rewrite app_length in SH.
  assert (M : mid ((pre ++ [";"%char]) ++ s ++ t) (Z.of_nat (List.length (pre ++ [";"%char])))
            (uint (uint (index_of "#" ((pre ++ [";"%char]) ++ s ++ t) (Z.of_nat (List.length (pre ++ [";"%char])))) - Z.of_nat (List.length pre) - 1)) =
            (b ++ core ++ b') \/
          mid ((pre ++ [";"%char]) ++ s ++ t) (Z.of_nat (List.length (pre ++ [";"%char])))
            (uint (uint (index_of "#" ((pre ++ [";"%char]) ++ s ++ t) (Z.of_nat (List.length (pre ++ [";"%char])))) - Z.of_nat (List.length pre) - 1)) =
            (b ++ core ++ b') ++ t).
  { destruct S as [-> | (cm & ->)].
    - right. rewrite index_of_missing.
      2:{ intros I. apply in_app_or in I. destruct I as [I|I]; [contradiction|]. destruct T as [-> | ->]; [destruct I|]. destruct I as [I|[]]. discriminate I. }
      unfold mid, uint. rewrite Nat2Z.id, skipn_app, skipn_all, Nat.sub_diag. cbn [skipn app]. rewrite app_length. apply firstn_all2. revert SH PL. generalize (List.length ((b ++ core ++ b') ++ t)) (List.length pre) (List.length (pre ++ [";"%char])). intros x y z SH PL. lia.
    - left. replace (((b ++ core ++ b') ++ ["#"%char] ++ cm) ++ t) with ((b ++ core ++ b') ++ "#"%char :: (cm ++ t)) in * by (rewrite <- !app_assoc; reflexivity).
      rewrite index_of_found by exact NH. unfold mid, uint. rewrite Nat2Z.id, skipn_app, skipn_all, Nat.sub_diag. cbn [skipn app].
      rewrite (app_length (b ++ core ++ b') ("#"%char :: cm ++ t)) in SH. rewrite (app_length (pre ++ [";"%char]) ((b ++ core ++ b') ++ "#"%char :: cm ++ t)), (app_length (b ++ core ++ b') ("#"%char :: cm ++ t)).
      match goal with |- firstn ?k _ = _ => assert (K : k = List.length (b ++ core ++ b')) end.
      { revert PL SH. generalize (List.length (pre ++ [";"%char])) (List.length (b ++ core ++ b')) (List.length ("#"%char :: (cm ++ t))) (List.length pre). intros x y z u PL SH. lia. }
      rewrite K, firstn_app, firstn_all, Nat.sub_diag. cbn [firstn]. apply app_nil_r. }
  assert (R : trimmed (mid ((pre ++ [";"%char]) ++ s ++ t) (Z.of_nat (List.length (pre ++ [";"%char])))
            (uint (uint (index_of "#" ((pre ++ [";"%char]) ++ s ++ t) (Z.of_nat (List.length (pre ++ [";"%char])))) - Z.of_nat (List.length pre) - 1))) = core).
  { destruct M as [-> | ->]; [|rewrite <- !app_assoc]; apply trimmed_core; auto. apply Forall_app. auto. }
  rewrite R. apply spelt_name. exact SP.
Qed.

(** ** Lines *)
Definition range_of (C : cset) (rng : N -> N -> car C) (enc : encoding) (e : entry) : nfa C := gnfa_range C rng enc (first e) (last_ e + 1).
Definition adds (C : cset) (rng : N -> N -> car C) (enc : encoding) (es : list entry) (m : classes C) : classes C :=
  fold_left (fun m e => add C (under e) (range_of C rng enc e) m) es m.

Section P.
Variable C : cset.
Variable rng : N -> N -> car C.
Variable enc : encoding.

Lemma padded p r : padding p -> exists c s, p ++ ";"%char :: r = c :: s /\ (forall d, ~ digit_of c d).
Proof.
  intros (_ & H). destruct p as [|c p]; cbn [app].
  - exists ";"%char, r. split; [reflexivity|]. apply not_digit. reflexivity.
  - exists c, (p ++ ";"%char :: r). split; [reflexivity|]. exact (H c p eq_refl).
Qed.
Lemma number_not x s v : number s v -> hex_digit x = None -> ~ In x s.
Proof.
  intros H K I. pose proof (number_digits s v H) as F. rewrite Forall_forall in F. exact (digit_not x x K (F x I) eq_refl).
Qed.
Lemma of_line_ok l es t m : line l es -> line_end t -> (Z.of_nat (List.length (l ++ t)) < 0x80000000)%Z -> l <> [] -> of_line C rng enc (l ++ t) m = Done (adds C rng enc es m).
Proof.
  intros H T SH NE. destruct H as [s| |d v p s n H B PD E N D|d v d' v' p s n H H' B B' PD E N].
  - reflexivity.
  - contradiction.
  - destruct (number_some d v H) as (c & r & k & Q & K). destruct (padded p (s ++ t) PD) as (c' & s' & Q' & K').
    replace ((d ++ p ++ [";"%char] ++ s) ++ t) with (d ++ p ++ ";"%char :: (s ++ t)) in * by (rewrite <- !app_assoc; reflexivity).
    assert (SC : set_char (d ++ p ++ ";"%char :: (s ++ t)) 0 = Some (v, List.length d)).
    { rewrite (set_char_number d v _ H) by lia. rewrite Q', set_char_end by (auto; lia). cbn [shift]. rewrite Nat.add_0_r. reflexivity. }
    assert (DM : index_dots (d ++ p ++ ";"%char :: (s ++ t)) = (-1)%Z).
    { unfold index_dots. apply dots_missing. intros (u & w & X). destruct T as [-> | ->].
      - rewrite app_nil_r in X. apply D. exists u, w. exact X.
      - destruct (list_eq_dec ascii_dec w []) as [-> |W].
        + replace (d ++ p ++ ";"%char :: s ++ ["010"%char]) with ((d ++ p ++ ";"%char :: s) ++ ["010"%char]) in X by (rewrite <- !app_assoc; reflexivity).
          replace (u ++ ["."; "."]%char ++ []) with ((u ++ ["."%char]) ++ ["."%char]) in X by (rewrite <- app_assoc; reflexivity).
          apply app_inj_tail in X. destruct X as (_ & X). discriminate X.
        + destruct (exists_last W) as (w' & z & ->).
          replace (d ++ p ++ ";"%char :: s ++ ["010"%char]) with ((d ++ p ++ ";"%char :: s) ++ ["010"%char]) in X by (rewrite <- !app_assoc; reflexivity).
          replace (u ++ ["."; "."]%char ++ w' ++ [z]) with ((u ++ ["."; "."]%char ++ w') ++ [z]) in X by (rewrite <- !app_assoc; reflexivity).
          apply app_inj_tail in X. destruct X as (X & _). apply D. exists u, w'. exact X. }
    assert (SM : index_of ";" (d ++ p ++ ";"%char :: (s ++ t)) (Z.of_nat (List.length d)) = Z.of_nat (List.length (d ++ p))).
    { rewrite index_of_found by apply PD. rewrite app_length. reflexivity. }
    assert (NM : class_name (d ++ p ++ ";"%char :: (s ++ t)) (Z.of_nat (List.length (d ++ p))) = n).
    { replace (d ++ p ++ ";"%char :: (s ++ t)) with ((d ++ p) ++ [";"%char] ++ s ++ t) in * by (rewrite <- app_assoc; reflexivity). apply class_name_ok; auto. }
    unfold of_line. rewrite Q at 1. cbn [app]. destruct (Ascii.eqb_spec c "#") as [X|X]; [exfalso; exact (digit_not c "#" eq_refl (ex_intro _ k K) X)|].
    rewrite SC, DM, SM, NM. reflexivity.
  - destruct (number_some d v H) as (c & r & k & Q & K). destruct (padded p (s ++ t) PD) as (c' & s' & Q' & K').
    replace ((d ++ ["."; "."]%char ++ d' ++ p ++ [";"%char] ++ s) ++ t) with (d ++ ["."; "."]%char ++ d' ++ p ++ ";"%char :: (s ++ t)) in * by (rewrite <- !app_assoc; reflexivity).
    assert (SC : set_char (d ++ ["."; "."]%char ++ d' ++ p ++ ";"%char :: (s ++ t)) 0 = Some (v, List.length d)).
    { rewrite (set_char_number d v _ H) by lia. cbn [app]. rewrite set_char_end by (try (apply not_digit; reflexivity); lia). cbn [shift]. rewrite Nat.add_0_r. reflexivity. }
    assert (DM : index_dots (d ++ ["."; "."]%char ++ d' ++ p ++ ";"%char :: (s ++ t)) = Z.of_nat (List.length d)).
    { unfold index_dots. rewrite dots_found by (apply (number_not _ d v H); reflexivity). lia. }
    assert (SC' : set_char (skipn (List.length d + 2) (d ++ ["."; "."]%char ++ d' ++ p ++ ";"%char :: (s ++ t))) 0 = Some (v', List.length d')).
    { replace (List.length d + 2)%nat with (List.length (d ++ ["."; "."]%char)) by (rewrite app_length; reflexivity). rewrite app_assoc, skipn_app, skipn_all, Nat.sub_diag. cbn [skipn app].
      rewrite (set_char_number d' v' _ H') by lia. rewrite Q', set_char_end by (auto; lia). cbn [shift]. rewrite Nat.add_0_r. reflexivity. }
    assert (SM : index_of ";" (d ++ ["."; "."]%char ++ d' ++ p ++ ";"%char :: (s ++ t)) (Z.of_nat (List.length d) + 2) = Z.of_nat (List.length (d ++ ["."; "."]%char ++ d' ++ p))).
    { replace (Z.of_nat (List.length d) + 2)%Z with (Z.of_nat (List.length (d ++ ["."; "."]%char))) by (rewrite app_length; cbn [List.length]; lia).
      replace (d ++ ["."; "."]%char ++ d' ++ p ++ ";"%char :: (s ++ t)) with ((d ++ ["."; "."]%char) ++ (d' ++ p) ++ ";"%char :: (s ++ t)) by (rewrite <- !app_assoc; reflexivity).
      rewrite index_of_found. 2:{ intros I. apply in_app_or in I. destruct I as [I|I]; [exact (number_not ";"%char d' v' H' eq_refl I)|exact (proj1 PD I)]. }
      rewrite <- app_length. rewrite <- !app_assoc. reflexivity. }
    assert (NM : class_name (d ++ ["."; "."]%char ++ d' ++ p ++ ";"%char :: (s ++ t)) (Z.of_nat (List.length (d ++ ["."; "."]%char ++ d' ++ p))) = n).
    { replace (d ++ ["."; "."]%char ++ d' ++ p ++ ";"%char :: (s ++ t)) with ((d ++ ["."; "."]%char ++ d' ++ p) ++ [";"%char] ++ s ++ t) in * by (rewrite <- !app_assoc; reflexivity). apply class_name_ok; auto. }
    unfold of_line. rewrite Q at 1. cbn [app]. destruct (Ascii.eqb_spec c "#") as [X|X]; [exfalso; exact (digit_not c "#" eq_refl (ex_intro _ k K) X)|].
    change (d ++ "."%char :: "."%char :: d' ++ p ++ ";"%char :: s ++ t) with (d ++ ["."; "."]%char ++ d' ++ p ++ ";"%char :: (s ++ t)).
    rewrite SC, DM, SC', SM, NM.
    destruct (Z.of_nat (List.length d) =? -1)%Z eqn:X1; [lia|]. cbn [negb].
    destruct (Z.of_nat (List.length d) <=? Z.of_nat (List.length d))%Z eqn:X2; [|lia]. cbn [negb].
    match goal with |- context [(?a <=? ?b)%Z] => destruct (a <=? b)%Z eqn:X3 end; [cbn [negb]|rewrite !app_length in X3; cbn [List.length] in X3; lia].
    unfold adds, range_of. cbn [fold_left first last_ under]. replace (wrap (v' + 1)) with (v' + 1) by (unfold wrap; rewrite N.mod_small by lia; reflexivity). reflexivity.
Qed.

(** ** Files *)
Lemma lines_here cur l r : ~ In "010"%char l -> lines_ cur (l ++ "010"%char :: r) = (cur ++ l ++ ["010"%char]) :: lines r.
Proof.
  revert cur. induction l as [|c l IH]; intros cur H; cbn [app lines_].
  - rewrite Ascii.eqb_refl. reflexivity.
  - destruct (Ascii.eqb_spec c "010") as [E|E]; [destruct H; left; exact E|]. rewrite IH by (intros I; apply H; right; exact I). rewrite <- app_assoc. reflexivity.
Qed.
Lemma lines_last cur l : ~ In "010"%char l -> lines_ cur l = match cur ++ l with [] => [] | _ => [cur ++ l] end.
Proof.
  revert cur. induction l as [|c l IH]; intros cur H; cbn [lines_].
  - rewrite app_nil_r. reflexivity.
  - destruct (Ascii.eqb_spec c "010") as [E|E]; [destruct H; left; exact E|]. rewrite IH by (intros I; apply H; right; exact I). rewrite <- app_assoc. reflexivity.
Qed.
(** Empty lines add to the class without a name. *)
Fixpoint noted (l : list (option (list entry))) (m : classes C) : classes C :=
  match l with
  | [] => m
  | Some es :: l' => noted l' (adds C rng enc es m)
  | None :: l' => noted l' (add C [] (gnfa_character C rng enc 0) m)
  end.
Definition entries (l : list (option (list entry))) : list entry := flat_map (fun o => match o with Some es => es | None => [] end) l.
Definition short (file : text) : Prop := (Z.of_nat (List.length file) < 0x80000000)%Z.
Lemma file_ok file es m : data_file file es -> short file -> exists l, standard_format C rng enc file m = Done (noted l m) /\ entries l = es.
Proof.
  intros H. revert m. unfold short. induction H as [|l es H NL|l es r es' H NL F IH]; intros m SH.
  - exists []. split; reflexivity.
  - destruct l as [|c l'] eqn:Q.
    + inversion H; subst; try (exists []; split; reflexivity); try (destruct d; discriminate); exfalso; match goal with K : number ?d ?v |- _ => destruct (number_some d v K) as (? & ? & ? & -> & _); discriminate end.
    + rewrite <- Q in *. exists [Some es]. split; [|unfold entries; cbn [flat_map]; apply app_nil_r]. unfold standard_format, lines. rewrite lines_last by exact NL. cbn [app]. rewrite Q at 1. cbn [of_lines].
      replace l with (l ++ []) at 1 by apply app_nil_r. rewrite (of_line_ok l es [] m H (or_introl eq_refl)); [reflexivity|rewrite app_nil_r; exact SH|rewrite Q; discriminate].
  - rewrite !app_length in SH. cbn [List.length] in SH. unfold standard_format, lines. cbn [app]. rewrite lines_here by exact NL. cbn [app of_lines].
    destruct l as [|c l'] eqn:Q.
    + assert (E : es = []) by (inversion H; subst; try reflexivity; exfalso; match goal with K : number ?d ?v |- _ => destruct (number_some d v K) as (? & ? & ? & -> & _); discriminate end).
      subst es. destruct (IH (add C [] (gnfa_character C rng enc 0) m)) as (k & E & K); [lia|]. exists (None :: k). split; [exact E|exact K].
    + rewrite <- Q in *. rewrite (of_line_ok l es ["010"%char] m H (or_intror eq_refl)); [|rewrite app_length; cbn [List.length]; lia|rewrite Q; discriminate].
      destruct (IH (adds C rng enc es m)) as (k & E & K); [lia|]. exists (Some es :: k). split; [exact E|]. unfold entries. cbn [flat_map]. fold (entries k). rewrite K. reflexivity.
Qed.
Lemma noted_app l k m : noted (l ++ k) m = noted k (noted l m).
Proof. revert m. induction l as [|[es|] l IH]; intros m; cbn [app noted]; auto. Qed.
Lemma entries_app l k : entries (l ++ k) = entries l ++ entries k.
Proof. apply flat_map_app. Qed.
Lemma files_ok files ess m : Forall2 data_file files ess -> Forall short files -> exists l, formats C rng enc files m = Done (noted l m) /\ entries l = List.concat ess.
Proof.
  intros H. revert m. induction H as [|f es files ess D F IH]; intros m SH.
  - exists []. split; reflexivity.
  - inversion SH as [|? ? S1 S2]. subst. destruct (file_ok f es m D S1) as (l & E & K). destruct (IH (noted l m) S2) as (k & E' & K').
    exists (l ++ k). split; [cbn [formats]; rewrite E; cbn [and_then]; rewrite E', noted_app; reflexivity|]. rewrite entries_app, K, K'. reflexivity.
Qed.

(** ** Classes *)
Lemma class_put n k a m : class C n (put C k a m) = if list_eq_dec ascii_dec k n then Some a else class C n m.
Proof. unfold class, put. cbn [find fst]. destruct (list_eq_dec ascii_dec k n); reflexivity. Qed.
Lemma class_add n k a m : class C n (add C k a m) = if list_eq_dec ascii_dec k n then Some (match class C n m with None => a | Some b => nfa_or C b a end) else class C n m.
Proof.
  unfold add. destruct (list_eq_dec ascii_dec k n) as [->|NE].
  - destruct (class C n m) as [b|] eqn:E; rewrite class_put; destruct (list_eq_dec ascii_dec n n); congruence.
  - destruct (class C k m) as [b|] eqn:E; rewrite class_put; destruct (list_eq_dec ascii_dec k n); congruence.
Qed.
Variable ok : car C -> Prop.
Hypothesis O : over enc C ok rng.
Definition sound (e : entry) : Prop := first e <= last_ e /\ last_ e <= 0x10ffff.
Lemma range_single b e : b <= e -> e <= 0x110000 -> single C ok (gnfa_range C rng enc b e).
Proof.
  intros B E. destruct enc eqn:Q.
  1,2,4,6: apply (C67_range C ok rng _ b e O); auto.
  - exact (proj1 (C40_exact C ok rng b e O B E)).
  - exact (proj1 (C41_exact C ok rng b e O)).
Qed.
(** The class [n] of [m] has the words of [m0] and of the entries. *)
Definition grown (m0 : classes C) (es : list entry) (m : classes C) (n : text) : Prop :=
  match class C n m with
  | None => class C n m0 = None /\ forall e, In e es -> under e <> n
  | Some a => (class C n m0 <> None \/ exists e, In e es /\ under e = n) /\
      single C ok a /\ forall w, lang C a w <-> (exists a0, class C n m0 = Some a0 /\ lang C a0 w) \/ exists e, In e es /\ under e = n /\ lang C (range_of C rng enc e) w
  end.
Lemma grown_nil m n : (forall a, class C n m = Some a -> single C ok a) -> grown m [] m n.
Proof.
  intros H. unfold grown. destruct (class C n m) as [a|] eqn:E; [|split; [reflexivity|intros e []]].
  split; [left; discriminate|]. split; [apply H; reflexivity|]. intros w. split.
  - intros L. left. exists a. auto.
  - intros [(a0 & Q & L)|(e & [] & _)]. injection Q as <-. exact L.
Qed.
Lemma grown_add m0 es m n e : sound e -> grown m0 es m n -> grown m0 (es ++ [e]) (add C (under e) (range_of C rng enc e) m) n.
Proof.
  intros (S1 & S2) H. unfold grown in *. rewrite class_add. assert (RS : single C ok (range_of C rng enc e)) by (apply range_single; lia).
  destruct (list_eq_dec ascii_dec (under e) n) as [Q|Q].
  - split; [right; exists e; split; [apply in_or_app; right; left; reflexivity|exact Q]|].
    destruct (class C n m) as [b|].
    + destruct H as (_ & SB & L). destruct O as (R & _). pose proof (supported_laws C ok (ranged_supported C ok rng R)) as LW. split; [apply (or_single C ok LW); assumption|].
      intros w. rewrite (or_lang C ok LW b _ w SB RS), L. split.
      * intros [[X|(e' & I & Y)]|X]; [left; exact X|right; exists e'; split; [apply in_or_app; left; exact I|exact Y]|right; exists e; split; [apply in_or_app; right; left; reflexivity|auto]].
      * intros [X|(e' & I & Y & Z)]; [left; left; exact X|]. apply in_app_or in I. destruct I as [I|[<-|[]]]; [left; right; eauto|right; exact Z].
    + destruct H as (N0 & NE). split; [exact RS|]. intros w. split.
      * intros X. right. exists e. split; [apply in_or_app; right; left; reflexivity|auto].
      * intros [(a0 & X & _)|(e' & I & Y & Z)]; [congruence|]. apply in_app_or in I. destruct I as [I|[<-|[]]]; [destruct (NE e' I Y)|exact Z].
  - destruct (class C n m) as [b|].
    + destruct H as (X & SB & L). split; [destruct X as [X|(e' & I & Y)]; [left; exact X|right; exists e'; split; [apply in_or_app; left; exact I|exact Y]]|]. split; [exact SB|].
      intros w. rewrite L. split; (intros [Y|(e' & I & Y & Z)]; [left; exact Y|right]).
      * exists e'. split; [apply in_or_app; left; exact I|auto].
      * apply in_app_or in I. destruct I as [I|[<-|[]]]; [eauto|contradiction].
    + destruct H as (X & NE). split; [exact X|]. intros e' I. apply in_app_or in I. destruct I as [I|[<-|[]]]; [apply NE; exact I|exact Q].
Qed.
Lemma grown_adds m0 es es' m n : Forall sound es' -> grown m0 es m n -> grown m0 (es ++ es') (adds C rng enc es' m) n.
Proof.
  revert es m. induction es' as [|e es' IH]; intros es m F H; cbn [adds fold_left].
  - rewrite app_nil_r. exact H.
  - inversion F as [|? ? F1 F2]. subst. replace (es ++ e :: es') with ((es ++ [e]) ++ es') by (rewrite <- app_assoc; reflexivity).
    apply (IH _ (add C (under e) (range_of C rng enc e) m) F2). apply grown_add; assumption.
Qed.
Lemma grown_noted m0 l es m n : n <> [] -> Forall sound (entries l) -> grown m0 es m n -> grown m0 (es ++ entries l) (noted l m) n.
Proof.
  intros NE. revert es m. induction l as [|[es'|] l IH]; intros es m F H; cbn [noted].
  - change (entries []) with (@nil entry). rewrite app_nil_r. exact H.
  - change (entries (Some es' :: l)) with (es' ++ entries l) in *. apply Forall_app in F. destruct F as (F1 & F2). rewrite app_assoc. apply IH; [exact F2|]. apply grown_adds; assumption.
  - change (entries (None :: l)) with (entries l) in *. apply IH; [exact F|]. unfold grown in *. rewrite class_add. destruct (list_eq_dec ascii_dec [] n) as [Q|Q]; [congruence|exact H].
Qed.
Lemma line_sound l es : line l es -> Forall sound es.
Proof. intros H. destruct H; repeat constructor; cbn [first last_]; lia. Qed.
Lemma file_sound f es : data_file f es -> Forall sound es.
Proof. intros H. induction H; [constructor|eapply line_sound; eassumption|]. apply Forall_app. split; [eapply line_sound; eassumption|assumption]. Qed.
Lemma files_sound fs ess : Forall2 data_file fs ess -> Forall sound (List.concat ess).
Proof. intros H. induction H; [constructor|]. cbn [List.concat]. apply Forall_app. split; [eapply file_sound; eassumption|assumption]. Qed.
Lemma formats_grown fs ess m0 : Forall2 data_file fs ess -> Forall short fs -> (forall n a, class C n m0 = Some a -> single C ok a) ->
  exists m, formats C rng enc fs m0 = Done m /\ forall n, n <> [] -> grown m0 (List.concat ess) m n.
Proof.
  intros D S H. destruct (files_ok fs ess m0 D S) as (l & E & K). exists (noted l m0). split; [exact E|]. intros n NE.
  rewrite <- K. apply (grown_noted m0 l [] m0 n NE); [rewrite K; apply (files_sound fs ess D)|]. apply grown_nil. apply H.
Qed.
End P.
