(** Proofs about the scanner of grammar files: the choice of rules, progress. *)
From Coq Require Import List Ascii String Bool PeanoNat ZArith Lia.
From Verif Require Import FlexModel FlexSpec FlexProofs ScanModel.
Import ListNotations.

(** ** Which rule is taken *)
Lemma matched_spec r s n h :
  matched r s = Some (n, h) ->
  h <= n /\ n <= List.length s /\ lang (pat r) (firstn h s) /\
  match trail r with
  | None => n = h /\ is_longest (pat r) s h
  | Some t => is_longest (RSeq (pat r) t) s n /\ is_longest (pat r) (firstn n s) h
  end.
Proof.
  unfold matched. destruct (trail r) as [t |] eqn:T.
  - destruct (longest (RSeq (pat r) t) s) as [m |] eqn:L; [| discriminate].
    destruct (longest (pat r) (firstn m s)) as [k |] eqn:K; [| discriminate].
    intro E; injection E as <- <-.
    apply longest_some in L; apply longest_some in K.
    destruct L as (L1 & L2 & L3). destruct K as (K1 & K2 & K3).
    rewrite firstn_length_le in K1 by exact L1.
    repeat split; auto.
    + rewrite firstn_firstn in K2. rewrite Nat.min_l in K2 by exact K1. exact K2.
    + rewrite firstn_length_le by exact L1. exact K1.
  - destruct (longest (pat r) s) as [m |] eqn:L; [| discriminate].
    intro E; injection E as <- <-. apply longest_some in L.
    pose proof L as (L1 & L2 & L3). repeat split; auto.
Qed.

Lemma best_some l s r n h :
  best l s = Some (r, n, h) ->
  1 <= n /\ matched r s = Some (n, h) /\
  exists l1 l2, l = l1 ++ r :: l2 /\
    (forall r' n' h', In r' l1 -> matched r' s = Some (n', h') -> n' < n) /\
    (forall r' n' h', In r' l2 -> matched r' s = Some (n', h') -> n' <= n).
Proof.
  revert r n h; induction l as [| a l IH]; intros r n h; cbn [best]; [discriminate |].
  assert (NO : matched a s = None \/ (exists k, matched a s = Some (0, k)) ->
    best l s = Some (r, n, h) -> 1 <= n /\ matched r s = Some (n, h) /\
    exists l1 l2, a :: l = l1 ++ r :: l2 /\
    (forall r' n' h', In r' l1 -> matched r' s = Some (n', h') -> n' < n) /\
    (forall r' n' h', In r' l2 -> matched r' s = Some (n', h') -> n' <= n)).
  { intros D B. destruct (IH _ _ _ B) as (A & M & l1 & l2 & -> & P & Q).
    split; [exact A |]. split; [exact M |]. exists (a :: l1), l2. split; [reflexivity |]. split; [| exact Q].
    intros r' n' h' [<- | J] M'; [| eapply P; eassumption].
    destruct D as [D | [k D]]; rewrite D in M'; [discriminate |]. injection M' as <- <-. lia. }
  destruct (matched a s) as [[[| m] k] |] eqn:M; [apply NO; eauto | | apply NO; auto].
  clear NO. destruct (best l s) as [[[r' n'] h'] |] eqn:B.
  - destruct (IH _ _ _ eq_refl) as (A & M' & l1 & l2 & E & P & Q).
    destruct (Nat.ltb_spec (S m) n') as [L | L]; intro X; injection X as <- <- <-.
    + split; [exact A |]. split; [exact M' |]. exists (a :: l1), l2. split; [rewrite E; reflexivity |]. split; [| exact Q].
      intros r0 n0 h0 [<- | J] M0; [| eapply P; eassumption].
      rewrite M in M0; injection M0 as <- <-; exact L.
    + split; [lia |]. split; [exact M |]. exists [], l. split; [reflexivity |]. split; [intros ? ? ? [] |].
      intros r0 n0 h0 J M0. rewrite E in J. apply in_app_or in J. destruct J as [J | [<- | J]].
      * specialize (P _ _ _ J M0); lia.
      * rewrite M' in M0; injection M0 as <- <-; lia.
      * specialize (Q _ _ _ J M0); lia.
  - intro X; injection X as <- <- <-.
    split; [lia |]. split; [exact M |]. exists [], l. split; [reflexivity |]. split; [intros ? ? ? [] |].
    intros r0 n0 h0 J M0. clear IH M. revert B; induction l as [| b l IHl]; [destruct J |].
    cbn [best]. destruct J as [-> | J].
    + rewrite M0. destruct n0 as [| n0]; [lia |]. destruct (best l s) as [[[? ?] ?] |]; [destruct (Nat.ltb _ _) |]; discriminate.
    + destruct (matched b s) as [[[| ?] ?] |]; try (apply IHl; exact J).
      destruct (best l s) as [[[? ?] ?] |]; [destruct (Nat.ltb _ _) |]; discriminate.
Qed.

(** Whether a rule can match more than nothing at [c]. *)
Definition can (c : ascii) (r : rule) : bool :=
  match deriv c (pat r) with RNone => false | _ => true end.

Lemma longest_le r n s : longest r s = Some n -> n <= List.length s.
Proof. intro H; apply longest_some in H; apply H. Qed.

Lemma can_not c t r n h :
  can c r = false -> (trail r = None \/ nullable (pat r) = false) ->
  matched r (c :: t) = Some (n, h) -> n = 0.
Proof.
  unfold can. destruct (deriv c (pat r)) eqn:D; try discriminate. intros _ N M.
  apply matched_spec in M. destruct M as (A & B & C & E).
  assert (K : forall w, ~ lang (pat r) (c :: w)).
  { intros w L. apply deriv_lang in L. rewrite D in L. inversion L. }
  destruct h as [| h]; [| exfalso; cbn [firstn] in C; exact (K _ C)].
  destruct (trail r) as [u |]; [| destruct E; lia].
  destruct N as [N | N]; [discriminate |].
  cbn [firstn] in C. apply nullable_lang in C. congruence.
Qed.

(** Rules with a trailing context match at least one character themselves. *)
Definition sound_rule (r : rule) : bool :=
  match trail r with None => true | Some _ => negb (nullable (pat r)) end.

Lemma rules_sound m : forallb sound_rule (rules m) = true.
Proof. destruct m; vm_compute; reflexivity. Qed.

Lemma best_filter l c t :
  forallb sound_rule l = true -> best l (c :: t) = best (filter (can c) l) (c :: t).
Proof.
  induction l as [| r l IH]; [reflexivity |].
  cbn [forallb]. rewrite andb_true_iff. intros [A B]. specialize (IH B).
  cbn [filter]. destruct (can c r) eqn:C.
  - cbn [best]. rewrite IH. reflexivity.
  - cbn [best]. rewrite <- IH. destruct (matched r (c :: t)) as [[[| n] h] |] eqn:M; try reflexivity.
    apply can_not in M; [discriminate | exact C |].
    unfold sound_rule in A. destruct (trail r); [right | left; reflexivity].
    apply negb_true_iff; exact A.
Qed.

Definition no_rule : rule := skip RNone.

(** The places of the rules of [l] that can match at [c]. *)
Definition places (m : mode) (c : ascii) : list nat :=
  filter (fun i => can c (nth i (rules m) no_rule)) (List.seq 0 (List.length (rules m))).

Lemma filter_nth {A} (f : A -> bool) (d : A) l :
  filter f l = map (fun i => nth i l d) (filter (fun i => f (nth i l d)) (List.seq 0 (List.length l))).
Proof.
  induction l as [| a l IH]; [reflexivity |].
  cbn [List.length List.seq]. rewrite <- seq_shift. cbn [filter nth].
  assert (E : map (fun i => nth i (a :: l) d)
      (filter (fun i => f (nth i (a :: l) d)) (map S (List.seq 0 (List.length l)))) = filter f l).
  { transitivity (map (fun i => nth i l d)
      (filter (fun i => f (nth i l d)) (List.seq 0 (List.length l)))); [| symmetry; exact IH].
    clear IH. generalize (List.seq 0 (List.length l)) as q.
    induction q as [| i q IQ]; [reflexivity |].
    cbn [map filter]. change (nth (S i) (a :: l) d) with (nth i l d).
    destruct (f (nth i l d)); [| exact IQ]. cbn [map]. f_equal. exact IQ. }
  destruct (f a); [cbn [map]; f_equal |]; symmetry; exact E.
Qed.

Lemma best_places m c t :
  best (rules m) (c :: t) = best (map (fun i => nth i (rules m) no_rule) (places m c)) (c :: t).
Proof.
  rewrite best_filter by apply rules_sound.
  rewrite (filter_nth (can c) no_rule). reflexivity.
Qed.

(** Facts about all characters, by looking at each. *)
Definition all_chars : list ascii := map ascii_of_nat (List.seq 0 256).

Lemma all_chars_in c : In c all_chars.
Proof.
  unfold all_chars. rewrite <- (ascii_nat_embedding c). apply in_map. apply in_seq.
  pose proof (nat_ascii_bounded c). lia.
Qed.

Lemma for_chars (P : ascii -> bool) : forallb P all_chars = true -> forall c, P c = true.
Proof. intros H c. rewrite forallb_forall in H. apply H, all_chars_in. Qed.

(** ** One step *)
Lemma nonempty_pat r s n h :
  sound_rule r = true -> matched r s = Some (n, h) -> 1 <= n -> 1 <= h.
Proof.
  intros A M N. apply matched_spec in M. destruct M as (B & C & D & E).
  unfold sound_rule in A. destruct (trail r); [| destruct E; lia].
  destruct h as [| h]; [| lia]. cbn [firstn] in D. apply nullable_lang in D. rewrite D in A. discriminate.
Qed.

(** What a step does: the action of a rule of the start condition on a text it matches, or
    flex's default rule. *)
Lemma step_cases cfg st s :
  s <> [] ->
  (exists r n h, best (rules (smode st)) s = Some (r, n, h) /\ In r (rules (smode st)) /\
    1 <= h /\ h <= n /\ n <= List.length s /\ lang (pat r) (firstn h s) /\
    let t := kept st ++ firstn h s in
    let o := act r cfg (append_line t (unkept st)) t in
    ((forall x, o <> Reject x) /\ step cfg st s = (o, skipn h s) \/
     exists x c u, o = Reject x /\ s = c :: u /\
       step cfg st s = (Go (echo c (append_line (kept st ++ [c]) x)), u))) \/
  (best (rules (smode st)) s = None /\ exists c u, s = c :: u /\
    step cfg st s = (Go (echo c (append_line (kept st ++ [c]) (unkept st))), u)).
Proof.
  intro NE. unfold step. destruct (best (rules (smode st)) s) as [[[r n] h] |] eqn:B.
  - left. exists r, n, h. pose proof (best_some _ _ _ _ _ B) as (N & M & l1 & l2 & E & _ & _).
    assert (I : In r (rules (smode st))) by (rewrite E; apply in_elt).
    assert (Q : sound_rule r = true).
    { pose proof (rules_sound (smode st)) as R. rewrite forallb_forall in R. apply R; exact I. }
    pose proof (nonempty_pat _ _ _ _ Q M N) as H1.
    pose proof (matched_spec _ _ _ _ M) as (A1 & A2 & A3 & _).
    split; [reflexivity |]. split; [exact I |]. split; [exact H1 |]. split; [exact A1 |].
    split; [exact A2 |]. split; [exact A3 |]. cbv zeta.
    destruct (act r cfg _ _) as [x | k v x | x | x |] eqn:O.
    + left; split; [intros ?; discriminate | reflexivity].
    + left; split; [intros ?; discriminate | reflexivity].
    + left; split; [intros ?; discriminate | reflexivity].
    + right. destruct s as [| c u]; [contradiction |]. exists x, c, u. auto.
    + left; split; [intros ?; discriminate | reflexivity].
  - right. split; [reflexivity |]. destruct s as [| c u]; [contradiction |]. exists c, u. auto.
Qed.

Lemma step_consumes cfg st s :
  s <> [] -> exists p, p <> [] /\ s = p ++ snd (step cfg st s).
Proof.
  intro NE. destruct (step_cases cfg st s NE) as [(r & n & h & _ & _ & H & A & B & _ & D) | (_ & c & u & -> & E)].
  - destruct D as [(_ & E) | (x & c & u & _ & -> & E)]; rewrite E; cbn [snd].
    + exists (firstn h s). rewrite firstn_skipn. split; [| reflexivity].
      intro Z. assert (L : List.length (firstn h s) = 0) by (rewrite Z; reflexivity).
      rewrite firstn_length_le in L; lia.
    + exists [c]; split; [discriminate | reflexivity].
  - rewrite E; cbn [snd]. exists [c]; split; [discriminate | reflexivity].
Qed.

Lemma step_shorter cfg st s : s <> [] -> List.length (snd (step cfg st s)) < List.length s.
Proof.
  intro NE. destruct (step_consumes cfg st s NE) as (p & P & E).
  assert (L : List.length s = List.length p + List.length (snd (step cfg st s))) by (rewrite E at 1; apply app_length).
  destruct p; [contradiction |]. cbn [List.length] in L. lia.
Qed.

Lemma step_no_reject cfg st s x : s <> [] -> fst (step cfg st s) <> Reject x.
Proof.
  intro NE. destruct (step_cases cfg st s NE) as [(r & n & h & _ & _ & H & A & B & _ & D) | (_ & c & u & -> & E)].
  - destruct D as [(Q & E) | (y & c & u & _ & -> & E)]; rewrite E; cbn [fst]; [apply Q | discriminate].
  - rewrite E; discriminate.
Qed.

(** ** Fuel *)
Lemma scan_fuel cfg : forall f g st s,
  List.length s < f -> List.length s < g -> scan f cfg st s = scan g cfg st s.
Proof.
  induction f as [| f IH]; intros g st s F G; [lia |].
  destruct g as [| g]; [lia |]. cbn [scan]. destruct s as [| c u]; [reflexivity |].
  assert (NE : c :: u <> []) by discriminate.
  pose proof (step_shorter cfg st _ NE) as L.
  destruct (step cfg st (c :: u)) as [[x | k v x | x | x |] rest]; cbn [snd] in L; try reflexivity.
  - apply IH; cbn [List.length] in *; lia.
  - f_equal. apply IH; cbn [List.length] in *; lia.
Qed.

(** The tokens of [s], beginning in state [st]. *)
Definition scan_from (cfg : config) (st : scanner) (s : text) : scanned :=
  scan (S (List.length s)) cfg st s.

Lemma scan_from_nil cfg st : scan_from cfg st [] = at_end st.
Proof. reflexivity. Qed.

Lemma scan_from_step cfg st s :
  s <> [] ->
  scan_from cfg st s =
  match step cfg st s with
  | (Go st', u) => scan_from cfg st' u
  | (Give t v st', u) => also (Lexeme t v (yyline st')) (scan_from cfg st' u)
  | (Fails st', _) => LexError [] (yyline st') (offset st')
  | (Reject _, _) => NoFuel
  | (Broken, _) => LexBroken []
  end.
Proof.
  intro NE. unfold scan_from at 1. cbn [scan]. destruct s as [| c u]; [contradiction |].
  pose proof (step_shorter cfg st _ NE) as L.
  destruct (step cfg st (c :: u)) as [[x | k v x | x | x |] rest]; cbn [snd] in L; try reflexivity.
  - unfold scan_from; apply scan_fuel; lia.
  - f_equal. unfold scan_from; apply scan_fuel; lia.
Qed.

Lemma also_fuel x r : also x r = NoFuel -> r = NoFuel.
Proof. destruct r; cbn [also]; intro H; try discriminate; reflexivity. Qed.

Lemma scan_from_fuel cfg : forall n st s, List.length s < n -> scan_from cfg st s <> NoFuel.
Proof.
  induction n as [| n IH]; intros st s L; [lia |].
  destruct s as [| c u].
  - rewrite scan_from_nil. unfold at_end. destruct (smode st); discriminate.
  - assert (NE : c :: u <> []) by discriminate.
    rewrite scan_from_step by exact NE.
    pose proof (step_shorter cfg st _ NE) as K.
    pose proof (step_no_reject cfg st (c :: u)) as R.
    destruct (step cfg st (c :: u)) as [[x | k v x | x | x |] rest]; cbn [snd fst] in *; try discriminate.
    + apply IH; lia.
    + intro Q. apply also_fuel in Q. revert Q. apply IH; lia.
    + exfalso; exact (R x NE eq_refl).
Qed.
