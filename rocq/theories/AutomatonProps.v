(** Properties C20-C33, C60, C61: automata of lexer regular expressions. *)
From Coq Require Import List NArith ZArith Lia Bool PeanoNat Permutation ZifyBool ZifyN ZifyNat.
From Verif Require Import Base AutomatonModel AutomatonSpec CharSetModel CharSetSpec CsetLaws ThompsonProofs ReachProofs DfaProofs DfaOpsProofs
  MinimizeProofs SmallestProofs NfaDiagModel NfaDiagProofs NfaBuiltProofs NfaMaxProofs NfaApiSpec NfaApiProofs.
Import ListNotations.

(** Cases are over ASCII, sequence representation; letters a = 97, ... *)
Definition Asc := seq_cset 128.
Definition Asc_ok := seq_ok 128.
Lemma Asc_supported : supported Asc Asc_ok. Proof. constructor. reflexivity. Qed.
Definition ltr (x : N) : nfa Asc := nfa_set Asc (MkSeq [(x, N.succ x)] false).
Definition same_order : list (list bool) -> list (list bool) := fun l => l.
Lemma same_order_perm l : Permutation (same_order l) l. Proof. apply Permutation_refl. Qed.
Lemma ltr_acc x y : c_acc Asc (MkSeq [(x, N.succ x)] false) y = true <-> y = x.
Proof.
  cbn [c_acc Asc seq_cset]. unfold seq_accepts. cbn -[N.leb N.ltb]. destruct (N.leb_spec x y) as [H|H]; [destruct (N.ltb_spec y (N.succ x)) as [K|K]|];
    split; intros E; try reflexivity; try discriminate E; lia.
Qed.
Lemma ltr_ok x : (x < 127)%N -> Asc_ok (MkSeq [(x, N.succ x)] false) /\ c_acc Asc (MkSeq [(x, N.succ x)] false) x = true.
Proof. intros H. split; [unfold Asc_ok, seq_ok, canonical; cbn; repeat split; lia|apply ltr_acc; reflexivity]. Qed.
Lemma ltr_lang x w : (x < 127)%N -> (lang Asc (ltr x) w <-> w = [x]).
Proof.
  intros H. unfold ltr. rewrite (set_lang Asc Asc_ok) by (try reflexivity; apply ltr_ok; exact H).
  split; [intros (y & -> & K); apply ltr_acc in K; subst y; reflexivity|intros ->; exists x; split; [reflexivity|apply ltr_acc; reflexivity]].
Qed.
Lemma ltr_api x : (x < 127)%N -> api Asc Asc_ok (ltr x).
Proof. intros H. destruct (ltr_ok x H). apply (api_set Asc Asc_ok _ x); auto. Qed.

(** C20 *)
Theorem C20_union : forall C ok a b, supported C ok -> single C ok a -> single C ok b ->
  single C ok (nfa_or C a b) /\ forall w, lang C (nfa_or C a b) w <-> lang C a w \/ lang C b w.
Proof.
  intros C ok a b S Sa Sb. pose proof (supported_laws C ok S) as L. split; [apply (or_single C ok L); assumption|].
  intros w. apply (or_lang C ok L); assumption.
Qed.
Print Assumptions C20_union.
(** C21 *)
Theorem C21_concatenation : forall C ok a b, supported C ok -> single C ok a -> single C ok b ->
  single C ok (nfa_concat C a b) /\ forall w, lang C (nfa_concat C a b) w <-> exists u v, w = u ++ v /\ lang C a u /\ lang C b v.
Proof.
  intros C ok a b S Sa Sb. pose proof (supported_laws C ok S) as L. split; [apply (concat_single C ok L); assumption|].
  intros w. apply (concat_lang C ok L); assumption.
Qed.
Print Assumptions C21_concatenation.
(** C22: the exact language, and the star whenever nothing leads back to the
    start state. *)
Theorem C22_star_exact : forall C ok a, supported C ok -> single C ok a ->
  single C ok (nfa_star C a) /\
  forall w, lang C (nfa_star C a) w <-> exists u v, w = u ++ v /\ star (lang C a) u /\ path C (nedge C a) 0 v 0.
Proof.
  intros C ok a S Sa. pose proof (supported_laws C ok S) as L. split; [apply (star_single C ok L); assumption|].
  intros w. apply (star_lang_exact C ok L). exact Sa.
Qed.
Print Assumptions C22_star_exact.
Theorem C22_star_partial : forall C ok a, supported C ok -> single C ok a -> (forall i c, ~ nedge C a i c 0) ->
  forall w, lang C (nfa_star C a) w <-> star (lang C a) w.
Proof. intros C ok a S Sa H w. apply (star_lang C ok (supported_laws C ok S)); assumption. Qed.
Print Assumptions C22_star_partial.

Example C20_22_case : single Asc Asc_ok (ltr 97) /\ single Asc Asc_ok (nfa_or Asc (ltr 97) (ltr 98)) /\
  (forall i c, ~ nedge Asc (nfa_or Asc (ltr 97) (ltr 98)) i c 0) /\
  lang Asc (nfa_star Asc (nfa_or Asc (ltr 97) (ltr 98))) [98; 97]%N /\ ~ lang Asc (nfa_star Asc (nfa_or Asc (ltr 97) (ltr 98))) [99]%N.
Proof.
  assert (S1 : single Asc Asc_ok (ltr 97)) by (apply set_single, ltr_ok; lia).
  assert (S2 : single Asc Asc_ok (ltr 98)) by (apply set_single, ltr_ok; lia).
  destruct (C20_union Asc Asc_ok _ _ Asc_supported S1 S2) as (S3 & LO). split; [exact S1|]. split; [exact S3|].
  assert (NI : forall i c, ~ nedge Asc (nfa_or Asc (ltr 97) (ltr 98)) i c 0).
  { intros i c H. unfold nedge in H. do 8 (destruct i as [|i]; [vm_compute in H; repeat match goal with H : _ \/ _ |- _ => destruct H as [H|H] | H : False |- _ => destruct H | H : _ = _ |- _ => discriminate H end|]). rewrite nth_overflow in H; [destruct H|vm_compute; lia]. }
  split; [exact NI|].
  assert (LS : forall w, lang Asc (nfa_or Asc (ltr 97) (ltr 98)) w <-> w = [97%N] \/ w = [98%N]).
  { intros w. rewrite LO, !ltr_lang by lia. tauto. }
  split.
  - apply (C22_star_partial Asc Asc_ok _ Asc_supported S3 NI). apply (star_app _ [98%N] [97%N]); [apply LS; auto|].
    apply (star_app _ [97%N] []); [apply LS; auto|constructor].
  - intros H. apply (C22_star_partial Asc Asc_ok _ Asc_supported S3 NI) in H. inversion H as [|u v H1 H2 E]. apply LS in H1. destruct H1 as [->| ->]; discriminate E.
Qed.
(** (a* b)* accepts "a". *)
Theorem C22_star_refuted : exists a, api Asc Asc_ok a /\ lang Asc (nfa_star Asc a) [97%N] /\ ~ star (lang Asc a) [97%N].
Proof.
  exists (nfa_concat Asc (nfa_star Asc (ltr 97)) (ltr 98)).
  assert (A : api Asc Asc_ok (nfa_concat Asc (nfa_star Asc (ltr 97)) (ltr 98))) by (repeat constructor; apply ltr_api; lia).
  split; [exact A|]. pose proof (supported_laws _ _ Asc_supported) as L. split.
  - exists 0. split; [vm_compute; lia|].
    eapply P_chr with (c := MkSeq [(97, 98)]%N false) (t := 1); [vm_compute; auto|reflexivity|reflexivity|].
    eapply P_eps with (c := c_epsset Asc) (t := 0); [vm_compute; auto|reflexivity|].
    eapply P_eps with (c := c_epsset Asc) (t := 5); [vm_compute; auto|reflexivity|]. constructor.
  - intros H. inversion H as [|u v H1 H2 E]. assert (SA : single Asc Asc_ok (nfa_star Asc (ltr 97))) by (apply (api_ok _ _ L); repeat constructor; apply ltr_api; lia).
    assert (SB : single Asc Asc_ok (ltr 98)) by (apply (api_ok _ _ L), ltr_api; lia).
    apply (concat_lang _ _ L _ _ _ SA SB) in H1. destruct H1 as (x & y & -> & _ & H1). apply ltr_lang in H1; [|lia]. subst y.
    destruct x as [|x1 [|x2 x]]; discriminate E.
Qed.
Print Assumptions C22_star_refuted.

(** C23 *)
Theorem C23_literals : forall C ok, supported C ok ->
  (forall w, ~ lang C (nfa_empty C) w) /\
  (forall w, lang C (nfa_emptyWord C) w <-> w = []) /\
  (forall s w, ok s -> c_eps C s = false -> (lang C (nfa_set C s) w <-> exists x, w = [x] /\ c_acc C s x = true)) /\
  (forall s w, in_codec C s -> (lang C (nfa_word C s) w <-> w = s)).
Proof.
  intros C ok S. pose proof (supported_laws C ok S) as L. split; [apply (empty_lang C ok)|]. split; [apply (emptyWord_lang C ok)|].
  split; [intros s w; apply (set_lang C ok)|intros s w; apply (word_lang C ok L)].
Qed.
Print Assumptions C23_literals.
Example C23_case : in_codec Asc [105; 102]%N /\ dfa_accepts Asc
  (match dfa_of Asc 50 50 same_order (nfa_word Asc [105; 102]%N) with Some d => d | None => MkDfa 0 [] [] 0 end) [105; 102]%N = 1.
Proof. split; [repeat constructor|vm_compute; reflexivity]. Qed.

(** C24: language and priority, for any order of the hash containers. *)
Theorem C24_determinise : forall C ok fuel ff ord a d, supported C ok -> wf_nfa C ok a -> (forall l, Permutation (ord l) l) ->
  dfa_of C fuel ff ord a = Some d -> forall w,
  (dfa_accepts C d w = 0 <-> forall k, ~ laccepts C a k w) /\
  forall k, dfa_accepts C d w = S k <-> laccepts C a k w /\ forall j, j < k -> ~ laccepts C a j w.
Proof.
  intros C ok fuel ff ord a d S W P H w. pose proof (dfa_action C ok (supported_laws C ok S) _ _ _ _ _ w W P H) as DA.
  destruct (dfa_accepts C d w) as [|k]; split.
  - tauto.
  - intros k. split; [discriminate|]. intros (K & _). destruct (DA k K).
  - split; [discriminate|]. intros K. destruct (K k (proj1 DA)).
  - intros k'. split.
    + intros E. injection E as <-. exact DA.
    + intros (K1 & K2). destruct DA as (D1 & D2). f_equal. destruct (lt_eq_lt_dec k k') as [[B|B]|B]; [destruct (K2 _ B D1)|exact B|destruct (D2 _ B K1)].
Qed.
Print Assumptions C24_determinise.
Definition two_rules : nfa Asc := nfa_list Asc [nfa_word Asc [105; 102]%N; nfa_star Asc (nfa_set Asc (MkSeq [(97, 123)]%N false))].
Example C24_case : exists d, dfa_of Asc 50 50 same_order two_rules = Some d /\
  map (dfa_accepts Asc d) [[105; 102]; [105]; [105; 102; 102]; []; [33]]%N = [1; 2; 2; 2; 0] /\ wf_nfa Asc Asc_ok two_rules.
Proof.
  eexists. split; [vm_compute; reflexivity|]. split; [vm_compute; reflexivity|]. apply (list_wf _ _ (supported_laws _ _ Asc_supported)); [discriminate|].
  pose proof (supported_laws _ _ Asc_supported) as L. constructor; [apply (word_single _ _ L); repeat constructor|constructor; [|constructor]].
  apply (star_single _ _ L), set_single. unfold Asc_ok, seq_ok. cbn. repeat split; lia.
Qed.

(** C25 *)
Theorem C25_deterministic : forall C ok fuel ff ord a d, supported C ok -> wf_nfa C ok a -> (forall l, Permutation (ord l) l) ->
  dfa_of C fuel ff ord a = Some d ->
  forall q c1 t1 c2 t2 x, dedge C d q c1 t1 -> dedge C d q c2 t2 -> c_acc C c1 x = true -> c_acc C c2 x = true -> t1 = t2.
Proof. intros C ok fuel ff ord a d S W P H. apply (dfa_wf C ok (supported_laws C ok S) _ _ _ _ _ W P H). Qed.
Print Assumptions C25_deterministic.
Example C25_case : exists d c t c' t', dfa_of Asc 50 50 same_order two_rules = Some d /\ dedge Asc d 0 c t /\ dedge Asc d 0 c' t' /\ c <> c' /\ t <> t'.
Proof.
  destruct (dfa_of Asc 50 50 same_order two_rules) as [d|] eqn:E; vm_compute in E; [|discriminate E]. injection E as <-.
  eexists _, _, _, _, _. split; [reflexivity|]. split; [left; reflexivity|]. split; [right; left; reflexivity|]. split; congruence.
Qed.

(** C26 *)
Theorem C26_complement : forall C ok fuel ff ord a n, supported C ok -> single C ok a -> (forall l, Permutation (ord l) l) ->
  nfa_negate C fuel ff ord a = Some n -> single C ok n /\ forall w, lang C n w <-> in_codec C w /\ ~ lang C a w.
Proof. intros C ok fuel ff ord a n S. apply (negate_ok C ok (supported_laws C ok S)). Qed.
Print Assumptions C26_complement.
(** C27 *)
Theorem C27_intersection : forall C ok fuel ff ord a b n, supported C ok -> single C ok a -> single C ok b -> (forall l, Permutation (ord l) l) ->
  nfa_and C fuel ff ord a b = Some n -> single C ok n /\ forall w, lang C n w <-> lang C a w /\ lang C b w.
Proof. intros C ok fuel ff ord a b n S. apply (and_ok C ok (supported_laws C ok S)). Qed.
Print Assumptions C27_intersection.
Theorem C27_difference : forall C ok fuel ff ord a b n, supported C ok -> single C ok a -> single C ok b -> (forall l, Permutation (ord l) l) ->
  nfa_but C fuel ff ord a b = Some n -> single C ok n /\ forall w, lang C n w <-> lang C a w /\ ~ lang C b w.
Proof. intros C ok fuel ff ord a b n S. apply (but_ok C ok (supported_laws C ok S)). Qed.
Print Assumptions C27_difference.
Example C26_27_case : exists n m k, nfa_negate Asc 50 50 same_order (ltr 97) = Some n /\
  nfa_and Asc 60 60 same_order (nfa_star Asc (ltr 97)) (nfa_word Asc [97; 97]%N) = Some m /\
  nfa_but Asc 60 60 same_order (nfa_star Asc (ltr 97)) (nfa_word Asc [97; 97]%N) = Some k /\
  (forall d, dfa_of Asc 60 60 same_order n = Some d -> map (dfa_accepts Asc d) [[]; [97]; [98]; [97; 97]]%N = [1; 0; 1; 1]) /\
  (forall d, dfa_of Asc 60 60 same_order m = Some d -> map (dfa_accepts Asc d) [[]; [97]; [97; 97]]%N = [0; 0; 1]) /\
  (forall d, dfa_of Asc 60 60 same_order k = Some d -> map (dfa_accepts Asc d) [[]; [97]; [97; 97]; [97; 97; 97]]%N = [1; 1; 0; 1]).
Proof.
  eexists _, _, _. split; [vm_compute; reflexivity|]. split; [vm_compute; reflexivity|]. split; [vm_compute; reflexivity|].
  split; [|split]; intros d H; vm_compute in H; injection H as <-; vm_compute; reflexivity.
Qed.

(** C60: the constructions end. *)
Theorem C60_constructions_end : forall C ok ord a b, supported C ok -> single C ok a -> single C ok b -> (forall l, Permutation (ord l) l) ->
  exists F d n m k, forall f ff, F <= f -> F <= ff -> dfa_of C f ff ord a = Some d /\ nfa_negate C f ff ord a = Some n /\
    nfa_and C f ff ord a b = Some m /\ nfa_but C f ff ord a b = Some k.
Proof.
  intros C ok ord a b S Sa Sb P. pose proof (supported_laws C ok S) as L.
  destruct (dfa_of_ends C ok L a ord (proj1 Sa)) as (d & F1 & H1). destruct (negate_ends C ok L a ord Sa P) as (n & F2 & H2).
  destruct (and_ends C ok L a b ord Sa Sb P) as (m & F3 & H3). destruct (but_ends C ok L a b ord Sa Sb P) as (k & F4 & H4).
  exists (F1 + F2 + F3 + F4), d, n, m, k. intros f ff B1 B2. split; [apply H1; lia|]. split; [apply H2; lia|]. split; [apply H3; lia|apply H4; lia].
Qed.
Print Assumptions C60_constructions_end.

(** C28: minimize() keeps the actions if every action occurs and some word
    without action is a prefix of one with an action. *)
Theorem C28_minimise_partial : forall C ok d, supported C ok -> wf_dfa C ok d -> deterministic C d -> 0 < dst d ->
  (forall k, 1 <= k <= dactions d -> exists w, dfa_accepts C d w = k) ->
  (exists u v, dfa_accepts C d u = 0 /\ dfa_accepts C d (u ++ v) <> 0) ->
  exists d', minimize C d = Some d' /\ forall w, dfa_accepts C d' w = dfa_accepts C d w.
Proof.
  intros C ok d S W D P H1 H2. pose proof (supported_laws C ok S) as L. destruct (trim_ok C ok d W D P) as (d2 & T2 & _).
  destruct (actions_occur C ok d d2 W D P T2 H1 H2) as (P2 & AA).
  destruct (minimize_core C ok L d d2 W D P T2 P2 (or_introl AA)) as (d' & M & _ & _ & _ & _ & _ & E & _). exists d'. auto.
Qed.
Print Assumptions C28_minimise_partial.
(** Without these conditions the result may differ: the automaton of [?a]
    becomes that of [a*]. *)
Theorem C28_minimise_refuted : exists a d d', api Asc Asc_ok a /\ dfa_of Asc 50 50 same_order a = Some d /\ minimize Asc d = Some d' /\
  dfa_accepts Asc d [97; 97]%N = 0 /\ dfa_accepts Asc d' [97; 97]%N = 1.
Proof.
  exists (nfa_or Asc (ltr 97) (nfa_emptyWord Asc)). eexists _, _. split; [constructor; [apply ltr_api; lia|constructor]|].
  split; [vm_compute; reflexivity|]. split; [vm_compute; reflexivity|]. split; reflexivity.
Qed.
Print Assumptions C28_minimise_refuted.
(** A rule that is never first (here the second "ab") has the same effect:
    "aab" is then taken for the first rule. *)
Theorem C28_unused_rule_refuted : exists d d', dfa_of Asc 90 90 same_order (nfa_list Asc [nfa_word Asc [97; 98]%N; nfa_word Asc [97; 98]%N]) = Some d /\
  minimize Asc d = Some d' /\ dfa_accepts Asc d [97; 97; 98]%N = 0 /\ dfa_accepts Asc d' [97; 97; 98]%N = 1.
Proof. eexists _, _. split; [vm_compute; reflexivity|]. split; [vm_compute; reflexivity|]. split; reflexivity. Qed.
Print Assumptions C28_unused_rule_refuted.
Example C28_case : exists d d', dfa_of Asc 90 90 same_order (nfa_list Asc [nfa_word Asc [97; 98]%N; nfa_word Asc [99; 98]%N; nfa_word Asc [100; 98]%N]) = Some d /\
  minimize Asc d = Some d' /\ dst d = 7 /\ dst d' = 7 /\ dactions d = 3 /\ map (dfa_accepts Asc d) [[97; 98]; [99; 98]; [100; 98]; []]%N = [1; 2; 3; 0].
Proof. eexists _, _. split; [vm_compute; reflexivity|]. split; [vm_compute; reflexivity|]. repeat split. Qed.

(** C61: no automaton with the same behaviour is smaller than the result, whether or not the
    behaviour is kept (C28). *)
Theorem C61_smallest : forall C ok fuel ff ord a d d' e, supported C ok -> api C ok a -> (forall l, Permutation (ord l) l) ->
  dfa_of C fuel ff ord a = Some d -> minimize C d = Some d' ->
  wf_dfa C ok e -> 0 < dst e -> (forall w, dfa_accepts C e w = dfa_accepts C d w) -> dst d' <= dst e.
Proof.
  intros C ok fuel ff ord a d d' e S A HP E M We Pe Q. pose proof (supported_laws C ok S) as L. destruct (api_ok C ok L a A) as (Sa & T & _).
  pose proof Sa as (Wa & _). destruct (dfa_wf C ok L _ _ _ _ _ Wa HP E) as (Wd & Dd & Pd & _).
  apply (never_larger C ok L d d' e Wd Dd Pd); auto. apply (dfa_of_tight C ok L _ _ _ _ _ Wa T E).
Qed.
Print Assumptions C61_smallest.
(** The same for any automaton, with any number of actions, whose edges can all be taken. *)
Theorem C61_any_smallest : forall C ok d d' e, supported C ok -> wf_dfa C ok d -> deterministic C d -> 0 < dst d ->
  (forall q c t, dedge C d q c t -> c_isempty C c = false) -> minimize C d = Some d' ->
  wf_dfa C ok e -> 0 < dst e -> (forall w, dfa_accepts C e w = dfa_accepts C d w) -> dst d' <= dst e.
Proof. intros C ok d d' e S W D P T M We Pe Q. exact (never_larger C ok (supported_laws C ok S) d d' e W D P T M We Pe Q). Qed.
Print Assumptions C61_any_smallest.
Example C61_case : exists d d', dfa_of Asc 90 90 same_order (nfa_or Asc (nfa_word Asc [97; 98]%N) (nfa_word Asc [99; 98]%N)) = Some d /\
  minimize Asc d = Some d' /\ dst d = 5 /\ dst d' = 3.
Proof. eexists _, _. split; [vm_compute; reflexivity|]. split; [vm_compute; reflexivity|]. repeat split. Qed.

(** C29 *)
Theorem C29_remove_unarrivable : forall C ok d, supported C ok -> wf_dfa C ok d -> deterministic C d -> 0 < dst d ->
  exists d', elim_unarrivable C d = Some d' /\ wf_dfa C ok d' /\ deterministic C d' /\ forall w, dfa_accepts C d' w = dfa_accepts C d w.
Proof.
  intros C ok d S W D P. destruct (unarrivable_ok C ok d W D P) as (d' & H1 & H2 & H3 & H4 & H5 & H6 & H7 & H8). exists d'. auto.
Qed.
Print Assumptions C29_remove_unarrivable.
Theorem C29_remove_inactive : forall C ok d, supported C ok -> wf_dfa C ok d -> deterministic C d -> (exists w, dfa_accepts C d w <> 0) ->
  exists d', elim_inactive C d = Some d' /\ wf_dfa C ok d' /\ deterministic C d' /\ forall w, dfa_accepts C d' w = dfa_accepts C d w.
Proof.
  intros C ok d S W D P. destruct (inactive_gen C ok d W D (or_intror P)) as (d' & H1 & H2 & H3 & H4 & H5 & H6 & H7 & H8). exists d'. auto.
Qed.
Print Assumptions C29_remove_inactive.
(** If the start state is removed another state takes its place. *)
Theorem C29_start_removed_refuted : exists d d' : dfa Asc, wf_dfa Asc Asc_ok d /\ deterministic Asc d /\ elim_inactive Asc d = Some d' /\
  dfa_accepts Asc d [] = 0 /\ dfa_accepts Asc d' [] = 1.
Proof.
  exists (@MkDfa Asc 2 [[]; []] [0; 1] 1). eexists. split; [|split; [|split; [vm_compute; reflexivity|split; reflexivity]]].
  - split; [reflexivity|]. split; [reflexivity|]. split; [intros [|[|i]]; cbn; try lia; destruct i; lia|]. intros [|[|[|i]]] c t []. 
  - intros [|[|[|q]]] c1 t1 c2 t2 x [].
Qed.
Print Assumptions C29_start_removed_refuted.
Example C29_case : let d := @MkDfa Asc 4 [[(MkSeq [(97, 98)]%N false, 1); (MkSeq [(98, 99)]%N false, 2)]; []; []; [(MkSeq [(97, 98)]%N false, 1)]] [0; 1; 0; 0] 1 in
  exists d1 d2, elim_unarrivable Asc d = Some d1 /\ elim_inactive Asc d = Some d2 /\ dst d1 = 3 /\ dst d2 = 3 /\ dfa_accepts Asc d [97%N] = 1.
Proof. eexists _, _. split; [vm_compute; reflexivity|]. split; [vm_compute; reflexivity|]. repeat split. Qed.

(** C30 *)
Theorem C30_back_to_nfa : forall C ok d k w, supported C ok -> wf_dfa C ok d -> deterministic C d ->
  (laccepts C (nfa_of C d) k w <-> dfa_accepts C d w = S k).
Proof. intros C ok d k w S. apply (nfa_of_lang0 C ok (supported_laws C ok S)). Qed.
Print Assumptions C30_back_to_nfa.
Example C30_case : exists d d', dfa_of Asc 50 50 same_order two_rules = Some d /\ dfa_of Asc 50 50 same_order (nfa_of Asc d) = Some d' /\
  map (dfa_accepts Asc d') [[105; 102]; [105]; [33]]%N = [1; 2; 0].
Proof. eexists _, _. split; [vm_compute; reflexivity|]. split; vm_compute; reflexivity. Qed.

(** C31 *)
Theorem C31_accepts_epsilon : forall C ok a, supported C ok -> wf_nfa C ok a ->
  exists b, acceptsEpsilon C a = Some b /\ (b = true <-> lang C a []).
Proof. intros C ok a S. apply acceptsEpsilon_ok. Qed.
Print Assumptions C31_accepts_epsilon.
(** C32: on every automaton that can be built. *)
Theorem C32_is_empty : forall C ok a, supported C ok -> api C ok a ->
  exists b, isEmpty C a = Some b /\ (b = true <-> forall w, ~ lang C a w).
Proof. intros C ok a S A. destruct (api_ok C ok (supported_laws C ok S) a A) as ((W & _) & T & _). apply (isEmpty_ok C ok a W T). Qed.
Print Assumptions C32_is_empty.
Theorem C32_is_empty_sound : forall C ok a, supported C ok -> wf_nfa C ok a -> isEmpty C a = Some true -> forall w, ~ lang C a w.
Proof. intros C ok a S W H w. apply (isEmpty_sound C ok a w W H). Qed.
Print Assumptions C32_is_empty_sound.
(** An automaton made from an empty character set is not recognised. *)
Theorem C32_empty_set_refuted : isEmpty Asc (nfa_set Asc (MkSeq [] false)) = Some false /\ forall w, ~ lang Asc (nfa_set Asc (MkSeq [] false)) w.
Proof.
  split; [vm_compute; reflexivity|]. intros w H. apply (set_lang Asc Asc_ok) in H; [|unfold Asc_ok, seq_ok; cbn; lia|reflexivity].
  destruct H as (x & _ & H). discriminate H.
Qed.
Print Assumptions C32_empty_set_refuted.
Example C31_32_case : map (fun a => (acceptsEpsilon Asc a, isEmpty Asc a)) [nfa_star Asc (ltr 97); ltr 97; nfa_concat Asc (nfa_empty Asc) (ltr 97)] =
  [(Some true, Some false); (Some false, Some false); (Some false, Some true)].
Proof. vm_compute. reflexivity. Qed.

(** C33 *)
Theorem C33_min_length : forall C ok a, supported C ok -> api C ok a ->
  (minLength C a = Some (-1)%Z /\ forall w, ~ lang C a w) \/
  exists n, minLength C a = Some (Z.of_nat n) /\ (exists w, lang C a w /\ length w = n) /\ forall w, lang C a w -> n <= length w.
Proof. intros C ok a S A. destruct (api_ok C ok (supported_laws C ok S) a A) as ((W & _) & T & Y). apply (minLength_ok C ok a W Y T). Qed.
Print Assumptions C33_min_length.
Theorem C33_max_length_sound : forall C ok a f m, supported C ok -> api C ok a -> maxLength C f a = Some m -> m <> (-2)%Z ->
  (m = (-1)%Z /\ forall w, ~ lang C a w) \/
  exists n, m = Z.of_nat n /\ (exists w, lang C a w /\ length w = n) /\ forall w, lang C a w -> length w <= n.
Proof. intros C ok a f m S A. destruct (api_ok C ok (supported_laws C ok S) a A) as ((W & _) & T & Y). apply (maxLength_sound C ok a f m W T). Qed.
Print Assumptions C33_max_length_sound.
(** The result exists and is exact if every edge starts at a state reached
    from the start, every edge leads on to acceptance, and a state on a cycle
    is also on a cycle that reads something. *)
Theorem C33_max_length_partial : forall C ok a, supported C ok -> api C ok a ->
  (forall q c t, nedge C a q c t -> exists w, path C (nedge C a) 0 w q) ->
  (forall q c t, nedge C a q c t -> exists w k, naccept a + k < nst a /\ path C (nedge C a) t w (naccept a + k)) ->
  (forall q c t w, nedge C a q c t -> path C (nedge C a) t w q -> exists v, v <> [] /\ path C (nedge C a) q v q) ->
  exists F m, (forall f, F <= f -> maxLength C f a = Some m) /\
  ((m = (-2)%Z /\ forall n, exists w, lang C a w /\ n <= length w) \/ (m = (-1)%Z /\ forall w, ~ lang C a w) \/
   exists n, m = Z.of_nat n /\ (exists w, lang C a w /\ length w = n) /\ forall w, lang C a w -> length w <= n).
Proof.
  intros C ok a S A H1 H2 H3. destruct (api_ok C ok (supported_laws C ok S) a A) as ((W & _) & T & Y).
  assert (G1 : all_from_start C a) by (intros q c t E; destruct (H1 q c t E) as (w & P); apply (path_reach_any _ _ _ _ _ P)).
  assert (G2 : all_to_accept C a).
  { intros q c t E. destruct (H2 q c t E) as (w & k & K & P). exists (length w). apply (bcost_path C ok a t (length w) T). exists w, (naccept a + k). split; [reflexivity|]. split; [exact P|lia]. }
  assert (G3 : eps_loop_free C a).
  { intros q P. apply plus_inv in P. destruct P as (c & t & E & R). apply (reach_any_path C a t q T) in R. destruct R as (w & R). apply (H3 q c t w E R). }
  destruct (isUnbounded_ok C ok a W) as (b & B1 & B2). destruct b.
  - assert (CY : cyclic C a) by (apply B2; reflexivity). exists 0, (-2)%Z. split; [intros f _; apply (maxLength_infinite C ok a f W T G2 G3 CY)|].
    left; split; [reflexivity|]. apply (maxLength_infinite C ok a 0 W T G2 G3 CY).
  - destruct (maxLength_finite C ok a W T G1) as (m & F & M1 & M2); [intros K; apply B2 in K; discriminate K|]. exists F, m. split; [exact M1|auto].
Qed.
Print Assumptions C33_max_length_partial.
(** The star of the empty word is reported unbounded. *)
Theorem C33_star_of_empty_word_refuted : api Asc Asc_ok (nfa_star Asc (nfa_emptyWord Asc)) /\
  maxLength Asc 10 (nfa_star Asc (nfa_emptyWord Asc)) = Some (-2)%Z /\ forall w, lang Asc (nfa_star Asc (nfa_emptyWord Asc)) w -> w = [].
Proof.
  split; [repeat constructor|]. split; [vm_compute; reflexivity|]. intros w H.
  apply (star_lang Asc Asc_ok (supported_laws _ _ Asc_supported)) in H; [|apply emptyWord_single|intros i c K; apply (no_edges Asc (nfa_emptyWord Asc) i c 0); [right; reflexivity|exact K]].
  induction H as [|u v H1 H2 IH]; [reflexivity|]. apply (emptyWord_lang Asc Asc_ok) in H1. subst u. exact IH.
Qed.
Print Assumptions C33_star_of_empty_word_refuted.
Example C33_case : let a := nfa_or Asc (nfa_word Asc [97; 98]%N) (nfa_word Asc [99]%N) in
  minLength Asc a = Some 1%Z /\ maxLength Asc 50 a = Some 2%Z /\ maxLength Asc 50 (nfa_star Asc (ltr 97)) = Some (-2)%Z.
Proof. repeat split; vm_compute; reflexivity. Qed.
