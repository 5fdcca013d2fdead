(** Minimisation: the refinement loop and the quotient. *)
From Coq Require Import List NArith Lia Bool PeanoNat ZifyBool ZifyN ZifyNat Permutation.
From Verif Require Import Base AutomatonModel AutomatonSpec CsetLaws ThompsonProofs ReachProofs SubsetProofs DfaProofs DfaOpsProofs.
Import ListNotations.

Lemma NoDup_app_intro {A} : forall l m : list A, NoDup l -> NoDup m -> (forall i, In i l -> ~ In i m) -> NoDup (l ++ m).
Proof.
  induction l as [|x l IH]; intros m X Z Y; cbn; [exact Z|]. inversion X as [|? ? X1 X2]; subst. constructor.
  - rewrite in_app_iff. intros [K|K]; [contradiction|]. apply (Y x); [left; reflexivity|exact K].
  - apply IH; [exact X2|exact Z|]. intros i Hi. apply Y. right. exact Hi.
Qed.
(** ** Lists of groups *)
Definition partition_of (n : nat) (grinv : list (list nat)) : Prop :=
  NoDup (concat grinv) /\ forall i, In i (concat grinv) <-> i < n.

Lemma fold_set v : forall g acc i, (forall j, In j g -> j < length acc) ->
  let r := fold_left (fun l j => upd l j (fun _ => v)) g acc in
  length r = length acc /\ (In i g -> nth i r 0 = v) /\ (~ In i g -> nth i r 0 = nth i acc 0).
Proof.
  induction g as [|j g IH]; intros acc i H; cbn [fold_left]; [split; [reflexivity|]; split; [intros []|reflexivity]|].
  destruct (IH (upd acc j (fun _ => v)) i) as (I1 & I2 & I3).
  { intros k Hk. rewrite upd_length. apply H. right. exact Hk. }
  cbn zeta in *. rewrite upd_length in I1. split; [exact I1|].
  assert (Hj : j < length acc) by (apply H; left; reflexivity).
  destruct (in_dec Nat.eq_dec i g) as [K|K].
  - split; [auto|]. intros N. exfalso. apply N. right. exact K.
  - rewrite I3 by exact K. rewrite upd_nth.
    destruct (Nat.eqb_spec i j) as [-> | E].
    + replace (j <? length acc) with true by (symmetry; apply Nat.ltb_lt; exact Hj). split; [reflexivity|]. intros N. exfalso. apply N. left. reflexivity.
    + split; [intros [<-|N]; [congruence|contradiction]|reflexivity].
Qed.
Lemma groups_of_gen : forall grinv old k0, NoDup (concat grinv) -> (forall i, In i (concat grinv) -> i < length old) ->
  let r := fst (fold_left (fun (acc : list nat * nat) g =>
                    (fold_left (fun l i => upd l i (fun _ => snd acc)) g (fst acc), S (snd acc))) grinv (old, k0)) in
  length r = length old /\
  (forall j g i, nth_error grinv j = Some g -> In i g -> nth i r 0 = k0 + j) /\
  (forall i, ~ In i (concat grinv) -> nth i r 0 = nth i old 0).
Proof.
  induction grinv as [|g grinv IH]; intros old k0 ND HR; cbn [fold_left fst snd concat].
  - split; [reflexivity|]. split; [intros [|j] g i H; discriminate H|reflexivity].
  - cbn [concat] in ND, HR. set (o1 := fold_left (fun l i => upd l i (fun _ => k0)) g old).
    assert (HS : forall i, length o1 = length old /\ (In i g -> nth i o1 0 = k0) /\ (~ In i g -> nth i o1 0 = nth i old 0)).
    { intros i. apply fold_set. intros j Hj. apply HR. apply in_app_iff. auto. }
    assert (L1 : length o1 = length old) by apply (HS 0).
    assert (ND2 : NoDup (concat grinv) /\ forall i, In i g -> ~ In i (concat grinv)).
    { clear -ND. induction g as [|x g IHg]; cbn in ND; [split; [exact ND|intros i []]|].
      inversion ND as [|? ? N1 N2]; subst. destruct (IHg N2) as (I1 & I2). split; [exact I1|].
      intros i [<-|Hi]; [intros K; apply N1; apply in_app_iff; auto|apply I2; exact Hi]. }
    destruct ND2 as (ND2 & ND3).
    destruct (IH o1 (S k0) ND2) as (I1 & I2 & I3).
    { intros i Hi. rewrite L1. apply HR. apply in_app_iff. auto. }
    cbn zeta in *. split; [congruence|]. split.
    + intros [|j] g' i H Hi; cbn in H.
      * injection H as <-. rewrite I3 by (apply ND3; exact Hi). rewrite Nat.add_0_r. apply (HS i). exact Hi.
      * rewrite (I2 j g' i H Hi). lia.
    + intros i Hi. rewrite in_app_iff in Hi. rewrite I3 by tauto. apply (HS i). tauto.
Qed.
Lemma groups_of_ok n grinv old : partition_of n grinv -> length old = n ->
  length (groups_of n grinv old) = n /\
  (forall j g i, nth_error grinv j = Some g -> In i g -> nth i (groups_of n grinv old) 0 = j) /\
  (forall i, i < n -> exists g, nth_error grinv (nth i (groups_of n grinv old) 0) = Some g /\ In i g).
Proof.
  intros (P1 & P2) Hl. destruct (groups_of_gen grinv old 0 P1) as (G1 & G2 & G3).
  { intros i Hi. apply P2 in Hi. lia. }
  fold (groups_of n grinv old) in G1, G2, G3. split; [congruence|]. split.
  - intros j g i H Hi. exact (G2 j g i H Hi).
  - intros i Hi. apply P2 in Hi. apply in_concat in Hi. destruct Hi as (g & H1 & H2). apply In_nth_error in H1. destruct H1 as (j & H1).
    rewrite (G2 j g i H1 H2). exists g. auto.
Qed.

(** ** Placing *)
Section Place.
Variable E : nat -> nat -> bool.
Variable n : nat.
Hypothesis Erefl : forall x, x < n -> E x x = true.
Hypothesis Esym : forall x y, x < n -> y < n -> E x y = true -> E y x = true.
Hypothesis Etrans : forall x y z, x < n -> y < n -> z < n -> E x y = true -> E y z = true -> E x z = true.

Definition tidy (gs : list (list nat)) : Prop :=
  (forall g, In g gs -> g <> [] /\ forall i, In i g -> i < n /\ E (hd 0 g) i = true) /\
  ForallOrdPairs (fun g h => E (hd 0 g) (hd 0 h) = false) gs.

Lemma place_perm i : forall gs, Permutation (concat (place E i gs)) (i :: concat gs).
Proof.
  induction gs as [|g gs IH]; cbn [place concat]; [reflexivity|]. destruct (E (hd 0 g) i); cbn [concat].
  - rewrite <- app_assoc. cbn. apply Permutation_sym, Permutation_middle.
  - rewrite IH. apply Permutation_sym, Permutation_middle.
Qed.
Lemma hd_app (g : list nat) i : g <> [] -> hd 0 (g ++ [i]) = hd 0 g.
Proof. destruct g; [congruence|reflexivity]. Qed.
Lemma place_In i : forall gs h, (forall g, In g gs -> g <> []) -> In h (place E i gs) ->
  In h gs \/ h = [i] \/ exists g, In g gs /\ h = g ++ [i] /\ E (hd 0 g) i = true.
Proof.
  induction gs as [|g gs IH]; intros h HN; cbn [place]; [intros [<-|[]]; auto|].
  destruct (E (hd 0 g) i) eqn:Q.
  - intros [<-|K]; [right; right; exists g; split; [left; reflexivity|auto]|left; right; exact K].
  - intros [<-|K]; [left; left; reflexivity|].
    destruct (IH h (fun g' Hg => HN g' (or_intror Hg)) K) as [K'|[K'|(g' & G1 & G2)]]; [left; right; exact K'|auto|].
    right. right. exists g'. split; [right; exact G1|exact G2].
Qed.
Lemma tidy_place i gs : i < n -> tidy gs -> tidy (place E i gs).
Proof.
  intros Hi (T1 & T2). assert (HN : forall g, In g gs -> g <> []) by (intros g Hg; apply (T1 g Hg)). split.
  - intros h Hh. destruct (place_In i gs h HN Hh) as [K|[-> | (g & G1 & -> & G3)]].
    + apply T1. exact K.
    + split; [discriminate|]. intros j [<-|[]]. cbn [hd]. auto.
    + destruct (T1 g G1) as (U1 & U2). split; [destruct g; discriminate|]. rewrite hd_app by exact U1.
      intros j Hj. apply in_app_iff in Hj. destruct Hj as [Hj|[<-|[]]]; auto.
  - clear HN. induction gs as [|g gs IH]; cbn [place]; [constructor; constructor|].
    inversion T2 as [|? ? T3 T4]; subst.
    assert (T1' : forall h, In h gs -> h <> [] /\ forall i, In i h -> i < n /\ E (hd 0 h) i = true) by (intros h Hh; apply T1; right; exact Hh).
    destruct (T1 g (or_introl eq_refl)) as (U1 & U2).
    destruct (E (hd 0 g) i) eqn:Q.
    + constructor; [|exact T4]. rewrite hd_app by exact U1. exact T3.
    + constructor; [|apply IH; assumption]. rewrite Forall_forall in *. intros h Hh.
      destruct (place_In i gs h (fun g' Hg => proj1 (T1' g' Hg)) Hh) as [K|[-> | (g' & G1 & -> & G3)]].
      * apply T3. exact K.
      * exact Q.
      * rewrite hd_app by (apply (T1' g' G1)). apply T3. exact G1.
Qed.
Lemma fold_place : forall l gs, (forall i, In i l -> i < n) -> tidy gs ->
  let r := fold_left (fun gs i => place E i gs) l gs in tidy r /\ Permutation (concat r) (l ++ concat gs).
Proof.
  induction l as [|i l IH]; intros gs Hl T; cbn [fold_left]; [split; [exact T|reflexivity]|].
  destruct (IH (place E i gs)) as (I1 & I2).
  - intros j Hj. apply Hl. right. exact Hj.
  - apply tidy_place; [apply Hl; left; reflexivity|exact T].
  - cbn zeta. split; [exact I1|]. cbn zeta in I2. rewrite I2, place_perm. cbn. apply Permutation_sym, Permutation_middle.
Qed.
Lemma place_first i gs : match gs with [] => True | g :: _ => hd 0 g = 0 /\ g <> [] end ->
  gs <> [] -> match place E i gs with [] => False | g :: _ => hd 0 g = 0 /\ g <> [] end.
Proof.
  destruct gs as [|g gs]; [congruence|]. intros (H1 & H2) _. cbn [place]. destruct (E (hd 0 g) i); [|auto].
  rewrite hd_app by exact H2. split; [exact H1|destruct g; discriminate].
Qed.
Lemma fold_first : forall l gs, gs <> [] -> match gs with [] => True | g :: _ => hd 0 g = 0 /\ g <> [] end ->
  match fold_left (fun gs i => place E i gs) l gs with [] => False | g :: _ => hd 0 g = 0 /\ g <> [] end.
Proof.
  induction l as [|i l IH]; intros gs H1 H2; cbn [fold_left]; [destruct gs; [congruence|exact H2]|].
  pose proof (place_first i gs H2 H1) as P. apply IH; destruct (place E i gs); [destruct P|discriminate|destruct P|exact P].
Qed.

Definition rg := fold_left (fun gs i => place E i gs) (seq 0 n) [].
Theorem rg_ok : partition_of n rg /\ (forall g, In g rg -> g <> []) /\
  (0 < n -> exists g, nth_error rg 0 = Some g /\ In 0 g) /\
  (forall j g i, nth_error rg j = Some g -> In i g ->
    E (hd 0 g) i = true /\ hd 0 g < n /\ forall j' g' i', nth_error rg j' = Some g' -> In i' g' -> (E i i' = true <-> j = j')).
Proof.
  assert (T : tidy rg /\ Permutation (concat rg) (seq 0 n ++ concat [])).
  { apply (fold_place (seq 0 n) []); [intros i Hi; apply in_seq in Hi; lia|split; [intros g []|constructor]]. }
  destruct T as ((T1 & T2) & T3). cbn in T3. rewrite app_nil_r in T3.
  assert (HD : forall g, In g rg -> In (hd 0 g) g) by (intros g Hg; destruct (T1 g Hg) as (U & _); destruct g; [congruence|left; reflexivity]).
  split; [|split; [|split]].
  - split; [apply (Permutation_NoDup (Permutation_sym T3)); apply seq_NoDup|]. intros i. split; intros H.
    + apply (Permutation_in _ T3) in H. apply in_seq in H. lia.
    + apply (Permutation_in _ (Permutation_sym T3)). apply in_seq. lia.
  - intros g Hg. apply (T1 g Hg).
  - intros H. pose proof (fold_first (seq 1 (n - 1)) [[0]]) as F. unfold rg in *. destruct n as [|m]; [lia|].
    cbn [seq fold_left place] in *. rewrite Nat.sub_succ, Nat.sub_0_r in F.
    destruct (fold_left (fun gs i => place E i gs) (seq 1 m) [[0]]) as [|g gs]; [destruct F; [discriminate|split; [reflexivity|discriminate]]|].
    exists g. split; [reflexivity|]. destruct F as (F1 & F2); [discriminate|split; [reflexivity|discriminate]|].
    destruct g as [|x g]; [congruence|]. cbn in F1. subst x. left. reflexivity.
  - intros j g i H Hi. pose proof (nth_error_In _ _ H) as Hg. destruct (T1 g Hg) as (U1 & U2).
    split; [apply U2; exact Hi|]. split; [apply U2; apply HD; exact Hg|].
    intros j' g' i' H' Hi'. pose proof (nth_error_In _ _ H') as Hg'. destruct (T1 g' Hg') as (V1 & V2).
    destruct (U2 i Hi) as (B1 & B2). destruct (V2 i' Hi') as (C1 & C2).
    destruct (U2 _ (HD g Hg)) as (B3 & _). destruct (V2 _ (HD g' Hg')) as (C3 & _).
    split.
    + intros K.
      assert (Q : E (hd 0 g) (hd 0 g') = true).
      { apply (Etrans _ i); auto. apply (Etrans _ i'); auto. }
      destruct (Nat.lt_trichotomy j j') as [B|[B|B]]; [exfalso|exact B|exfalso].
      * assert (X : forall l a b ga gb, ForallOrdPairs (fun g h => E (hd 0 g) (hd 0 h) = false) l ->
          nth_error l a = Some ga -> nth_error l b = Some gb -> a < b -> E (hd 0 ga) (hd 0 gb) = false).
        { clear. induction l as [|x l IH]; intros [|a] [|b] ga gb F A B AB; try discriminate; try lia; inversion F; subst; cbn in A, B.
          - injection A as <-. rewrite Forall_forall in H1. apply H1. eapply nth_error_In; exact B.
          - eapply IH; eauto. lia. }
        rewrite (X _ _ _ _ _ T2 H H' B) in Q. discriminate Q.
      * assert (X : forall l a b ga gb, ForallOrdPairs (fun g h => E (hd 0 g) (hd 0 h) = false) l ->
          nth_error l a = Some ga -> nth_error l b = Some gb -> a < b -> E (hd 0 ga) (hd 0 gb) = false).
        { clear. induction l as [|x l IH]; intros [|a] [|b] ga gb F A B AB; try discriminate; try lia; inversion F; subst; cbn in A, B.
          - injection A as <-. rewrite Forall_forall in H1. apply H1. eapply nth_error_In; exact B.
          - eapply IH; eauto. lia. }
        apply Esym in Q; auto. rewrite (X _ _ _ _ _ T2 H' H B) in Q. discriminate Q.
    + intros <-. rewrite H in H'. injection H' as <-. apply (Etrans _ (hd 0 g)); auto.
Qed.
End Place.

Section M.
Variable C : cset.
Variable ok : car C -> Prop.
Hypothesis L : cs_laws C ok.
Notation cs := (car C).
Notation row := (list (cs * nat)).
Notation dedge := (dedge C).
Notation wfd := (wf_dfa C ok).
Notation det := (deterministic C).
Notation act := (act C).

Section D.
Variable d : dfa C.
Hypothesis W : wfd d.
Hypothesis D : det d.
Hypothesis P : 0 < dst d.
Let n := dst d.

(** The group reached from [i] with [x]. *)
Definition ngroup (groups : list nat) (i : nat) (x : N) : option nat :=
  option_map (fun t => nth t groups 0) (first_rule C (nth i (drules d) []) x).
Lemma ngroup_edge groups i c t x : dedge d i c t -> c_acc C c x = true -> ngroup groups i x = Some (nth t groups 0).
Proof. intros H A. unfold ngroup. rewrite (det_first C d i c t x D H A). reflexivity. Qed.
Lemma ngroup_inv groups i x g : ngroup groups i x = Some g -> exists c t, dedge d i c t /\ c_acc C c x = true /\ g = nth t groups 0.
Proof.
  unfold ngroup. intros H. pose proof (first_rule_spec C (nth i (drules d) []) x) as F.
  destruct (first_rule C (nth i (drules d) []) x) as [t|]; [|discriminate H]. cbn in H. injection H as <-.
  destruct F as (c & F1 & F2). exists c, t. auto.
Qed.

Lemma group_sets_gen groups : forall (r : row) v, (forall c t, In (c, t) r -> ok c) -> Forall ok v -> Forall (fun s => c_eps C s = true) v ->
  let v' := fold_left (fun v e => upd v (nth (snd e) groups 0) (fun s => c_unite C s (fst e))) r v in
  length v' = length v /\ Forall ok v' /\ Forall (fun s => c_eps C s = true) v' /\
  forall j x, j < length v -> (c_acc C (nth j v' (c_epsset C)) x = true <->
    c_acc C (nth j v (c_epsset C)) x = true \/ exists c t, In (c, t) r /\ nth t groups 0 = j /\ c_acc C c x = true).
Proof.
  induction r as [|[c t] r IH]; intros v Hr Hv He; cbn [fold_left fst snd].
  - split; [reflexivity|]. split; [exact Hv|]. split; [exact He|]. intros j x Hj. split; [auto|]. intros [K|(? & ? & [] & _)]. exact K.
  - set (k := nth t groups 0). set (v1 := upd v k (fun s => c_unite C s c)).
    assert (Oc : ok c) by (apply (Hr c t); left; reflexivity).
    assert (N1 : forall j, nth j v1 (c_epsset C) = if Nat.eqb j k && Nat.ltb j (length v) then c_unite C (nth j v (c_epsset C)) c else nth j v (c_epsset C)).
    { intros j. unfold v1. rewrite upd_nth. destruct (Nat.eqb_spec j k) as [-> | E]; cbn [andb]; [|reflexivity]. reflexivity. }
    assert (U : forall j, j < length v -> ok (nth j v (c_epsset C)) /\ c_eps C (nth j v (c_epsset C)) = true).
    { intros j Hj. rewrite Forall_forall in Hv, He. split; [apply Hv|apply He]; apply nth_In; exact Hj. }
    assert (V1 : forall j, j < length v -> ok (nth j v1 (c_epsset C)) /\ c_eps C (nth j v1 (c_epsset C)) = true).
    { intros j Hj. rewrite N1. destruct (U j Hj) as (U1 & U2). destruct (Nat.eqb j k && Nat.ltb j (length v)); [|auto].
      destruct (l_unite C ok L _ _ U1 Oc) as (X1 & X2 & _). split; [exact X1|congruence]. }
    assert (L1 : length v1 = length v) by apply upd_length.
    assert (F1 : Forall ok v1 /\ Forall (fun s => c_eps C s = true) v1).
    { split; apply Forall_forall; intros s Hs; apply In_nth with (d := c_epsset C) in Hs; destruct Hs as (j & J1 & <-);
        rewrite L1 in J1; apply V1; exact J1. }
    destruct (IH v1 (fun c' t' K => Hr c' t' (or_intror K)) (proj1 F1) (proj2 F1)) as (I1 & I2 & I3 & I4).
    cbn zeta in *. split; [congruence|]. split; [exact I2|]. split; [exact I3|].
    intros j x Hj. rewrite I4 by (rewrite L1; exact Hj). rewrite N1.
    replace (Nat.ltb j (length v)) with true by (symmetry; apply Nat.ltb_lt; exact Hj). rewrite andb_true_r.
    destruct (Nat.eqb_spec j k) as [-> | E].
    + destruct (U k Hj) as (U1 & U2). destruct (l_unite C ok L _ _ U1 Oc) as (_ & _ & X3). rewrite X3, orb_true_iff. split.
      * intros [[K|K]|(c' & t' & K1 & K2)]; [auto| |].
        -- right. exists c, t. split; [left; reflexivity|]. auto.
        -- right. exists c', t'. split; [right; exact K1|exact K2].
      * intros [K|(c' & t' & [K1|K1] & K2 & K3)]; [auto| |right; exists c', t'; auto].
        injection K1 as <- <-. auto.
    + split.
      * intros [K|(c' & t' & K1 & K2)]; [auto|]. right. exists c', t'. split; [right; exact K1|exact K2].
      * intros [K|(c' & t' & [K1|K1] & K2 & K3)]; [auto| |right; exists c', t'; auto].
        injection K1 as <- <-. exfalso. apply E. symmetry. exact K2.
Qed.
Lemma sets_eqb_iff : forall a b, Forall ok a -> Forall ok b -> Forall (fun s => c_eps C s = true) a -> Forall (fun s => c_eps C s = true) b ->
  length a = length b ->
  (sets_eqb C a b = true <-> forall j x, j < length a -> c_acc C (nth j a (c_epsset C)) x = c_acc C (nth j b (c_epsset C)) x).
Proof.
  induction a as [|s a IH]; intros [|t b] A B EA EB HL; try discriminate HL; cbn [sets_eqb].
  - split; [intros _ j x Hj; cbn in Hj; lia|reflexivity].
  - inversion A as [|? ? A1 A2]; inversion B as [|? ? B1 B2]; inversion EA as [|? ? A3 A4]; inversion EB as [|? ? B3 B4]; subst.
    cbn in HL. injection HL as HL. rewrite andb_true_iff, (l_eqb C ok L _ _ A1 B1), (IH b A2 B2 A4 B4 HL). split.
    + intros ((_ & K1) & K2) [|j] x Hj; cbn [nth]; [apply K1|apply K2; cbn in Hj; lia].
    + intros K. split; [split; [congruence|]; intros x; apply (K 0 x); cbn; lia|].
      intros j x Hj. apply (K (S j) x). cbn. lia.
Qed.
Lemma sameGroup_iff ng groups i j : (forall t, t < n -> nth t groups 0 < ng) ->
  (sameGroup C d ng groups i j = true <-> forall x, ngroup groups i x = ngroup groups j x).
Proof.
  intros HG. unfold sameGroup, group_sets.
  assert (R : forall q c t, In (c, t) (rowof C (drules d) q) -> ok c) by (intros q c t K; apply (wfd_in C ok d q c t W K)).
  assert (F0 : Forall ok (repeat (c_epsset C) ng) /\ Forall (fun s => c_eps C s = true) (repeat (c_epsset C) ng)).
  { split; apply Forall_forall; intros s Hs; apply repeat_spec in Hs; subst s; [apply (ok_epsset C ok L)|apply (eps_epsset C ok L)]. }
  destruct F0 as (F1 & F2).
  destruct (group_sets_gen groups (rowof C (drules d) i) _ (R i) F1 F2) as (A1 & A2 & A3 & A4).
  destruct (group_sets_gen groups (rowof C (drules d) j) _ (R j) F1 F2) as (B1 & B2 & B3 & B4).
  cbn zeta in *. rewrite repeat_length in A1, A4, B1, B4.
  rewrite sets_eqb_iff by (try assumption; congruence). rewrite A1.
  assert (Z : forall k x, c_acc C (nth k (repeat (c_epsset C) ng) (c_epsset C)) x = false).
  { intros k x. destruct (l_epsset C ok L) as (_ & _ & E). destruct (nth_in_or_default k (repeat (c_epsset C) ng) (c_epsset C)) as [K|K];
      [apply repeat_spec in K|]; rewrite K; apply E. }
  assert (A5 : forall k x, k < ng -> (c_acc C (nth k (fold_left (fun v e => upd v (nth (snd e) groups 0) (fun s => c_unite C s (fst e))) (rowof C (drules d) i) (repeat (c_epsset C) ng)) (c_epsset C)) x = true <-> ngroup groups i x = Some k)).
  { intros k x Hk. rewrite A4, Z by exact Hk. split.
    - intros [K|(c & t & K1 & <- & K3)]; [discriminate K|]. apply (ngroup_edge groups i c t x K1 K3).
    - intros K. apply ngroup_inv in K. destruct K as (c & t & K1 & K2 & K3). right. exists c, t. auto. }
  assert (B5 : forall k x, k < ng -> (c_acc C (nth k (fold_left (fun v e => upd v (nth (snd e) groups 0) (fun s => c_unite C s (fst e))) (rowof C (drules d) j) (repeat (c_epsset C) ng)) (c_epsset C)) x = true <-> ngroup groups j x = Some k)).
  { intros k x Hk. rewrite B4, Z by exact Hk. split.
    - intros [K|(c & t & K1 & <- & K3)]; [discriminate K|]. apply (ngroup_edge groups j c t x K1 K3).
    - intros K. apply ngroup_inv in K. destruct K as (c & t & K1 & K2 & K3). right. exists c, t. auto. }
  assert (RNG : forall q x k, ngroup groups q x = Some k -> k < ng).
  { intros q x k K. apply ngroup_inv in K. destruct K as (c & t & K1 & _ & ->). apply HG. apply (wfd_in C ok d q c t W K1). }
  split.
  - intros H x.
    assert (Q : forall k, ngroup groups i x = Some k <-> ngroup groups j x = Some k).
    { intros k. split; intros K; pose proof (RNG _ _ _ K) as Hk.
      - apply B5; [exact Hk|]. rewrite <- H by exact Hk. apply A5; assumption.
      - apply A5; [exact Hk|]. rewrite H by exact Hk. apply B5; assumption. }
    destruct (ngroup groups i x) as [k|] eqn:E1; [symmetry; apply Q; reflexivity|].
    destruct (ngroup groups j x) as [k|] eqn:E2; [apply Q; reflexivity|reflexivity].
  - intros H k x Hk. apply eq_true_iff_eq. rewrite A5, B5 by exact Hk. rewrite H. tauto.
Qed.

(** ** The refinement loop *)
Definition gr_ok (grinv : list (list nat)) : Prop :=
  partition_of n grinv /\ (exists g, nth_error grinv 0 = Some g /\ In 0 g) /\
  (forall g i j, In g grinv -> In i g -> In j g -> dacc C d i = dacc C d j).
Definition nonempty (grinv : list (list nat)) : Prop := forall g, In g grinv -> g <> [].
(** Equivalent states are never separated. *)
Definition coarse (grinv : list (list nat)) : Prop :=
  forall k k' g g' i i', nth_error grinv k = Some g -> nth_error grinv k' = Some g' -> In i g -> In i' g' ->
    (forall w, act d i w = act d i' w) -> k = k'.
Definition no_dead : Prop := forall i, i < n -> exists w, act d i w <> 0.

Record result (groups : list nat) (k : nat) : Prop := {
  rs_len : length groups = n;
  rs_lt : forall i, i < n -> nth i groups 0 < k;
  rs_start : nth 0 groups 0 = 0;
  rs_acc : forall i j, i < n -> j < n -> nth i groups 0 = nth j groups 0 -> dacc C d i = dacc C d j;
  rs_coarse : no_dead -> forall i j, i < n -> j < n -> (forall w, act d i w = act d j w) -> nth i groups 0 = nth j groups 0
}.
Definition stable (groups : list nat) (k : nat) : Prop :=
  (forall j, j < k -> exists i, i < n /\ nth i groups 0 = j) /\
  forall i j, i < n -> j < n -> nth i groups 0 = nth j groups 0 -> forall x, ngroup groups i x = ngroup groups j x.

Lemma step_ok grinv old : gr_ok grinv -> (no_dead -> coarse grinv) -> length old = n ->
  let groups := groups_of n grinv old in let grinv' := regroup C d (length grinv) groups in
  result groups (length grinv) /\ gr_ok grinv' /\ nonempty grinv' /\ (no_dead -> coarse grinv') /\ 1 <= length grinv' <= n /\
  (nonempty grinv -> length grinv <= length grinv') /\
  (nonempty grinv -> length grinv = length grinv' -> stable groups (length grinv)).
Proof.
  intros (G1 & G2 & G3) G4 Hl groups grinv'.
  destruct (groups_of_ok n grinv old G1 Hl) as (H1 & H2 & H3). fold groups in H1, H2, H3.
  assert (LT : forall i, i < n -> nth i groups 0 < length grinv).
  { intros i Hi. destruct (H3 i Hi) as (g & K & _). apply nth_error_Some. congruence. }
  set (E := fun x y => Nat.eqb (nth x groups 0) (nth y groups 0) && sameGroup C d (length grinv) groups x y).
  assert (EQ : forall x y, E x y = true <-> nth x groups 0 = nth y groups 0 /\ forall c, ngroup groups x c = ngroup groups y c).
  { intros x y. unfold E. rewrite andb_true_iff, Nat.eqb_eq, sameGroup_iff by exact LT. tauto. }
  assert (RG : grinv' = rg E n) by reflexivity.
  destruct (rg_ok E n) as (R1 & R2 & R3 & R4).
  { intros x _. apply EQ. auto. }
  { intros x y _ _ K. apply EQ in K. apply EQ. destruct K. split; [congruence|intros c; symmetry; auto]. }
  { intros x y z _ _ _ K K'. apply EQ in K. apply EQ in K'. apply EQ. destruct K as (K1 & K2), K' as (K3 & K4). split; [congruence|].
    intros c. rewrite K2. apply K4. }
  rewrite <- RG in R1, R2, R3, R4.
  assert (ACC : forall i j, i < n -> j < n -> nth i groups 0 = nth j groups 0 -> dacc C d i = dacc C d j).
  { intros i j Hi Hj K. destruct (H3 i Hi) as (g & K1 & K2). destruct (H3 j Hj) as (g' & K3 & K4). rewrite K in K1.
    rewrite K1 in K3. injection K3 as <-. apply (G3 g); [eapply nth_error_In; exact K1|exact K2|exact K4]. }
  assert (IDX : forall i, i < n -> exists j g, nth_error grinv' j = Some g /\ In i g).
  { intros i Hi. apply (proj2 R1) in Hi. apply in_concat in Hi. destruct Hi as (g & K1 & K2). apply In_nth_error in K1.
    destruct K1 as (j & K1). exists j, g. auto. }
  assert (BND : forall j g i, nth_error grinv' j = Some g -> In i g -> i < n).
  { intros j g i K1 K2. apply (proj2 R1). apply in_concat. exists g. split; [eapply nth_error_In; exact K1|exact K2]. }
  assert (RES : result groups (length grinv)).
  { constructor.
    - exact H1.
    - exact LT.
    - destruct G2 as (g & K1 & K2). exact (H2 0 g 0 K1 K2).
    - exact ACC.
    - intros ND i j Hi Hj K. destruct (H3 i Hi) as (g & K1 & K2). destruct (H3 j Hj) as (g' & K3 & K4).
      exact (G4 ND _ _ _ _ _ _ K1 K3 K2 K4 K). }
  split; [exact RES|]. split; [|split; [|split; [|split; [|split]]]].
  - split; [exact R1|]. split; [exact (R3 P)|]. intros g i j Hg Hi Hj. apply In_nth_error in Hg. destruct Hg as (k & Hk).
    destruct (R4 k g i Hk Hi) as (_ & _ & K). pose proof (proj2 (K k g j Hk Hj) eq_refl) as K'. apply EQ in K'.
    apply ACC; [eapply BND; eauto|eapply BND; eauto|apply K'].
  - exact R2.
  - intros ND k k' g g' i i' K1 K2 K3 K4 K.
    destruct (R4 k g i K1 K3) as (_ & _ & Q). apply (Q k' g' i' K2 K4). apply EQ.
    pose proof (BND _ _ _ K1 K3) as Hi. pose proof (BND _ _ _ K2 K4) as Hi'.
    split; [apply (rs_coarse _ _ RES); assumption|]. intros x.
    assert (X : forall p q, (forall w, act d p w = act d q w) -> forall g1, ngroup groups p x = Some g1 ->
              exists g2, ngroup groups q x = Some g2 /\ g1 = g2).
    { intros p q Kpq g1 E1. apply ngroup_inv in E1. destruct E1 as (c & t & E1 & E2 & ->).
      destruct (wfd_in C ok d p c t W E1) as (_ & Ht & _).
      assert (SH : forall w, act d t w = act d p (x :: w)).
      { intros w. unfold DfaOpsProofs.act. cbn [dfa_run]. unfold rowof. rewrite (det_first C d p c t x D E1 E2). reflexivity. }
      destruct (ND t Ht) as (w & Hw).
      destruct (first_rule C (nth q (drules d) []) x) as [t'|] eqn:F.
      - exists (nth t' groups 0). split; [unfold ngroup; rewrite F; reflexivity|].
        pose proof (first_rule_spec C (nth q (drules d) []) x) as FS. rewrite F in FS. destruct FS as (c' & F1 & F2).
        apply (rs_coarse _ _ RES ND); [exact Ht|apply (wfd_in C ok d q c' t' W F1)|].
        intros v. rewrite SH, Kpq. unfold DfaOpsProofs.act. cbn [dfa_run]. unfold rowof. rewrite F. reflexivity.
      - exfalso. apply Hw. rewrite SH, Kpq. unfold DfaOpsProofs.act. cbn [dfa_run]. unfold rowof. rewrite F. reflexivity. }
    destruct (ngroup groups i x) as [g1|] eqn:E1.
    + destruct (X i i' K g1 E1) as (g2 & Y1 & ->). symmetry. exact Y1.
    + destruct (ngroup groups i' x) as [g2|] eqn:E2; [|reflexivity].
      destruct (X i' i (fun w => eq_sym (K w)) g2 E2) as (g3 & Y1 & _). congruence.
  - split.
    + destruct (R3 P) as (g & K & _). assert (0 < length grinv') by (apply nth_error_Some; congruence). lia.
    + assert (X : forall l : list (list nat), (forall g, In g l -> g <> []) -> length l <= length (concat l)).
      { induction l as [|g l IH]; intros Hn; cbn; [lia|]. rewrite app_length. specialize (IH (fun g' Hg => Hn g' (or_intror Hg))).
        specialize (Hn g (or_introl eq_refl)). destruct g; [congruence|]. cbn. lia. }
      specialize (X grinv' R2). etransitivity; [exact X|]. rewrite <- (seq_length n 0).
      apply NoDup_incl_length; [apply R1|]. intros i Hi. apply (proj2 R1) in Hi. apply in_seq. lia.
  - intros NE. set (hs := map (fun g => nth (hd 0 g) groups 0) grinv').
    assert (I : incl (seq 0 (length grinv)) hs).
    { intros k Hk. apply in_seq in Hk. destruct (nth_error grinv k) as [g|] eqn:K; [|apply nth_error_None in K; lia].
      pose proof (nth_error_In _ _ K) as Kg. specialize (NE g Kg). destruct g as [|i g]; [congruence|].
      assert (Hi : i < n) by (apply (proj2 G1); apply in_concat; exists (i :: g); split; [exact Kg|left; reflexivity]).
      destruct (IDX i Hi) as (j & h & J1 & J2). destruct (R4 j h i J1 J2) as (J3 & _). apply EQ in J3. destruct J3 as (J3 & _).
      unfold hs. apply in_map_iff. exists h. split; [|eapply nth_error_In; exact J1]. rewrite J3. exact (H2 k _ i K (or_introl eq_refl)). }
    pose proof (NoDup_incl_length (seq_NoDup (length grinv) 0) I) as Q. unfold hs in Q. rewrite seq_length, map_length in Q. exact Q.
  - intros NE SZ. set (hs := map (fun g => nth (hd 0 g) groups 0) grinv').
    assert (I : incl (seq 0 (length grinv)) hs).
    { intros k Hk. apply in_seq in Hk. destruct (nth_error grinv k) as [g|] eqn:K; [|apply nth_error_None in K; lia].
      pose proof (nth_error_In _ _ K) as Kg. specialize (NE g Kg). destruct g as [|i g]; [congruence|].
      assert (Hi : i < n) by (apply (proj2 G1); apply in_concat; exists (i :: g); split; [exact Kg|left; reflexivity]).
      destruct (IDX i Hi) as (j & h & J1 & J2). destruct (R4 j h i J1 J2) as (J3 & _). apply EQ in J3. destruct J3 as (J3 & _).
      unfold hs. apply in_map_iff. exists h. split; [|eapply nth_error_In; exact J1]. rewrite J3. exact (H2 k _ i K (or_introl eq_refl)). }
    assert (NDh : NoDup hs).
    { apply (@NoDup_incl_NoDup _ (seq 0 (length grinv)) hs); [apply seq_NoDup| |exact I]. unfold hs. rewrite seq_length, map_length. lia. }
    split.
    + intros k Hk. destruct (nth_error grinv k) as [g|] eqn:K; [|apply nth_error_None in K; lia].
      pose proof (nth_error_In _ _ K) as Kg. specialize (NE g Kg). destruct g as [|i g]; [congruence|].
      exists i. split; [apply (proj2 G1); apply in_concat; exists (i :: g); split; [exact Kg|left; reflexivity]|].
      exact (H2 k _ i K (or_introl eq_refl)).
    + intros i j Hi Hj K. destruct (IDX i Hi) as (a & g & A1 & A2). destruct (IDX j Hj) as (b & h & B1 & B2).
      destruct (R4 a g i A1 A2) as (A3 & A4 & A5). destruct (R4 b h j B1 B2) as (B3 & B4 & _).
      apply EQ in A3. apply EQ in B3.
      assert (AB : a = b).
      { apply (proj1 (NoDup_nth_error hs) NDh).
        - unfold hs. rewrite map_length. apply nth_error_Some. congruence.
        - unfold hs. erewrite !map_nth_error by eassumption. f_equal. destruct A3 as (-> & _), B3 as (-> & _). exact K. }
      apply (A5 b h j B1 B2) in AB. apply EQ in AB. apply AB.
Qed.

Lemma min_loop_ok : forall fuel grinv old, gr_ok grinv -> nonempty grinv -> (no_dead -> coarse grinv) -> length old = n ->
  1 <= length grinv <= n -> n - length grinv < fuel ->
  exists groups k, min_loop C fuel d grinv old = Some (groups, k) /\ result groups k /\ stable groups k /\ 0 < k.
Proof.
  induction fuel as [|f IH]; intros grinv old G NE CO Hl B F; [lia|]. cbn [min_loop]. fold n.
  destruct (step_ok grinv old G CO Hl) as (S1 & S2 & S3 & S4 & S5 & S6 & S7). cbn zeta in *.
  destruct (Nat.eqb_spec (length grinv) (length (regroup C d (length grinv) (groups_of n grinv old)))) as [Q|Q].
  - eexists _, _. split; [reflexivity|]. rewrite <- Q. split; [exact S1|]. split; [apply S7; assumption|lia].
  - specialize (S6 NE). apply IH; try assumption; [apply (rs_len _ _ S1)|lia].
Qed.

(** The groups the loop starts with. *)
Lemma init_eq i j : i < n -> j < n -> init_group C d i = init_group C d j -> dacc C d i = dacc C d j.
Proof.
  intros Hi Hj. unfold init_group. pose proof W as (_ & _ & W3 & _).
  pose proof (W3 i) as Bi. pose proof (W3 j) as Bj. pose proof (W3 0) as B0.
  change (nth i (daccept d) 0) with (dacc C d i) in Bi. change (nth j (daccept d) 0) with (dacc C d j) in Bj.
  change (nth 0 (daccept d) 0) with (dacc C d 0) in B0.
  set (m := S (dactions d)) in *.
  assert (X : forall k, k <= dactions d -> (k + m - dacc C d 0) mod m = if k <? dacc C d 0 then k + m - dacc C d 0 else k - dacc C d 0).
  { intros k Hk. destruct (Nat.ltb_spec k (dacc C d 0)) as [K|K].
    - apply Nat.mod_small. unfold m. lia.
    - replace (k + m - dacc C d 0) with (k - dacc C d 0 + 1 * m) by lia. rewrite Nat.mod_add by (unfold m; lia).
      apply Nat.mod_small. unfold m. lia. }
  rewrite !X by assumption. destruct (Nat.ltb_spec (dacc C d i) (dacc C d 0)), (Nat.ltb_spec (dacc C d j) (dacc C d 0)); unfold m; lia.
Qed.
Lemma init_lt i : init_group C d i < S (dactions d).
Proof. unfold init_group. apply Nat.mod_upper_bound. discriminate. Qed.
Lemma init_0 : init_group C d 0 = 0.
Proof. unfold init_group. replace (dacc C d 0 + S (dactions d) - dacc C d 0) with (S (dactions d)) by lia. apply Nat.mod_same. discriminate. Qed.
Lemma init_nth k : k < S (dactions d) -> nth_error (init_grinv C d) k = Some (filter (fun i => Nat.eqb (init_group C d i) k) (seq 0 n)).
Proof.
  intros H. unfold init_grinv. erewrite map_nth_error; [reflexivity|].
  rewrite nth_error_nth' with (d := 0) by (rewrite seq_length; exact H). rewrite seq_nth by exact H. reflexivity.
Qed.
Lemma init_ok : gr_ok (init_grinv C d) /\ coarse (init_grinv C d) /\ length (init_grinv C d) = S (dactions d).
Proof.
  assert (IN : forall g, In g (init_grinv C d) -> exists k, k < S (dactions d) /\ g = filter (fun i => Nat.eqb (init_group C d i) k) (seq 0 n)).
  { intros g Hg. apply in_map_iff in Hg. destruct Hg as (k & <- & K). apply in_seq in K. exists k. split; [lia|reflexivity]. }
  assert (IF : forall k i, In i (filter (fun i => Nat.eqb (init_group C d i) k) (seq 0 n)) <-> i < n /\ init_group C d i = k).
  { intros k i. rewrite filter_In, in_seq, Nat.eqb_eq. intuition lia. }
  split; [split; [|split]|split].
  - split.
    + unfold init_grinv. fold n. generalize (seq_NoDup (S (dactions d)) 0). generalize (seq 0 (S (dactions d))).
      induction l as [|k l IH]; intros ND; cbn; [constructor|]. inversion ND as [|? ? N1 N2]; subst. specialize (IH N2).
      assert (X : NoDup (filter (fun i => Nat.eqb (init_group C d i) k) (seq 0 n))) by apply NoDup_filter, seq_NoDup.
      assert (Y : forall i, In i (filter (fun i => Nat.eqb (init_group C d i) k) (seq 0 n)) ->
                  ~ In i (concat (map (fun g => filter (fun i => Nat.eqb (init_group C d i) g) (seq 0 n)) l))).
      { intros i Hi K. apply IF in Hi. apply in_concat in K. destruct K as (g & K1 & K2). apply in_map_iff in K1.
        destruct K1 as (k' & <- & K3). apply IF in K2. destruct Hi, K2. apply N1. congruence. }
      apply NoDup_app_intro; assumption.
    + intros i. rewrite in_concat. split.
      * intros (g & K1 & K2). destruct (IN g K1) as (k & _ & ->). apply IF in K2. apply K2.
      * intros Hi. exists (filter (fun j => Nat.eqb (init_group C d j) (init_group C d i)) (seq 0 n)). split; [|apply IF; auto].
        eapply nth_error_In. apply init_nth. apply init_lt.
  - exists (filter (fun i => Nat.eqb (init_group C d i) 0) (seq 0 n)). split; [apply init_nth; lia|]. apply IF. split; [exact P|apply init_0].
  - intros g i j Hg Hi Hj. destruct (IN g Hg) as (k & _ & ->). apply IF in Hi. apply IF in Hj.
    apply init_eq; [tauto|tauto|]. destruct Hi, Hj. congruence.
  - intros k k' g g' i i' K1 K2 K3 K4 K.
    assert (B : forall j h, nth_error (init_grinv C d) j = Some h -> j < S (dactions d)).
    { intros j h H. assert (j < length (init_grinv C d)) by (apply nth_error_Some; congruence). unfold init_grinv in *.
      rewrite map_length, seq_length in *. assumption. }
    rewrite init_nth in K1 by (eapply B; exact K1). rewrite init_nth in K2 by (eapply B; exact K2).
    injection K1 as <-. injection K2 as <-. apply IF in K3. apply IF in K4. destruct K3 as (_ & <-), K4 as (_ & <-).
    unfold init_group. specialize (K []). unfold DfaOpsProofs.act in K. cbn [dfa_run] in K. rewrite K. reflexivity.
  - unfold init_grinv. rewrite map_length, seq_length. reflexivity.
Qed.

(** Every action value occurs. *)
Definition all_actions : Prop := forall a, a <= dactions d -> exists i, i < n /\ dacc C d i = a.
Lemma all_actions_nonempty : all_actions -> nonempty (init_grinv C d).
Proof.
  intros H g Hg. apply in_map_iff in Hg. destruct Hg as (k & <- & K). apply in_seq in K.
  set (m := S (dactions d)). pose proof W as (_ & _ & W3 & _). pose proof (W3 0) as B0. change (nth 0 (daccept d) 0) with (dacc C d 0) in B0.
  destruct (H ((k + dacc C d 0) mod m)) as (i & I1 & I2).
  { assert ((k + dacc C d 0) mod m < m) by (apply Nat.mod_upper_bound; discriminate). unfold m in *. lia. }
  intros E. assert (X : In i (filter (fun i => Nat.eqb (init_group C d i) k) (seq 0 (dst d)))).
  { apply filter_In. split; [apply in_seq; unfold n in I1; lia|]. apply Nat.eqb_eq. unfold init_group. fold m. rewrite I2.
    destruct (Nat.lt_ge_cases (k + dacc C d 0) m) as [B|B].
    - rewrite (Nat.mod_small (k + dacc C d 0)) by exact B. replace (k + dacc C d 0 + m - dacc C d 0) with (k + 1 * m) by lia.
      rewrite Nat.mod_add by discriminate. apply Nat.mod_small. unfold m. lia.
    - assert (X : (k + dacc C d 0) mod m = k + dacc C d 0 - m).
      { replace (k + dacc C d 0) with (k + dacc C d 0 - m + 1 * m) at 1 by lia. rewrite Nat.mod_add by discriminate.
        apply Nat.mod_small. unfold m in *. lia. }
      rewrite X. replace (k + dacc C d 0 - m + m - dacc C d 0) with k by lia. apply Nat.mod_small. unfold m. lia. }
  rewrite E in X. destruct X.
Qed.

(** The loop stops; the partition is stable unless it stopped in the first
    round with an empty initial group. *)
Lemma min_loop_all : exists groups k, min_loop C (S (S n)) d (init_grinv C d) (repeat 0 n) = Some (groups, k) /\ result groups k /\ 0 < k /\
  (all_actions \/ length (regroup C d (S (dactions d)) (groups_of n (init_grinv C d) (repeat 0 n))) <> S (dactions d) -> stable groups k).
Proof.
  destruct init_ok as (I1 & I2 & I3).
  assert (Hl : length (repeat 0 n) = n) by apply repeat_length.
  destruct (step_ok (init_grinv C d) (repeat 0 n) I1 (fun _ => I2) Hl) as (S1 & S2 & S3 & S4 & S5 & S6 & S7). cbn zeta in *.
  remember (S n) as f eqn:Ef. cbn [min_loop]. fold n. rewrite I3 in *.
  destruct (Nat.eqb_spec (S (dactions d)) (length (regroup C d (S (dactions d)) (groups_of n (init_grinv C d) (repeat 0 n))))) as [Q|Q].
  - eexists _, _. split; [reflexivity|]. rewrite <- Q. split; [exact S1|]. split; [lia|].
    intros [K|K]; [|congruence]. apply S7; [apply all_actions_nonempty; exact K|exact Q].
  - destruct (min_loop_ok f _ (groups_of n (init_grinv C d) (repeat 0 n)) S2 S3 S4 (rs_len _ _ S1) S5) as (groups & k & K1 & K2 & K3 & K4); [lia|].
    exists groups, k. split; [exact K1|]. split; [exact K2|]. split; [exact K4|]. intros _. exact K3.
Qed.

(** ** The quotient *)
Lemma merge_gen : forall (r : row) v, (forall c t, In (c, t) r -> ok c) -> Forall ok v -> Forall (fun s => c_eps C s = false) v ->
  let v' := fold_left (fun v e => upd v (snd e) (fun s => c_unite C s (fst e))) r v in
  length v' = length v /\ Forall ok v' /\ Forall (fun s => c_eps C s = false) v' /\
  forall j x, j < length v -> (c_acc C (nth j v' (c_none C)) x = true <->
    c_acc C (nth j v (c_none C)) x = true \/ exists c, In (c, j) r /\ c_acc C c x = true).
Proof.
  induction r as [|[c t] r IH]; intros v Hr Hv He; cbn [fold_left fst snd].
  - split; [reflexivity|]. split; [exact Hv|]. split; [exact He|]. intros j x Hj. split; [auto|]. intros [K|(? & [] & _)]. exact K.
  - set (v1 := upd v t (fun s => c_unite C s c)).
    assert (Oc : ok c) by (apply (Hr c t); left; reflexivity).
    assert (N1 : forall j, nth j v1 (c_none C) = if Nat.eqb j t && Nat.ltb j (length v) then c_unite C (nth j v (c_none C)) c else nth j v (c_none C)).
    { intros j. unfold v1. rewrite upd_nth. destruct (Nat.eqb_spec j t) as [-> | E]; cbn [andb]; reflexivity. }
    assert (U : forall j, j < length v -> ok (nth j v (c_none C)) /\ c_eps C (nth j v (c_none C)) = false).
    { intros j Hj. rewrite Forall_forall in Hv, He. split; [apply Hv|apply He]; apply nth_In; exact Hj. }
    assert (V1 : forall j, j < length v -> ok (nth j v1 (c_none C)) /\ c_eps C (nth j v1 (c_none C)) = false).
    { intros j Hj. rewrite N1. destruct (U j Hj) as (U1 & U2). destruct (Nat.eqb j t && Nat.ltb j (length v)); [|auto].
      destruct (l_unite C ok L _ _ U1 Oc) as (X1 & X2 & _). split; [exact X1|congruence]. }
    assert (L1 : length v1 = length v) by apply upd_length.
    assert (F1 : Forall ok v1 /\ Forall (fun s => c_eps C s = false) v1).
    { split; apply Forall_forall; intros s Hs; apply In_nth with (d := c_none C) in Hs; destruct Hs as (j & J1 & <-);
        rewrite L1 in J1; apply V1; exact J1. }
    destruct (IH v1 (fun c' t' K => Hr c' t' (or_intror K)) (proj1 F1) (proj2 F1)) as (I1 & I2 & I3 & I4).
    cbn zeta in *. split; [congruence|]. split; [exact I2|]. split; [exact I3|].
    intros j x Hj. rewrite I4 by (rewrite L1; exact Hj). rewrite N1.
    replace (Nat.ltb j (length v)) with true by (symmetry; apply Nat.ltb_lt; exact Hj). rewrite andb_true_r.
    destruct (Nat.eqb_spec j t) as [-> | E].
    + destruct (U t Hj) as (U1 & U2). destruct (l_unite C ok L _ _ U1 Oc) as (_ & _ & X3). rewrite X3, orb_true_iff. split.
      * intros [[K|K]|(c' & K1 & K2)]; [auto| |].
        -- right. exists c. split; [left; reflexivity|exact K].
        -- right. exists c'. split; [right; exact K1|exact K2].
      * intros [K|(c' & [K1|K1] & K2)]; [auto| |right; exists c'; auto]. injection K1 as <-. auto.
    + split.
      * intros [K|(c' & K1 & K2)]; [auto|]. right. exists c'. split; [right; exact K1|exact K2].
      * intros [K|(c' & [K1|K1] & K2)]; [auto| |right; exists c'; auto]. injection K1 as <- <-. congruence.
Qed.
Lemma merge_ok k (r : row) : (forall c t, In (c, t) r -> ok c) ->
  NoDup (map snd (merge_row C k r)) /\
  (forall c t, In (c, t) (merge_row C k r) -> t < k /\ ok c /\ c_eps C c = false /\ (exists x, c_isempty C c = x /\ x = false) /\
     forall x, c_acc C c x = true <-> exists c', In (c', t) r /\ c_acc C c' x = true) /\
  (forall c' t x, t < k -> In (c', t) r -> c_acc C c' x = true -> exists c, In (c, t) (merge_row C k r) /\ c_acc C c x = true).
Proof.
  intros Hr. unfold merge_row. set (v0 := repeat (c_none C) k).
  destruct (l_none C ok L) as (N1 & N2 & N3).
  assert (F0 : Forall ok v0 /\ Forall (fun s => c_eps C s = false) v0).
  { split; apply Forall_forall; intros s Hs; apply repeat_spec in Hs; subst s; assumption. }
  destruct F0 as (F1 & F2). destruct (merge_gen r v0 Hr F1 F2) as (M1 & M2 & M3 & M4). cbn zeta in *.
  set (m := fold_left (fun v e => upd v (snd e) (fun s => c_unite C s (fst e))) r v0) in *.
  assert (Lm : length m = k) by (rewrite M1; apply repeat_length). replace (length v0) with k in M4 by (symmetry; apply repeat_length).
  assert (M5 : forall j x, j < k -> (c_acc C (nth j m (c_none C)) x = true <-> exists c, In (c, j) r /\ c_acc C c x = true)).
  { intros j x Hj. rewrite M4 by exact Hj. split; [|auto]. intros [K|K]; [|exact K]. exfalso.
    destruct (nth_in_or_default j v0 (c_none C)) as [Q|Q]; [apply repeat_spec in Q|]; rewrite Q, N3 in K; discriminate K. }
  assert (CI : forall c t, In (c, t) (combine m (seq 0 k)) <-> t < k /\ c = nth t m (c_none C)).
  { intros c t. split.
    - intros H. apply In_nth with (d := (c_none C, 0)) in H. destruct H as (j & J1 & J2).
      rewrite combine_length, seq_length, Lm, Nat.min_id in J1. rewrite combine_nth in J2 by (rewrite seq_length; exact Lm).
      rewrite seq_nth in J2 by exact J1. injection J2 as <- <-. auto.
    - intros (Ht & ->). replace (nth t m (c_none C), t) with (nth t (combine m (seq 0 k)) (c_none C, 0)).
      + apply nth_In. rewrite combine_length, seq_length, Lm, Nat.min_id. exact Ht.
      + rewrite combine_nth by (rewrite seq_length; exact Lm). rewrite seq_nth by exact Ht. reflexivity. }
  split; [|split].
  - assert (X : forall l : list (cs * nat), NoDup (map snd l) -> forall f, NoDup (map snd (filter f l))).
    { clear. induction l as [|e l IH]; intros ND f; cbn; [constructor|]. cbn in ND. inversion ND as [|? ? K1 K2]; subst.
      destruct (f e); cbn; [|apply IH; exact K2]. constructor; [|apply IH; exact K2].
      intros K. apply K1. apply in_map_iff in K. destruct K as (y & Y1 & Y2). apply filter_In in Y2. apply in_map_iff. exists y. tauto. }
    apply X. rewrite map_snd_combine by (rewrite seq_length; exact Lm). apply seq_NoDup.
  - intros c t H. apply filter_In in H. destruct H as (H1 & H2). cbn in H2. apply CI in H1. destruct H1 as (Ht & ->).
    split; [exact Ht|]. rewrite Forall_forall in M2, M3. assert (I : In (nth t m (c_none C)) m) by (apply nth_In; lia).
    split; [apply M2; exact I|]. split; [apply M3; exact I|]. split.
    + exists false. split; [apply negb_true_iff; exact H2|reflexivity].
    + intros x. apply M5. exact Ht.
  - intros c' t x Ht H A. exists (nth t m (c_none C)). assert (A' : c_acc C (nth t m (c_none C)) x = true) by (apply M5; [exact Ht|exists c'; auto]).
    split; [|exact A']. apply filter_In. split; [apply CI; auto|]. cbn. apply negb_true_iff.
    destruct (c_isempty C (nth t m (c_none C))) eqn:E; [|reflexivity]. exfalso.
    rewrite Forall_forall in M2. assert (I : In (nth t m (c_none C)) m) by (apply nth_In; lia).
    rewrite (proj1 (l_empty C ok L _ (M2 _ I)) E) in A'. discriminate A'.
Qed.

Lemma acc_fold (g : list nat) k : forall l init, (forall i, In i l -> nth i g 0 < length init) ->
  let r := fold_left (fun ac i => upd ac (nth i g 0) (fun _ => dacc C d i)) l init in
  length r = length init /\
  ((exists i, In i l /\ nth i g 0 = k /\ nth k r 0 = dacc C d i) \/ ((forall i, In i l -> nth i g 0 <> k) /\ nth k r 0 = nth k init 0)).
Proof.
  induction l as [|i l IH]; intros init H; cbn [fold_left]; [split; [reflexivity|right; split; [intros ? []|reflexivity]]|].
  destruct (IH (upd init (nth i g 0) (fun _ => dacc C d i))) as (I1 & I2).
  { intros j Hj. rewrite upd_length. apply H. right. exact Hj. }
  cbn zeta in *. rewrite upd_length in I1. split; [exact I1|].
  destruct I2 as [(j & J1 & J2)|(J1 & J2)]; [left; exists j; split; [right; exact J1|exact J2]|].
  rewrite upd_nth in J2. assert (Hi : nth i g 0 < length init) by (apply H; left; reflexivity).
  destruct (Nat.eqb_spec k (nth i g 0)) as [E|E].
  - left. exists i. split; [left; reflexivity|]. split; [auto|]. rewrite J2.
    replace (nth i g 0 <? length init) with true by (symmetry; apply Nat.ltb_lt; lia). reflexivity.
  - right. split; [|exact J2]. intros j [<-|Hj]; [congruence|apply J1; exact Hj].
Qed.
Lemma rules_fold (g : list nat) (rows : nat -> row) k e : forall l init, (forall i, In i l -> nth i g 0 < length init) ->
  let r := fold_left (fun ru i => upd ru (nth i g 0) (fun r => r ++ rows i)) l init in
  length r = length init /\
  (In e (nth k r []) <-> In e (nth k init []) \/ exists i, In i l /\ nth i g 0 = k /\ In e (rows i)).
Proof.
  induction l as [|i l IH]; intros init H; cbn [fold_left].
  - split; [reflexivity|]. split; [auto|]. intros [K|(? & [] & _)]. exact K.
  - destruct (IH (upd init (nth i g 0) (fun r => r ++ rows i))) as (I1 & I2).
    { intros j Hj. rewrite upd_length. apply H. right. exact Hj. }
    cbn zeta in *. rewrite upd_length in I1. split; [exact I1|]. rewrite I2, upd_nth.
    assert (Hi : nth i g 0 < length init) by (apply H; left; reflexivity).
    destruct (Nat.eqb_spec k (nth i g 0)) as [E|E].
    + replace (nth i g 0 <? length init) with true by (symmetry; apply Nat.ltb_lt; lia). cbn [andb]. rewrite in_app_iff. split.
      * intros [[K|K]|(j & K1 & K2)]; [auto| |]; right; [exists i|exists j]; (split; [|auto]); [left; reflexivity|right; exact K1].
      * intros [K|(j & [<-|K1] & K2 & K3)]; [auto|auto|right; exists j; auto].
    + split.
      * intros [K|(j & K1 & K2)]; [auto|]. right. exists j. split; [right; exact K1|exact K2].
      * intros [K|(j & [<-|K1] & K2 & K3)]; [auto|congruence|right; exists j; auto].
Qed.

Section Q.
Variable groups : list nat.
Variable k : nat.
Hypothesis R : result groups k.
Hypothesis K0 : 0 < k.
Let q := quotient C d groups k.
Let base := fold_left (fun ru i => upd ru (nth i groups 0)
              (fun r => r ++ map (fun e => (fst e, nth (snd e) groups 0)) (rowof C (drules d) i)))
              (seq 0 n) (repeat [] k).
Lemma base_in g c t : In (c, t) (nth g base []) <-> exists i t', i < n /\ nth i groups 0 = g /\ dedge d i c t' /\ t = nth t' groups 0.
Proof.
  destruct (rules_fold groups (fun i => map (fun e => (fst e, nth (snd e) groups 0)) (rowof C (drules d) i)) g (c, t) (seq 0 n) (repeat [] k)) as (_ & B).
  { intros i Hi. rewrite repeat_length. apply in_seq in Hi. apply (rs_lt _ _ R). lia. }
  cbn zeta in B. fold base in B. rewrite B, nth_repeat_nil. split.
  - intros [[]|(i & K1 & K2 & K3)]. apply in_map_iff in K3. destruct K3 as ([c' t'] & E & K3). cbn in E. injection E as -> <-.
    exists i, t'. apply in_seq in K1. split; [lia|]. auto.
  - intros (i & t' & K1 & K2 & K3 & ->). right. exists i. split; [apply in_seq; lia|]. split; [exact K2|].
    apply in_map_iff. exists (c, t'). auto.
Qed.
Lemma base_rows_ok g c t : In (c, t) (nth g base []) -> ok c.
Proof. intros H. apply base_in in H. destruct H as (i & t' & _ & _ & H & _). apply (wfd_in C ok d i c t' W H). Qed.
Lemma base_len : length base = k.
Proof.
  destruct (rules_fold groups (fun i => map (fun e => (fst e, nth (snd e) groups 0)) (rowof C (drules d) i)) 0 (c_none C, 0) (seq 0 n) (repeat [] k)) as (B & _).
  { intros i Hi. rewrite repeat_length. apply in_seq in Hi. apply (rs_lt _ _ R). lia. }
  cbn zeta in B. fold base in B. rewrite B. apply repeat_length.
Qed.
Lemma quot_row g : g < k -> nth g (drules q) [] = merge_row C k (nth g base []).
Proof.
  intros H. unfold q. cbn [quotient drules]. fold n. fold base.
  rewrite (nth_indep _ [] (merge_row C k [])) by (rewrite map_length, base_len; exact H). apply (map_nth (merge_row C k)).
Qed.
Lemma quot_in g c t : dedge q g c t -> g < k /\ In (c, t) (merge_row C k (nth g base [])).
Proof.
  intros H. unfold AutomatonSpec.dedge in H. destruct (Nat.lt_ge_cases g k) as [B|B].
  - split; [exact B|]. rewrite quot_row in H by exact B. exact H.
  - exfalso. rewrite nth_overflow in H; [destruct H|]. unfold q. cbn [quotient drules]. fold n. fold base. rewrite map_length, base_len. exact B.
Qed.
Lemma quot_acc i : i < n -> dacc C q (nth i groups 0) = dacc C d i.
Proof.
  intros Hi. unfold q, dacc at 1. cbn [quotient daccept]. fold n.
  destruct (acc_fold groups (nth i groups 0) (seq 0 n) (repeat 0 k)) as (_ & A).
  { intros j Hj. rewrite repeat_length. apply in_seq in Hj. apply (rs_lt _ _ R). lia. }
  cbn zeta in A. destruct A as [(j & J1 & J2 & J3)|(J1 & _)].
  - rewrite J3. apply in_seq in J1. apply (rs_acc _ _ R); [lia|exact Hi|exact J2].
  - exfalso. apply (J1 i); [apply in_seq; lia|reflexivity].
Qed.
Lemma quot_wfd : wfd q.
Proof.
  split; [unfold q; cbn [quotient drules dst]; fold n; fold base; rewrite map_length; apply base_len|].
  assert (AL : length (daccept q) = k).
  { unfold q. cbn [quotient daccept]. fold n. destruct (acc_fold groups 0 (seq 0 n) (repeat 0 k)) as (A & _).
    { intros j Hj. rewrite repeat_length. apply in_seq in Hj. apply (rs_lt _ _ R). lia. }
    cbn zeta in A. rewrite A. apply repeat_length. }
  split; [exact AL|]. split.
  - intros g. unfold q. cbn [quotient daccept dactions]. fold n.
    destruct (acc_fold groups g (seq 0 n) (repeat 0 k)) as (_ & A).
    { intros j Hj. rewrite repeat_length. apply in_seq in Hj. apply (rs_lt _ _ R). lia. }
    cbn zeta in A. destruct A as [(j & _ & _ & J3)|(_ & J3)]; rewrite J3.
    + apply W.
    + assert (X : nth g (repeat 0 k) 0 = 0) by (destruct (nth_in_or_default g (repeat 0 k) 0) as [X|X]; [apply repeat_spec in X|]; exact X). lia.
  - intros g c t H. apply quot_in in H. destruct H as (Hg & H).
    destruct (merge_ok k (nth g base []) (base_rows_ok g)) as (_ & M & _). destruct (M c t H) as (M1 & M2 & M3 & _).
    change (dst q) with k. auto.
Qed.
Definition nonempty_edges (d : dfa C) : Prop := forall q c t, dedge d q c t -> exists x, c_acc C c x = true.
(** The rules of a state never overlap. *)
Definition disjoint_rows (d : dfa C) : Prop := forall q,
  ForallOrdPairs (fun p p' => forall y, ~ (c_acc C (fst p) y = true /\ c_acc C (fst p') y = true)) (nth q (drules d) []).
Definition tight_edges (d : dfa C) : Prop := forall q c t, dedge d q c t -> c_isempty C c = false.
Lemma quot_tight : tight_edges q.
Proof.
  intros g c t H. apply quot_in in H. destruct H as (Hg & H).
  destruct (merge_ok k (nth g base []) (base_rows_ok g)) as (_ & M & _). destruct (M c t H) as (_ & _ & _ & (x & M3 & ->) & _). exact M3.
Qed.
Hypothesis ST : stable groups k.
Lemma quot_edge g c t x : dedge q g c t -> c_acc C c x = true -> forall i, i < n -> nth i groups 0 = g -> ngroup groups i x = Some t.
Proof.
  intros H A i Hi Gi. apply quot_in in H. destruct H as (Hg & H).
  destruct (merge_ok k (nth g base []) (base_rows_ok g)) as (_ & M & _). destruct (M c t H) as (_ & _ & _ & _ & M4).
  apply M4 in A. destruct A as (c' & A1 & A2). apply base_in in A1. destruct A1 as (j & t' & J1 & J2 & J3 & ->).
  destruct ST as (_ & ST2). rewrite (ST2 i j Hi J1) by congruence. apply (ngroup_edge groups j c' t' x J3 A2).
Qed.
Lemma quot_det : det q.
Proof.
  intros g c1 t1 c2 t2 x H1 H2 A1 A2. destruct (quot_in g c1 t1 H1) as (Hg & _). destruct ST as (ST1 & _).
  destruct (ST1 g Hg) as (i & Hi & Gi). pose proof (quot_edge g c1 t1 x H1 A1 i Hi Gi) as E1.
  pose proof (quot_edge g c2 t2 x H2 A2 i Hi Gi) as E2. congruence.
Qed.
Lemma quot_next i x : i < n -> first_rule C (nth (nth i groups 0) (drules q) []) x = ngroup groups i x.
Proof.
  intros Hi. pose proof (rs_lt _ _ R i Hi) as Hg.
  pose proof (first_rule_spec C (nth (nth i groups 0) (drules q) []) x) as F.
  destruct (first_rule C (nth (nth i groups 0) (drules q) []) x) as [t|].
  - destruct F as (c & F1 & F2). symmetry. exact (quot_edge _ c t x F1 F2 i Hi eq_refl).
  - destruct (ngroup groups i x) as [t|] eqn:E; [|reflexivity]. exfalso. apply ngroup_inv in E. destruct E as (c & t' & E1 & E2 & ->).
    destruct (merge_ok k (nth (nth i groups 0) base []) (base_rows_ok _)) as (_ & _ & M).
    destruct (M c (nth t' groups 0) x) as (c2 & M1 & M2).
    + apply (rs_lt _ _ R). apply (wfd_in C ok d i c t' W E1).
    + apply base_in. exists i, t'. auto.
    + exact E2.
    + rewrite quot_row in F by exact Hg. rewrite (F _ _ M1) in M2. discriminate M2.
Qed.
Lemma quot_act : forall w i, i < n -> act q (nth i groups 0) w = act d i w.
Proof.
  induction w as [|x w IH]; intros i Hi; unfold DfaOpsProofs.act; cbn [dfa_run]; [apply quot_acc; exact Hi|].
  unfold rowof. rewrite quot_next by exact Hi. unfold ngroup.
  pose proof (first_rule_spec C (nth i (drules d) []) x) as F.
  destruct (first_rule C (nth i (drules d) []) x) as [t|]; cbn [option_map]; [|reflexivity].
  destruct F as (c & F1 & _). apply IH. apply (wfd_in C ok d i c t W F1).
Qed.
Lemma quot_disjoint : disjoint_rows q.
Proof.
  intros g. destruct (Nat.lt_ge_cases g k) as [B|B].
  - destruct (merge_ok k (nth g base []) (base_rows_ok g)) as (ND & _ & _). rewrite <- quot_row in ND by exact B.
    assert (X : forall l, NoDup (map snd l) -> incl l (nth g (drules q) []) ->
      ForallOrdPairs (fun p p' => forall y, ~ (c_acc C (fst p) y = true /\ c_acc C (fst p') y = true)) l).
    { induction l as [|[c t] l IH]; intros N I; [constructor|]. cbn in N. inversion N as [|? ? N1 N2]; subst. constructor.
      - apply Forall_forall. intros [c' t'] H y (Y1 & Y2). cbn in Y1, Y2. apply N1.
        replace t with t'; [apply (in_map snd) in H; exact H|].
        apply (quot_det g c' t' c t y); [apply I; right; exact H|apply I; left; reflexivity|exact Y2|exact Y1].
      - apply IH; [exact N2|]. intros e He. apply I. right. exact He. }
    apply X; [exact ND|apply incl_refl].
  - rewrite nth_overflow; [constructor|]. destruct quot_wfd as (Q & _). change (dst q) with k in Q. lia.
Qed.
End Q.
End D.

(** ** Properties kept by the elimination of states *)
Lemma filter_disjoint d s : wfd d -> disjoint_rows d -> disjoint_rows (filterStates C s d).
Proof.
  intros W H i. destruct (Nat.lt_ge_cases i (length (kept s (dst d)))) as [B|B].
  - destruct (kept_onto C d s i B) as (q & Q1 & Q2 & <-). rewrite filter_row by assumption. specialize (H q). revert H.
    generalize (nth q (drules d) []). induction l as [|e l IH]; intros H; cbn; [constructor|]. inversion H as [|? ? H1 H2]; subst.
    destruct (getb s (snd e)); cbn; [|apply IH; exact H2]. constructor; [|apply IH; exact H2].
    apply Forall_forall. intros p Hp. apply in_map_iff in Hp. destruct Hp as (p' & <- & Hp). apply filter_In in Hp.
    rewrite Forall_forall in H1. apply (H1 p'). apply Hp.
  - rewrite filter_out by exact B. constructor.
Qed.
Lemma filter_tight d s : wfd d -> tight_edges d -> tight_edges (filterStates C s d).
Proof.
  intros W H i c t K. pose proof (filter_lt C d s i c t K) as B. destruct (kept_onto C d s i B) as (q & Q1 & Q2 & <-).
  apply (filter_edge C d s q c t Q1 Q2) in K. destruct K as (t' & K & _). apply (H q c t' K).
Qed.
Definition distinct_states (d : dfa C) : Prop :=
  forall p q, p < dst d -> q < dst d -> (forall w, act d p w = act d q w) -> p = q.

Lemma embeds_distinct d' d : embeds C d' d -> distinct_states d -> distinct_states d'.
Proof.
  intros (f & F1 & F2) H p q Hp Hq K. destruct (F1 p Hp) as (A1 & A2). destruct (F1 q Hq) as (B1 & B2).
  apply F2; [exact Hp|exact Hq|]. apply H; [exact A1|exact B1|]. intros w. rewrite <- A2, <- B2. apply K.
Qed.

(** The elimination steps also end for automata that are not deterministic. *)
Lemma unarrivable_some d : wfd d -> 0 < dst d -> exists s, elim_unarrivable C d = Some (filterStates C s d) /\ getb s 0 = true.
Proof.
  intros W P. unfold elim_unarrivable. rewrite arrive_loop_gen.
  set (s0 := setb (zeros (dst d)) 0).
  assert (L0 : length s0 = dst d) by (unfold s0; rewrite setb_length; apply zeros_length).
  assert (G0 : forall q, getb s0 q = true <-> q = 0).
  { intros q. unfold s0. rewrite getb_setb by (rewrite zeros_length; exact P). rewrite getb_zeros, orb_false_r. apply Nat.eqb_eq. }
  destruct (loop_gen_ok C (fun _ => true) (dst d) (drules d) s0 s0 [0]) as (s & R1 & R2 & R3).
  - intros i c t H _. rewrite L0. apply (wfd_in C ok d i c t W H).
  - assert (Z : S (cz s0) = cz (zeros (dst d))) by (apply cz_setb; [rewrite zeros_length; exact P|apply getb_zeros]).
    pose proof (ones_cz (zeros (dst d))) as O. rewrite zeros_length in O. cbn. lia.
  - auto.
  - intros q Hq. exists q. split; [exact Hq|constructor].
  - intros q [<-|[]]. apply G0. reflexivity.
  - intros q c t Hq _ _. left. left. apply G0 in Hq. auto.
  - rewrite R1. exists s. split; [reflexivity|]. apply R3. exists 0. split; [apply G0; reflexivity|constructor].
Qed.
Lemma inactive_some d : exists s, elim_inactive C d = Some (filterStates C s d).
Proof.
  unfold elim_inactive. set (s0 := map (fun i => negb (Nat.eqb (dacc C d i) 0)) (seq 0 (dst d))).
  assert (L0 : length s0 = dst d) by (unfold s0; rewrite map_length; apply seq_length).
  assert (Z : cz s0 < S (dst d)) by (pose proof (ones_cz s0); lia).
  destruct (active_ok C (drules d) (dst d) (S (dst d)) s0 L0 Z) as (s & R1 & _).
  rewrite R1. exists s. reflexivity.
Qed.
Definition trim (d : dfa C) : option (dfa C) := do d1 <- elim_unarrivable C d; elim_inactive C d1.

Lemma trim_ok d : wfd d -> det d -> 0 < dst d -> exists d2, trim d = Some d2 /\ wfd d2 /\ det d2 /\ dactions d2 = dactions d /\
  all_active C d2 /\ (0 < dst d2 -> all_reachable C d2) /\ (forall w, act d2 0 w = act d 0 w) /\ embeds C d2 d /\
  (tight_edges d -> tight_edges d2) /\ (disjoint_rows d -> disjoint_rows d2).
Proof.
  intros W D P.
  destruct (unarrivable_ok C ok d W D P) as (d1 & E1 & W1 & D1 & P1 & A1 & R1 & L1 & G1).
  destruct (inactive_ok C ok d1 W1 D1 R1) as (d2 & E2 & W2 & D2 & A2 & R2 & R3 & L2 & G2).
  destruct (unarrivable_some d W P) as (s1 & F1 & _). destruct (inactive_some d1) as (s2 & F2).
  rewrite F1 in E1. injection E1 as <-. rewrite F2 in E2. injection E2 as <-.
  exists (filterStates C s2 (filterStates C s1 d)). split; [unfold trim; rewrite F1; exact F2|]. split; [exact W2|]. split; [exact D2|].
  split; [reflexivity|]. split; [exact R2|]. split; [exact R3|]. split; [intros w; rewrite L2; apply L1|]. split; [|split].
  - destruct G1 as (f1 & X1 & Y1), G2 as (f2 & X2 & Y2). exists (fun i => f1 (f2 i)). split.
    + intros i Hi. destruct (X2 i Hi) as (B2 & C2). destruct (X1 _ B2) as (B1 & C1). split; [exact B1|]. intros w. rewrite C2. apply C1.
    + intros i j Hi Hj E. apply Y2; [exact Hi|exact Hj|]. apply Y1; [apply X2; exact Hi|apply X2; exact Hj|exact E].
  - intros T. apply filter_tight; [exact W1|]. apply filter_tight; assumption.
  - intros T. apply filter_disjoint; [exact W1|]. apply filter_disjoint; assumption.
Qed.

(** Non-empty sets contain a character. *)
Lemma inhabited c : ok c -> c_isempty C c = false -> exists x, c_acc C c x = true.
Proof.
  intros O E.
  assert (X : forall m, (exists x, c_acc C c x = true) \/ forall x, (x < m)%N -> c_acc C c x = false).
  { apply N.peano_ind; [right; intros x H; lia|]. intros m [K|K]; [auto|]. destruct (c_acc C c m) eqn:A; [left; exists m; exact A|].
    right. intros x H. destruct (N.eq_dec x m) as [-> | N]; [exact A|]. apply K. lia. }
  destruct (X (c_size C)) as [K|K]; [exact K|]. exfalso.
  assert (Z : c_isempty C c = true); [|congruence]. apply (l_empty C ok L c O). intros x.
  destruct (c_acc C c x) eqn:A; [|reflexivity]. rewrite (K x (l_bound C ok L c x O A)) in A. discriminate A.
Qed.
Lemma reach_word d p q : wfd d -> det d -> tight_edges d -> reach C (fun _ => true) (drules d) p q -> exists w, dfa_run C d p w = Some q.
Proof.
  intros W D T H. induction H as [p|p c t q H1 _ _ (w & IH)]; [exists []; reflexivity|].
  destruct (wfd_in C ok d p c t W H1) as (_ & _ & O & _). destruct (inhabited c O (T p c t H1)) as (x & A).
  exists (x :: w). cbn [dfa_run]. unfold rowof. rewrite (det_first C d p c t x D H1 A). exact IH.
Qed.
Lemma active_words d : wfd d -> det d -> tight_edges d -> all_active C d -> no_dead d.
Proof.
  intros W D T A i Hi. destruct (A i Hi) as (r & R1 & R2). destruct (reach_word d i r W D T R1) as (w & R). exists w.
  unfold DfaOpsProofs.act. rewrite R. exact R2.
Qed.

(** ** minimize *)
Lemma minimize_unfold d : minimize C d =
  do d2 <- trim d;
  if Nat.eqb (dst d2) 0 then None
  else do (groups, n) <- min_loop C (S (S (dst d2))) d2 (init_grinv C d2) (repeat 0 (dst d2)); trim (quotient C d2 groups n).
Proof.
  unfold minimize, trim. destruct (elim_unarrivable C d) as [d1|]; [|reflexivity]. cbn [obind].
  destruct (elim_inactive C d1) as [d2|]; reflexivity.
Qed.

(** The first round of the loop does not stop with an empty group. *)
Definition first_round_ok (d2 : dfa C) : Prop :=
  all_actions d2 \/
  length (regroup C d2 (S (dactions d2)) (groups_of (dst d2) (init_grinv C d2) (repeat 0 (dst d2)))) <> S (dactions d2).

Theorem minimize_core d d2 : wfd d -> det d -> 0 < dst d -> trim d = Some d2 -> 0 < dst d2 -> first_round_ok d2 ->
  exists d', minimize C d = Some d' /\ wfd d' /\ det d' /\ dactions d' = dactions d /\ disjoint_rows d' /\ tight_edges d' /\
    (forall w, act d' 0 w = act d 0 w) /\ all_active C d' /\ (0 < dst d' -> all_reachable C d') /\ (tight_edges d -> distinct_states d').
Proof.
  intros W D P T P2 FR. rewrite minimize_unfold, T. cbn [obind].
  destruct (trim_ok d W D P) as (d2' & T' & W2 & D2 & A2 & AC & RE & LA & EM & TI & DI). rewrite T in T'. injection T' as <-.
  destruct (Nat.eqb_spec (dst d2) 0) as [Z|_]; [lia|].
  destruct (min_loop_all d2 W2 D2 P2) as (groups & k & M1 & M2 & M3 & M4). rewrite M1. cbn [obind].
  specialize (M4 FR).
  pose proof (quot_wfd d2 W2 P2 groups k M2 M3) as WQ. pose proof (quot_det d2 W2 D2 P2 groups k M2 M3 M4) as DQ.
  destruct (trim_ok (quotient C d2 groups k) WQ DQ M3) as (d' & T3 & W3 & D3 & A3 & AC3 & RE3 & LA3 & EM3 & TI3 & DI3).
  exists d'. split; [exact T3|]. split; [exact W3|]. split; [exact D3|]. split; [rewrite A3; exact A2|].
  split; [apply DI3; apply (quot_disjoint d2 W2 D2 P2); assumption|]. split; [apply TI3; apply (quot_tight d2 W2 P2); assumption|].
  split; [|split; [exact AC3|split; [exact RE3|]]].
  - intros w. rewrite LA3, <- LA. rewrite <- (rs_start _ _ _ M2) at 1. apply (quot_act d2 W2 D2 P2 groups k M2 M3 M4). exact P2.
  - intros TE. apply (embeds_distinct _ _ EM3). intros p q Hp Hq K. change (dst (quotient C d2 groups k)) with k in Hp, Hq.
    destruct M4 as (S1 & S2). destruct (S1 p Hp) as (i & I1 & <-). destruct (S1 q Hq) as (j & J1 & <-).
    apply (rs_coarse _ _ _ M2).
    + apply active_words; try assumption. apply TI. exact TE.
    + exact I1.
    + exact J1.
    + intros w. rewrite <- !(quot_act d2 W2 D2 P2 groups k M2 M3 (conj S1 S2)) by assumption. apply K.
Qed.

(** minimize() only gets stuck on automata accepting nothing. *)
Theorem minimize_ends d : wfd d -> det d -> 0 < dst d -> minimize C d = None -> forall w, dfa_accepts C d w = 0.
Proof.
  intros W D P H w. rewrite minimize_unfold in H.
  destruct (trim_ok d W D P) as (d2 & T & W2 & D2 & A2 & AC & RE & LA & _). rewrite T in H. cbn [obind] in H.
  destruct (Nat.eqb_spec (dst d2) 0) as [Z|Z].
  - change (act d 0 w = 0). rewrite <- LA. unfold DfaOpsProofs.act. destruct (dfa_run C d2 0 w) as [r|]; [|reflexivity].
    apply (dacc_range C ok); [exact W2|lia].
  - exfalso. assert (P2 : 0 < dst d2) by lia. destruct (min_loop_all d2 W2 D2 P2) as (groups & k & M1 & M2 & M3 & _). rewrite M1 in H. cbn [obind] in H.
    pose proof (quot_wfd d2 W2 P2 groups k M2 M3) as WQ. unfold trim in H.
    destruct (unarrivable_some _ WQ M3) as (s1 & F1 & _). rewrite F1 in H. cbn [obind] in H.
    destruct (inactive_some (filterStates C s1 (quotient C d2 groups k))) as (s2 & F2). congruence.
Qed.

(** A sufficient condition on the languages. *)
Lemma actions_occur d d2 : wfd d -> det d -> 0 < dst d -> trim d = Some d2 ->
  (forall k, 1 <= k <= dactions d -> exists w, dfa_accepts C d w = k) ->
  (exists u v, dfa_accepts C d u = 0 /\ dfa_accepts C d (u ++ v) <> 0) -> 0 < dst d2 /\ all_actions d2.
Proof.
  intros W D P T H1 (u & v & H2 & H3).
  destruct (trim_ok d W D P) as (d2' & T' & W2 & D2 & A2 & AC & RE & LA & _). rewrite T in T'. injection T' as <-.
  change (act d 0 u = 0) in H2. change (act d 0 (u ++ v) <> 0) in H3. rewrite <- LA in H2, H3.
  assert (P2 : 0 < dst d2).
  { unfold DfaOpsProofs.act in H3. destruct (Nat.eq_dec (dst d2) 0) as [Z|Z]; [|lia]. exfalso. apply H3.
    destruct (dfa_run C d2 0 (u ++ v)) as [r|]; [apply (dacc_range C ok); [exact W2|lia]|reflexivity]. }
  split; [exact P2|]. intros a Ha. rewrite A2 in Ha. destruct a as [|a].
  - unfold DfaOpsProofs.act in H2, H3. rewrite run_app in H3. destruct (dfa_run C d2 0 u) as [r|] eqn:E; [|congruence].
    exists r. split; [apply (run_range C ok d2 W2 u 0 r P2 E)|exact H2].
  - destruct (H1 (S a)) as (w & Hw); [lia|]. change (act d 0 w = S a) in Hw. rewrite <- LA in Hw. unfold DfaOpsProofs.act in Hw.
    destruct (dfa_run C d2 0 w) as [r|] eqn:E; [|discriminate Hw]. exists r. split; [apply (run_range C ok d2 W2 w 0 r P2 E)|exact Hw].
Qed.

(** No automaton with the same behaviour has fewer states. *)
Theorem smallest d' e : wfd d' -> det d' -> tight_edges d' -> all_reachable C d' -> all_active C d' -> distinct_states d' -> 0 < dst d' ->
  wfd e -> 0 < dst e -> (forall w, act e 0 w = act d' 0 w) -> dst d' <= dst e.
Proof.
  intros W D T R A X P We Pe H.
  assert (Q : forall m, m <= dst d' -> exists l, length l = m /\ NoDup l /\
    forall r, In r l -> r < dst e /\ exists p, p < m /\ forall w, act e r w = act d' p w).
  { induction m as [|m IH]; intros Hm; [exists []; split; [reflexivity|]; split; [constructor|intros ? []]|].
    destruct IH as (l & L1 & L2 & L3); [lia|].
    assert (Hq : m < dst d') by lia. destruct (reach_word d' 0 m W D T (R m Hq)) as (u & U).
    destruct (active_words d' W D T A m Hq) as (v & V).
    assert (EX : exists r, dfa_run C e 0 u = Some r).
    { pose proof (H (u ++ v)) as K. unfold DfaOpsProofs.act in K, V. rewrite !run_app, U in K.
      destruct (dfa_run C e 0 u) as [r|]; [exists r; reflexivity|]. congruence. }
    destruct EX as (r & Er).
    assert (BR : forall w, act e r w = act d' m w).
    { intros w. pose proof (H (u ++ w)) as K. unfold DfaOpsProofs.act in *. rewrite !run_app, U, Er in K. exact K. }
    exists (r :: l). split; [cbn; lia|]. split.
    - constructor; [|exact L2]. intros K. destruct (L3 r K) as (_ & p & P1 & P2).
      assert (p = m); [|lia]. apply X; [lia|exact Hq|]. intros w. rewrite <- P2. apply BR.
    - intros r' [<-|K]; [split; [apply (run_range C ok e We u 0 r Pe Er)|exists m; split; [lia|exact BR]]|].
      destruct (L3 r' K) as (K1 & p & K2 & K3). split; [exact K1|]. exists p. split; [lia|exact K3]. }
  destruct (Q (dst d') (le_n _)) as (l & L1 & L2 & L3). rewrite <- L1, <- (seq_length (dst e) 0).
  apply NoDup_incl_length; [exact L2|]. intros r Hr. apply in_seq. destruct (L3 r Hr). lia.
Qed.
End M.
