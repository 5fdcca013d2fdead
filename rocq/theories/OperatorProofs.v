From Coq Require Import List NArith PeanoNat Bool Lia.
From Verif Require Import OperatorModel OperatorSpec.
Import ListNotations.

(** ** Heaps *)
Lemma put_same h a c : cells (put h a c) a = c.
Proof. cbn. rewrite Nat.eqb_refl. reflexivity. Qed.
Lemma put_other h a c b : b <> a -> cells (put h a c) b = cells h b.
Proof. intros H. cbn. destruct (Nat.eqb_spec b a); [contradiction|reflexivity]. Qed.
Lemma alloc_same h c : cells (alloc h c) (next h) = c.
Proof. cbn. rewrite Nat.eqb_refl. reflexivity. Qed.
Lemma alloc_other h c b : b < next h -> cells (alloc h c) b = cells h b.
Proof. intros H. cbn. destruct (Nat.eqb_spec b (next h)); [lia|reflexivity]. Qed.
Lemma ast_root h t lo hi : ast h t lo hi -> cs (h (raddr t)) = lo /\ ce (h (raddr t)) = hi.
Proof. revert lo hi. induction t; intros lo hi A; cbn [ast raddr] in *; try tauto. apply IHt. exact A. Qed.
Lemma raddr_in t : In (raddr t) (addrs t).
Proof. induction t; cbn; auto. Qed.
Lemma ast_ext h h' t : forall lo hi, (forall a, In a (addrs t) -> h' a = h a) -> ast h t lo hi -> ast h' t lo hi.
Proof.
  induction t; intros lo hi E A; cbn [ast addrs] in *.
  - rewrite E by (left; reflexivity). exact A.
  - apply IHt; auto.
  - rewrite E by (left; reflexivity). destruct A as (A1 & A2 & A3 & A4 & A5). repeat split; auto. apply IHt; [|exact A5]. intros b B. apply E. right. exact B.
  - rewrite E by (left; reflexivity). destruct A as (A1 & A2 & A3 & A4 & A5). repeat split; auto. apply IHt; [|exact A5]. intros b B. apply E. right. exact B.
  - rewrite E by (left; reflexivity). destruct A as (A1 & A2 & A3 & A4 & A5 & A6 & A7). repeat split; auto.
    + apply IHt1; [|exact A6]. intros b B. apply E. right. apply in_or_app. left. exact B.
    + apply IHt2; [|exact A7]. intros b B. apply E. right. apply in_or_app. right. exact B.
  - rewrite E by (left; reflexivity). destruct A as (A1 & A2 & A3 & A4 & A5 & A6 & A7 & A8 & A9). repeat split; auto.
    + apply IHt1; [|exact A7]. intros b B. apply E. right. apply in_or_app. left. exact B.
    + apply IHt2; [|exact A8]. intros b B. apply E. right. apply in_or_app. right. apply in_or_app. left. exact B.
    + apply IHt3; [|exact A9]. intros b B. apply E. right. apply in_or_app. right. apply in_or_app. right. exact B.
Qed.
Lemma nodup_app {A} (a b : list A) : NoDup (a ++ b) -> NoDup a /\ NoDup b /\ (forall x, In x a -> In x b -> False).
Proof.
  induction a as [|x a IH]; cbn [app]; intros N.
  - split; [constructor|]. split; [exact N|]. intros x [].
  - inversion N as [|? ? X Y]; subst. destruct (IH Y) as (P & Q & R). split; [constructor; [|exact P]; intros I; apply X, in_or_app; left; exact I|].
    split; [exact Q|]. intros y [<- | I] J; [apply X, in_or_app; right; exact J|exact (R y I J)].
Qed.
Lemma nodup_join {A} (a b : list A) : NoDup a -> NoDup b -> (forall x, In x a -> In x b -> False) -> NoDup (a ++ b).
Proof.
  induction 1 as [|x a N _ IH]; intros B D; [exact B|]. cbn [app]. constructor.
  - intros I. apply in_app_or in I. destruct I as [I|I]; [exact (N I)|exact (D x (or_introl eq_refl) I)].
  - apply IH; [exact B|]. intros y I J. exact (D y (or_intror I) J).
Qed.
(** Changing the span of the root. *)
Lemma ast_respan h t : forall lo hi lo' hi', NoDup (addrs t) -> ast (cells h) t lo hi -> ast (cells (set_span h (raddr t) lo' hi')) t lo' hi'.
Proof.
  induction t; intros lo hi lo' hi' N A; cbn [ast addrs raddr] in *; unfold set_span.
  - rewrite put_same. cbn. tauto.
  - apply (IHt lo hi); assumption.
  - rewrite put_same. cbn [ck c1 cs ce]. destruct A as (A1 & A2 & A3 & A4 & A5). repeat split; auto. inversion N as [|? ? X Y]; subst.
    eapply ast_ext; [|exact A5]. intros b B. apply put_other. intros ->. exact (X B).
  - rewrite put_same. cbn [ck c1 cs ce]. destruct A as (A1 & A2 & A3 & A4 & A5). repeat split; auto. inversion N as [|? ? X Y]; subst.
    eapply ast_ext; [|exact A5]. intros b B. apply put_other. intros ->. exact (X B).
  - rewrite put_same. cbn [ck c1 c2 cs ce]. destruct A as (A1 & A2 & A3 & A4 & A5 & A6 & A7). inversion N as [|? ? X Y]; subst. repeat split; auto.
    + eapply ast_ext; [|exact A6]. intros b B. apply put_other. intros ->. apply X, in_or_app. left. exact B.
    + eapply ast_ext; [|exact A7]. intros b B. apply put_other. intros ->. apply X, in_or_app. right. exact B.
  - rewrite put_same. cbn [ck c1 c2 c3 cs ce]. destruct A as (A1 & A2 & A3 & A4 & A5 & A6 & A7 & A8 & A9). inversion N as [|? ? X Y]; subst. repeat split; auto.
    + eapply ast_ext; [|exact A7]. intros b B. apply put_other. intros ->. apply X, in_or_app. left. exact B.
    + eapply ast_ext; [|exact A8]. intros b B. apply put_other. intros ->. apply X, in_or_app. right. apply in_or_app. left. exact B.
    + eapply ast_ext; [|exact A9]. intros b B. apply put_other. intros ->. apply X, in_or_app. right. apply in_or_app. right. exact B.
Qed.

(** ** Frames: operators that wait for their last operand *)
Inductive frame :=
| FPre (a : nat) (p : N) (i : nat)
| FBin (a : nat) (m : inf) (l : tree) (k : nat)
| FTern (a : nat) (m : inf) (l : tree) (k : nat) (t : tree) (k2 : nat).
Definition plugf (f : frame) (r : tree) : tree :=
  match f with FPre a p i => TPre a p i r | FBin a m l k => TBin a m l k r | FTern a m l k t k2 => TTern a m l k t k2 r end.
(** The innermost frame first. *)
Definition plug (F : list frame) (t : tree) : tree := fold_left (fun t f => plugf f t) F t.
Definition faddr (f : frame) : nat := match f with FPre a _ _ | FBin a _ _ _ | FTern a _ _ _ _ _ => a end.
Definition fprio (f : frame) : N := match f with FPre _ p _ => p | FBin _ m _ _ | FTern _ m _ _ _ _ => fst m end.
Definition faddr1 (f : frame) : list nat := match f with FPre a _ _ => [a] | FBin a _ l _ => a :: addrs l | FTern a _ l _ t _ => a :: addrs l ++ addrs t end.
Definition flefts (f : frame) : list inf := match f with FPre _ _ _ => [] | FBin _ m l _ | FTern _ m l _ _ _ => m :: lefts l end.
Fixpoint faddrs (F : list frame) : list nat := match F with [] => [] | f :: F => faddrs F ++ faddr1 f end.
Definition entries (F : list frame) : list (nat * N) := map (fun f => (faddr f, fprio f)) F.
Fixpoint froot (F : list frame) (x : option nat) : option nat := match F with [] => x | f :: F => froot F (Some (faddr f)) end.

Lemma plugf_addrs f t : addrs (plugf f t) = faddr1 f ++ addrs t.
Proof. destruct f; cbn [plugf addrs faddr1 app]; rewrite ?app_assoc; reflexivity. Qed.
Lemma plug_addrs F : forall t, addrs (plug F t) = faddrs F ++ addrs t.
Proof. induction F as [|f F IH]; intros t; [reflexivity|]. cbn [plug fold_left faddrs]. change (addrs (plug F (plugf f t)) = (faddrs F ++ faddr1 f) ++ addrs t). rewrite IH, plugf_addrs, app_assoc. reflexivity. Qed.
Lemma plugf_root f t : raddr (plugf f t) = faddr f.
Proof. destruct f; reflexivity. Qed.
Lemma plug_root F : forall t, froot F (Some (raddr t)) = Some (raddr (plug F t)).
Proof. induction F as [|f F IH]; intros t; [reflexivity|]. cbn [froot]. rewrite <- (plugf_root f t). apply IH. Qed.
Lemma plug_app G F t : plug (G ++ F) t = plug F (plug G t).
Proof. unfold plug. apply fold_left_app. Qed.
Lemma plugf_lefts f t : lefts (plugf f t) = flefts f.
Proof. destruct f; reflexivity. Qed.
Lemma faddr_in f : In (faddr f) (faddr1 f).
Proof. destruct f; left; reflexivity. Qed.
Lemma faddrs_app G F : faddrs (G ++ F) = faddrs F ++ faddrs G.
Proof. induction G as [|f G IH]; cbn [app faddrs]; [rewrite app_nil_r; reflexivity|]. rewrite IH, app_assoc. reflexivity. Qed.

Lemma froot_split G f F : forall x y, froot (G ++ f :: F) x = froot (f :: F) y.
Proof. induction G as [|g G IH]; intros x y; [reflexivity|]. cbn [app froot]. apply (IH _ y). Qed.

(** Frames in the heap; [c]: what the member for the last operand holds. *)
Definition fcell (h : nat -> cell) (f : frame) (c : option nat) : Prop :=
  match f with
  | FPre a _ i => ck (h a) = KPre /\ c1 (h a) = c /\ cs (h a) = i
  | FBin a _ l _ => ck (h a) = KBin /\ c1 (h a) = Some (raddr l) /\ c2 (h a) = c /\ cs (h a) = tlo l /\ ast h l (tlo l) (thi l)
  | FTern a _ l _ t _ => ck (h a) = KTern /\ c1 (h a) = Some (raddr l) /\ c2 (h a) = Some (raddr t) /\ c3 (h a) = c /\ cs (h a) = tlo l /\ ast h l (tlo l) (thi l) /\ ast h t (tlo t) (thi t)
  end.
Fixpoint fheap (h : nat -> cell) (F : list frame) (c : option nat) : Prop :=
  match F with [] => True | f :: F => fcell h f c /\ fheap h F (Some (faddr f)) end.
Lemma fcell_ext h h' f c : (forall a, In a (faddr1 f) -> h' a = h a) -> fcell h f c -> fcell h' f c.
Proof.
  intros E A. destruct f; cbn [fcell faddr1] in *; rewrite E by (left; reflexivity).
  - exact A.
  - destruct A as (A1 & A2 & A3 & A4 & A5). repeat split; auto. eapply ast_ext; [|exact A5]. intros b B. apply E. right. exact B.
  - destruct A as (A1 & A2 & A3 & A4 & A5 & A6 & A7). repeat split; auto.
    + eapply ast_ext; [|exact A6]. intros b B. apply E. right. apply in_or_app. left. exact B.
    + eapply ast_ext; [|exact A7]. intros b B. apply E. right. apply in_or_app. right. exact B.
Qed.
Lemma fheap_ext h h' F : forall c, (forall a, In a (faddrs F) -> h' a = h a) -> fheap h F c -> fheap h' F c.
Proof.
  induction F as [|f F IH]; intros c E A; [exact I|]. cbn [fheap faddrs] in *. destruct A as [A B]. split.
  - eapply fcell_ext; [|exact A]. intros b X. apply E, in_or_app. right. exact X.
  - apply IH; [|exact B]. intros b X. apply E, in_or_app. left. exact X.
Qed.
(** The end token of a frame does not matter. *)
Lemma fcell_end h f c e : NoDup (faddr1 f) -> fcell (cells h) f c -> fcell (cells (set_end h (faddr f) e)) f c.
Proof.
  intros N A. unfold set_end, set_span. destruct f; cbn [fcell faddr faddr1] in *; rewrite put_same; cbn [ck c1 c2 c3 cs ce].
  - exact A.
  - inversion N as [|? ? X Y]; subst. destruct A as (A1 & A2 & A3 & A4 & A5). repeat split; auto. eapply ast_ext; [|exact A5]. intros b B. apply put_other. intros ->. exact (X B).
  - inversion N as [|? ? X Y]; subst. destruct A as (A1 & A2 & A3 & A4 & A5 & A6 & A7). repeat split; auto.
    + eapply ast_ext; [|exact A6]. intros b B. apply put_other. intros ->. apply X, in_or_app. left. exact B.
    + eapply ast_ext; [|exact A7]. intros b B. apply put_other. intros ->. apply X, in_or_app. right. exact B.
Qed.
Lemma set_end_other h a e b : b <> a -> cells (set_end h a e) b = cells h b.
Proof. intros H. unfold set_end, set_span. apply put_other. exact H. Qed.
(** A frame with its last operand and the end token of that. *)
Lemma frame_done h f t : NoDup (faddr1 f ++ addrs t) -> fcell (cells h) f (Some (raddr t)) -> ast_of (cells h) t -> ast_of (cells (set_end h (faddr f) (thi t))) (plugf f t).
Proof.
  intros N A B. destruct (nodup_app _ _ N) as (N1 & N2 & N3). pose proof (fcell_end h f _ (thi t) N1 A) as A'.
  assert (B' : ast (cells (set_end h (faddr f) (thi t))) t (tlo t) (thi t)).
  { eapply ast_ext; [|exact B]. intros b X. apply set_end_other. intros ->. exact (N3 _ (faddr_in f) X). }
  assert (E : ce (cells (set_end h (faddr f) (thi t)) (faddr f)) = thi t) by (unfold set_end, set_span; rewrite put_same; reflexivity).
  unfold ast_of. destruct f; cbn [plugf ast fcell faddr tlo thi] in *; tauto.
Qed.
(** The member for the last operand. *)
Definition slot (f : frame) (h : heap) (x : nat) : heap :=
  match f with FPre a _ _ => set1 h a x | FBin a _ _ _ => set2 h a x | FTern a _ _ _ _ _ => set3 h a x end.
Lemma slot_other f h x b : b <> faddr f -> cells (slot f h x) b = cells h b.
Proof. intros H. destruct f; cbn [slot faddr] in *; apply put_other; exact H. Qed.
Lemma slot_next f h x : next (slot f h x) = next h.
Proof. destruct f; reflexivity. Qed.
Lemma slot_cell f h c x : NoDup (faddr1 f) -> fcell (cells h) f c -> fcell (cells (slot f h x)) f (Some x).
Proof.
  intros N A. destruct f; cbn [slot fcell faddr1] in *; unfold set1, set2, set3; rewrite put_same; cbn [ck c1 c2 c3 cs ce].
  - tauto.
  - inversion N as [|? ? X Y]; subst. destruct A as (A1 & A2 & A3 & A4 & A5). repeat split; auto. eapply ast_ext; [|exact A5]. intros b B. apply put_other. intros ->. exact (X B).
  - inversion N as [|? ? X Y]; subst. destruct A as (A1 & A2 & A3 & A4 & A5 & A6 & A7). repeat split; auto.
    + eapply ast_ext; [|exact A6]. intros b B. apply put_other. intros ->. apply X, in_or_app. left. exact B.
    + eapply ast_ext; [|exact A7]. intros b B. apply put_other. intros ->. apply X, in_or_app. right. exact B.
Qed.
Lemma slot_heap f F h c x : NoDup (faddrs (f :: F)) -> fheap (cells h) (f :: F) c -> fheap (cells (slot f h x)) (f :: F) (Some x).
Proof.
  intros N [A B]. cbn [faddrs] in N. destruct (nodup_app _ _ N) as (N1 & N2 & N3). split; [eapply slot_cell; eauto|].
  eapply fheap_ext; [|exact B]. intros b X. apply slot_other. intros ->. exact (N3 _ X (faddr_in f)).
Qed.
Lemma fill_slot f h x : fcell (cells h) f None -> fill h (faddr f) x = Some (slot f h x).
Proof.
  intros A. unfold fill. destruct f; cbn [fcell faddr slot] in *.
  - destruct A as (-> & -> & _). reflexivity.
  - destruct A as (-> & -> & -> & _). reflexivity.
  - destruct A as (-> & -> & -> & _). reflexivity.
Qed.
Lemma into_slot f h x y : fcell (cells h) f (Some y) -> into h (faddr f) x = Some (slot f h x).
Proof.
  intros A. unfold into. destruct f; cbn [fcell faddr slot] in *.
  - destruct A as (-> & _). reflexivity.
  - destruct A as (-> & _ & -> & _). reflexivity.
  - destruct A as (-> & _ & -> & -> & _). reflexivity.
Qed.

(** ** Priorities *)
Lemma pops_closes (m : inf) p : (p < closed)%N -> pops (fst m) (snd m) p = closes m p.
Proof.
  intros H. unfold pops, closes, closed, word in *. destruct (snd m).
  - rewrite N.mod_small by lia. apply eq_true_iff_eq. rewrite N.ltb_lt, N.leb_le. lia.
  - rewrite N.mod_small by lia. rewrite N.add_0_r. reflexivity.
Qed.
Lemma pops_closed prio l : (prio < closed)%N -> pops prio l closed = true.
Proof. intros H. unfold pops, closed, word in *. destruct l; [change ((4294967294 + 1) mod 4294967296)%N with 4294967295%N|change ((4294967294 + 0) mod 4294967296)%N with 4294967294%N]; apply N.ltb_lt; lia. Qed.
Definition ok_on (F : list frame) (ls : list inf) : Prop := match F with [] => True | f :: _ => Forall (fun m => closes m (fprio f) = false) ls end.
Definition fordered1 (f : frame) : Prop :=
  match f with
  | FPre _ _ _ => True
  | FBin _ m l _ => ordered l /\ Forall (fun p => closes m p = true) (rights l)
  | FTern _ m l _ t _ => ordered l /\ ordered t /\ Forall (fun p => closes m p = true) (rights l)
  end.
Fixpoint fordered (F : list frame) : Prop := match F with [] => True | f :: F => fordered1 f /\ ok_on F (flefts f) /\ fordered F end.
Lemma plugf_ordered f F t : fordered (f :: F) -> ordered t -> ok_on (f :: F) (lefts t) -> ordered (plugf f t).
Proof. intros (A & B & C) O K. destruct f; cbn [plugf ordered fordered1 ok_on fprio] in *; tauto. Qed.
Lemma plug_ordered F : forall t, fordered F -> ordered t -> ok_on F (lefts t) -> ordered (plug F t).
Proof.
  induction F as [|f F IH]; intros t A O K; [exact O|]. cbn [plug fold_left]. apply IH; [apply A|eapply plugf_ordered; eauto|]. rewrite plugf_lefts. apply A.
Qed.
Lemma plugf_rights m f t : closes m (fprio f) = true -> Forall (fun p => closes m p = true) (rights t) -> Forall (fun p => closes m p = true) (rights (plugf f t)).
Proof. intros A B. destruct f; cbn [plugf rights fprio] in *; constructor; assumption. Qed.
Lemma plug_rights m F : forall t, Forall (fun f => closes m (fprio f) = true) F -> Forall (fun p => closes m p = true) (rights t) -> Forall (fun p => closes m p = true) (rights (plug F t)).
Proof. induction F as [|f F IH]; intros t A B; [exact B|]. inversion A; subst. cbn [plug fold_left]. apply IH; [assumption|]. apply plugf_rights; assumption. Qed.
Lemma split_ordered G : forall F t, fordered (G ++ F) -> ordered t -> ok_on (G ++ F) (lefts t) -> ordered (plug G t) /\ ok_on F (lefts (plug G t)) /\ fordered F.
Proof.
  induction G as [|f G IH]; intros F t A O K; cbn [app] in *; [auto|]. cbn [plug fold_left]. apply IH; [apply A|eapply plugf_ordered; eauto|]. rewrite plugf_lefts. apply A.
Qed.

(** ** reduce *)
Lemma reduce_frames (m : inf) : forall F t h, F <> [] -> fheap (cells h) F (Some (raddr t)) -> ast_of (cells h) t -> NoDup (faddrs F ++ addrs t) -> Forall (fun f => (fprio f < closed)%N) F ->
  (exists h', reduce (fst m) (snd m) (entries F) (Some (raddr t)) h = RRoot (raddr (plug F t)) h' /\ ast_of (cells h') (plug F t) /\ Forall (fun f => closes m (fprio f) = true) F /\
     next h' = next h /\ (forall a, ~ In a (faddrs F) -> cells h' a = cells h a)) \/
  (exists G f F' h', F = G ++ f :: F' /\ reduce (fst m) (snd m) (entries F) (Some (raddr t)) h = RStop (raddr (plug G t)) h' (entries (f :: F')) /\ ast_of (cells h') (plug G t) /\
     fheap (cells h') (f :: F') (Some (raddr (plug G t))) /\ Forall (fun f => closes m (fprio f) = true) G /\ closes m (fprio f) = false /\
     next h' = next h /\ (forall a, ~ In a (faddrs F) -> cells h' a = cells h a)).
Proof.
  induction F as [|f F IH]; intros t h NE H A N P; [contradiction|]. clear NE. inversion P as [|? ? P1 P2]; subst. cbn [entries map reduce]. rewrite (pops_closes m (fprio f) P1).
  destruct H as [H1 H2]. cbn [faddrs] in N. rewrite <- app_assoc in N. destruct (nodup_app _ _ N) as (N1 & N2 & N3). destruct (nodup_app _ _ N2) as (N4 & N5 & N6).
  destruct (ast_root _ _ _ _ A) as [_ EC]. rewrite EC.
  destruct (closes m (fprio f)) eqn:C.
  - pose proof (frame_done h f t N2 H1 A) as D.
    assert (O : forall b, ~ In b (faddrs F ++ faddr1 f) -> cells (set_end h (faddr f) (thi t)) b = cells h b).
    { intros b B. apply set_end_other. intros ->. apply B, in_or_app. right. apply faddr_in. }
    destruct F as [|f2 F].
    + left. exists (set_end h (faddr f) (thi t)). cbn [map entries]. split; [rewrite <- (plugf_root f t); reflexivity|]. split; [exact D|]. split; [constructor; auto|]. split; [reflexivity|]. exact O.
    + assert (H2' : fheap (cells (set_end h (faddr f) (thi t))) (f2 :: F) (Some (raddr (plugf f t)))).
      { rewrite plugf_root. eapply fheap_ext; [|exact H2]. intros b B. apply set_end_other. intros ->. apply (N3 _ B). apply in_or_app. left. apply faddr_in. }
      assert (N' : NoDup (faddrs (f2 :: F) ++ addrs (plugf f t))) by (rewrite plugf_addrs; exact N).
      change (map (fun f0 => (faddr f0, fprio f0)) (f2 :: F)) with (entries (f2 :: F)).
      destruct (IH (plugf f t) _ ltac:(discriminate) H2' D N' P2) as [(h' & E & A' & B' & C' & D')|(G & g & F' & h' & E0 & E & A' & B' & C' & D' & E' & F'')]; rewrite plugf_root in E.
      * left. exists h'. change (plug (f :: f2 :: F) t) with (plug (f2 :: F) (plugf f t)).
        split; [cbn [entries map] in *; exact E|]. split; [exact A'|]. split; [constructor; auto|]. split; [exact C'|].
        intros b B. rewrite D'; [apply O; exact B|]. intros X. apply B, in_or_app. left. exact X.
      * right. exists (f :: G), g, F', h'. change (plug (f :: G) t) with (plug G (plugf f t)). split; [cbn [app]; rewrite E0; reflexivity|].
        split; [cbn [entries map] in *; exact E|]. split; [exact A'|]. split; [exact B'|]. split; [constructor; auto|]. split; [exact D'|]. split; [exact E'|].
        intros b B. rewrite F''; [apply O; exact B|]. intros X. apply B, in_or_app. left. exact X.
  - right. exists [], f, F, (set_end h (faddr f) (thi t)). cbn [plug fold_left app]. split; [reflexivity|]. split; [reflexivity|]. split.
    + eapply ast_ext; [|exact A]. intros b B. apply set_end_other. intros ->. exact (N6 _ (faddr_in f) B).
    + split; [split; [apply fcell_end; assumption|eapply fheap_ext; [|exact H2]; intros b B; apply set_end_other; intros ->; apply (N3 _ B); apply in_or_app; left; apply faddr_in]|].
      split; [constructor|]. split; [exact C|]. split; [reflexivity|]. intros b B. apply set_end_other. intros ->. apply B, in_or_app. right. apply faddr_in.
Qed.
(** The end tokens at the end. *)
Lemma unwind_frames : forall F t h, fheap (cells h) F (Some (raddr t)) -> ast_of (cells h) t -> NoDup (faddrs F ++ addrs t) ->
  ast_of (cells (unwind (entries F) (Some (raddr t)) h)) (plug F t) /\ next (unwind (entries F) (Some (raddr t)) h) = next h /\
  (forall a, ~ In a (faddrs F) -> cells (unwind (entries F) (Some (raddr t)) h) a = cells h a).
Proof.
  induction F as [|f F IH]; intros t h H A N; [cbn; auto|]. destruct H as [H1 H2]. cbn [faddrs] in N. rewrite <- app_assoc in N. destruct (nodup_app _ _ N) as (N1 & N2 & N3).
  cbn [entries map unwind]. destruct (ast_root _ _ _ _ A) as [_ EC]. rewrite EC. pose proof (frame_done h f t N2 H1 A) as D.
  assert (H2' : fheap (cells (set_end h (faddr f) (thi t))) F (Some (raddr (plugf f t)))).
  { rewrite plugf_root. eapply fheap_ext; [|exact H2]. intros b B. apply set_end_other. intros ->. apply (N3 _ B). apply in_or_app. left. apply faddr_in. }
  assert (N' : NoDup (faddrs F ++ addrs (plugf f t))) by (rewrite plugf_addrs; exact N).
  destruct (IH (plugf f t) _ H2' D N') as (A' & B' & C'). rewrite plugf_root in A', B', C'. change (map (fun f0 => (faddr f0, fprio f0)) F) with (entries F).
  split; [exact A'|]. split; [exact B'|]. intros b B. cbn [faddrs] in B. rewrite C'; [apply set_end_other; intros ->; apply B, in_or_app; right; apply faddr_in|]. intros X. apply B, in_or_app. left. exact X.
Qed.

(** ** The loop *)
Section P.
Variable tab : optab.
Variable tok : nat -> nat.
Variable eof : nat.
Variable start : bool.
Variable entry btest : nat -> bool.
Variable base : nat -> option nat.
Notation pre_at := (pre_at tab tok).
Notation post_at := (post_at tab tok).
Notation bin_at := (bin_at tab tok).
Notation tern_at := (tern_at tab tok).
Notation paren_at := (paren_at tab tok).
Notation expr := (expr tab tok eof start base).
Notation ends := (ends tab tok eof start).
Hypothesis GT : good_table tab.
Hypothesis BP : forall i j, base i = Some j -> i < j.

Lemma expr_span i j t : expr i j t -> tlo t = i /\ S (thi t) = j.
Proof.
  induction 1; cbn [tlo thi]; try tauto; try lia.
  apply BP in H1. lia.
Qed.
Inductive fexpr (i : nat) : nat -> list frame -> Prop :=
| f_nil : fexpr i i []
| f_pre F k a e : fexpr i k F -> pre_at k = Some e -> fexpr i (S k) (FPre a (pprio e k) k :: F)
| f_bin F k0 k l a e : fexpr i k0 F -> expr k0 k l -> post_at k = None -> bin_at k = Some e -> fexpr i (S k) (FBin a (imark e k) l k :: F)
| f_tern F k0 k k2 l t a e : fexpr i k0 F -> expr k0 k l -> post_at k = None -> bin_at k = None -> tern_at k = Some e ->
    expr (S k) k2 t -> ends k2 -> here tok (top2 e) k2 = true -> fexpr i (S k2) (FTern a (tmark e k) l k t k2 :: F).
Lemma fexpr_step i k f F j t : fexpr i k (f :: F) -> expr k j t -> exists k', fexpr i k' F /\ expr k' j (plugf f t).
Proof. intros A B. inversion A; subst; (eexists; split; [eassumption|]); cbn [plugf]; econstructor; eauto. Qed.
Lemma fexpr_split i G : forall F k j t, fexpr i k (G ++ F) -> expr k j t -> exists k', fexpr i k' F /\ expr k' j (plug G t).
Proof.
  induction G as [|f G IH]; intros F k j t A B; cbn [app] in A; [exists k; auto|]. destruct (fexpr_step _ _ _ _ _ _ A B) as (k' & A' & B'). cbn [plug fold_left]. exact (IH _ _ _ _ A' B').
Qed.
Lemma fexpr_plug i F k j t : fexpr i k F -> expr k j t -> expr i j (plug F t).
Proof. intros A B. destruct (fexpr_split i F [] k j t) as (k' & A' & B'); [rewrite app_nil_r; exact A|exact B|]. inversion A'; subst. exact B'. Qed.

(** What the table says about frames. *)
Definition low (f : frame) : Prop :=
  (fprio f < closed)%N /\ (forall e p, In e (ttern tab) -> closes (tmark e p) (fprio f) = true) /\ match f with FTern _ _ _ _ _ _ => tpost tab = [] | _ => True end.
Lemma fexpr_low i k F : fexpr i k F -> Forall low F.
Proof.
  destruct GT as ((S1 & S2 & S3 & S4) & L & D). induction 1 as [|F k a e A IH E|F k0 k l a e A IH B P E|F k0 k k2 l t a e A IH B P Q E C1 C2 C3]; constructor; auto; unfold low; cbn [fprio fst imark tmark].
  - apply find_some in E. destruct E as [E _]. split; [apply S1; exact E|]. split; [|exact I]. intros e' p T. apply (L e' p T). exact E.
  - apply find_some in E. destruct E as [E _]. split; [apply S3; exact E|]. split; [|exact I]. intros e' p T. apply (L e' p T). exact E.
  - apply find_some in E. destruct E as [E _]. split; [apply S4; exact E|]. split; [intros e' p T; apply (L e' p T); exact E|]. destruct D as [D|D]; [rewrite D in E; destruct E|exact D].
Qed.

(** Memory: everything from before is as it was, the nodes of [l] are new and
    different. *)
Definition mem (h0 h : heap) (l : list nat) : Prop :=
  next h0 <= next h /\ (forall a, a < next h0 -> cells h a = cells h0 a) /\ (forall a, In a l -> next h0 <= a < next h) /\ NoDup l.
Definition opd (h0 : heap) (i j : nat) (st : state) (F : list frame) : Prop :=
  mem h0 (hp st) (faddrs F) /\ stack st = entries F /\ yynode st = froot F None /\ fheap (cells (hp st)) F None /\ fexpr i j F /\ fordered F.
Definition opr (h0 : heap) (i j : nat) (st : state) (F : list frame) (t : tree) : Prop :=
  mem h0 (hp st) (faddrs F ++ addrs t) /\ stack st = (raddr t, closed) :: entries F /\ yynode st = froot F (Some (raddr t)) /\
  fheap (cells (hp st)) F (Some (raddr t)) /\ ast_of (cells (hp st)) t /\ (exists k, fexpr i k F /\ expr k j t) /\
  fordered F /\ ordered t /\ ok_on F (lefts t) /\ rights t = [].

Lemma mem_same h0 h h' l : mem h0 h l -> next h' = next h -> (forall a, ~ In a l -> cells h' a = cells h a) -> mem h0 h' l.
Proof.
  intros (A & B & C & D) E F. split; [lia|]. split; [|split; [intros a I; rewrite E; apply C; exact I|exact D]].
  intros a L. rewrite F; [apply B; exact L|]. intros I. apply C in I. lia.
Qed.
(** Closing what an operator closes. *)
Lemma close_ok h0 i j st F t (m : inf) : opr h0 i j st F t -> (fst m < closed)%N ->
  (exists h', reduce (fst m) (snd m) (stack st) None (hp st) = RRoot (raddr (plug F t)) h' /\ mem h0 h' (addrs (plug F t)) /\ ast_of (cells h') (plug F t) /\ expr i j (plug F t) /\
     ordered (plug F t) /\ Forall (fun p => closes m p = true) (rights (plug F t))) \/
  (exists G f F' h', F = G ++ f :: F' /\ reduce (fst m) (snd m) (stack st) None (hp st) = RStop (raddr (plug G t)) h' (entries (f :: F')) /\
     mem h0 h' (faddrs (f :: F') ++ addrs (plug G t)) /\ ast_of (cells h') (plug G t) /\ fheap (cells h') (f :: F') (Some (raddr (plug G t))) /\
     (exists k, fexpr i k (f :: F') /\ expr k j (plug G t)) /\ fordered (f :: F') /\ ordered (plug G t) /\ ok_on (f :: F') (lefts (plug G t)) /\
     Forall (fun p => closes m p = true) (rights (plug G t)) /\ closes m (fprio f) = false).
Proof.
  intros (M & ES & EY & H & A & (k & FX & X) & FO & O & K & R) PR. rewrite ES. cbn [reduce]. rewrite (pops_closed _ _ PR).
  destruct F as [|f0 F0].
  - left. exists (hp st). cbn [entries map plug fold_left]. split; [reflexivity|]. split; [exact M|]. split; [exact A|]. split; [inversion FX; subst; exact X|]. split; [exact O|]. rewrite R. constructor.
  - assert (LP : Forall (fun f => (fprio f < closed)%N) (f0 :: F0)).
    { eapply Forall_impl; [|exact (fexpr_low _ _ _ FX)]. intros f L. apply L. }
    change (match entries (f0 :: F0) with [] => RRoot (raddr t) (hp st) | _ :: _ => reduce (fst m) (snd m) (entries (f0 :: F0)) (Some (raddr t)) (hp st) end)
      with (reduce (fst m) (snd m) (entries (f0 :: F0)) (Some (raddr t)) (hp st)).
    destruct (reduce_frames m (f0 :: F0) t (hp st) ltac:(discriminate) H A (proj2 (proj2 (proj2 M))) LP) as [(h' & E & A' & C & NX & U)|(G & f & F' & h' & EF & E & A' & H' & C & C2 & NX & U)].
    + left. exists h'. split; [exact E|]. split; [rewrite plug_addrs; eapply mem_same; [exact M|exact NX|]; intros a I; apply U; intros J; apply I, in_or_app; left; exact J|].
      split; [exact A'|]. split; [eapply fexpr_plug; eauto|]. split; [apply plug_ordered; assumption|]. apply plug_rights; [exact C|]. rewrite R. constructor.
    + right. exists G, f, F', h'. split; [exact EF|]. split; [exact E|]. rewrite EF in *.
      assert (EA : faddrs (f :: F') ++ addrs (plug G t) = faddrs (G ++ f :: F') ++ addrs t) by (rewrite plug_addrs, (faddrs_app G (f :: F')), app_assoc; reflexivity).
      split; [rewrite EA; eapply mem_same; [exact M|exact NX|]; intros a I; apply U; intros J; apply I, in_or_app; left; exact J|].
      split; [exact A'|]. split; [exact H'|]. split; [eapply fexpr_split; eauto|]. destruct (split_ordered G (f :: F') t FO O K) as (O1 & O2 & O3).
      split; [exact O3|]. split; [exact O1|]. split; [exact O2|]. split; [|exact C2]. apply plug_rights; [exact C|]. rewrite R. constructor.
Qed.

(** New nodes. *)
Lemma mem_alloc h0 h l c : mem h0 h l -> mem h0 (alloc h c) (next h :: l) /\ (forall a, In a l -> cells (alloc h c) a = cells h a).
Proof.
  intros (A & B & C & D). split.
  - split; [cbn; lia|]. split; [intros a L; rewrite alloc_other by lia; apply B; exact L|].
    split; [intros a [<- | I]; [cbn; lia|apply C in I; cbn; lia]|]. constructor; [intros I; apply C in I; lia|exact D].
  - intros a I. apply alloc_other. apply C in I. lia.
Qed.
Lemma mem_perm h0 h l l' : mem h0 h l -> NoDup l' -> (forall a, In a l' -> In a l) -> mem h0 h l'.
Proof. intros (A & B & C & D) N I. repeat split; auto; apply C; auto. Qed.
Lemma nodup_mid (a : nat) (x y : list nat) : NoDup (a :: x ++ y) -> NoDup (x ++ a :: y).
Proof.
  intros N. inversion N as [|? ? X Y]; subst. destruct (nodup_app _ _ Y) as (P & Q & R). apply nodup_join; [exact P| |].
  - constructor; [|exact Q]. intros I. apply X, in_or_app. right. exact I.
  - intros z I [<- | J]; [apply X, in_or_app; left; exact I|exact (R z I J)].
Qed.
Lemma mem_slot h0 h f x l : mem h0 h l -> In (faddr f) l -> mem h0 (slot f h x) l.
Proof.
  intros M I. eapply mem_same; [exact M|apply slot_next|]. intros a N. apply slot_other. intros ->. contradiction.
Qed.

(** An operand arrives. *)
Lemma attach_ok h0 i j st F t q : opd h0 i j st F -> forall h', next (hp st) <= next h' -> (forall a, a < next (hp st) -> cells h' a = cells (hp st) a) ->
  (forall a, In a (addrs t) -> next (hp st) <= a < next h') -> NoDup (addrs t) -> ast_of (cells h') t -> expr j q t -> ordered t -> lefts t = [] -> rights t = [] ->
  exists st', attach (State h' (yynode st) (stack st)) (raddr t) closed = Some st' /\ opr h0 i q st' F t.
Proof.
  intros ((M1 & M2 & M3 & M4) & ES & EY & H & FX & FO) h' L U NT ND A X O LT RT. unfold attach. cbn [stack yynode hp]. rewrite ES.
  assert (H' : fheap (cells h') F None) by (eapply fheap_ext; [|exact H]; intros a I; apply U; apply M3 in I; lia).
  assert (DJ : forall a, In a (faddrs F) -> In a (addrs t) -> False) by (intros a I J; apply M3 in I; apply NT in J; lia).
  assert (MM : mem h0 h' (faddrs F ++ addrs t)).
  { split; [lia|]. split; [intros a B; rewrite U by lia; apply M2; exact B|]. split; [|apply nodup_join; assumption].
    intros a I. apply in_app_or in I. destruct I as [I|I]; [apply M3 in I|apply NT in I]; lia. }
  destruct F as [|f F].
  - eexists. split; [reflexivity|]. split; [exact MM|]. cbn [hp stack yynode entries map froot].
    split; [reflexivity|]. split; [reflexivity|]. split; [exact I|]. split; [exact A|]. split; [exists j; auto|]. split; [exact FO|]. split; [exact O|]. split; [exact I|exact RT].
  - cbn [entries map]. rewrite (fill_slot f h' (raddr t) (proj1 H')). eexists. split; [reflexivity|]. split.
    + cbn [hp]. apply mem_slot; [exact MM|]. apply in_or_app. left. cbn [faddrs]. apply in_or_app. right. apply faddr_in.
    + cbn [hp stack yynode]. split; [reflexivity|]. split; [rewrite EY; reflexivity|]. split; [eapply slot_heap; [exact M4|exact H']|].
      split; [eapply ast_ext; [|exact A]; intros a I; apply slot_other; intros ->; apply (DJ (faddr f)); [cbn [faddrs]; apply in_or_app; right; apply faddr_in|exact I]|].
      split; [exists j; auto|]. split; [exact FO|]. split; [exact O|]. split; [rewrite LT; cbn; constructor|exact RT].
Qed.
Lemma base_ok h0 i j st F q : opd h0 i j st F -> pre_at j = None -> paren_at j = None -> base j = Some q ->
  exists st' t, attach (State (alloc (hp st) (Cell KBase None None None j (q - 1))) (yynode st) (stack st)) (next (hp st)) closed = Some st' /\ opr h0 i q st' F t.
Proof.
  intros OP P1 P2 B. set (a := next (hp st)).
  destruct (attach_ok h0 i j st F (TBase a j q) q OP (alloc (hp st) (Cell KBase None None None j (q - 1)))) as (st' & E & R).
  - cbn. lia.
  - intros b L. apply alloc_other. exact L.
  - cbn. intros b [<- | []]. unfold a. lia.
  - cbn. constructor; [intros []|constructor].
  - unfold ast_of. cbn [ast tlo thi]. unfold a. rewrite alloc_same. cbn. auto.
  - constructor; assumption.
  - exact I.
  - reflexivity.
  - reflexivity.
  - exists st', (TBase a j q). split; [exact E|exact R].
Qed.
Lemma pre_ok h0 i j st F e : opd h0 i j st F -> pre_at j = Some e ->
  exists st' F', do_pre (pprio e j) j st = Some st' /\ opd h0 i (S j) st' F'.
Proof.
  intros ((M1 & M2 & M3 & M4) & ES & EY & H & FX & FO) P. unfold do_pre, attach. cbn [stack yynode hp]. rewrite ES.
  set (a := next (hp st)). set (c := Cell KPre None None None j 0).
  assert (M : mem h0 (hp st) (faddrs F)) by (repeat split; auto; apply M3; auto).
  destruct (mem_alloc h0 (hp st) _ c M) as [MA U].
  assert (H' : fheap (cells (alloc (hp st) c)) F None) by (eapply fheap_ext; [|exact H]; exact U).
  assert (MM : mem h0 (alloc (hp st) c) (faddrs F ++ [a])).
  { eapply mem_perm; [exact MA| |]; [apply nodup_mid; rewrite app_nil_r; apply MA|]. intros b I. apply in_app_or in I. destruct I as [I|[<- | []]]; [right; exact I|left; reflexivity]. }
  assert (FX' : fexpr i (S j) (FPre a (pprio e j) j :: F)) by (constructor; assumption).
  assert (FO' : fordered (FPre a (pprio e j) j :: F)) by (split; [exact I|split; [destruct F; cbn; constructor|exact FO]]).
  assert (CA : cells (alloc (hp st) c) a = c) by apply alloc_same.
  destruct F as [|f F].
  - eexists _, [FPre a (pprio e j) j]. split; [reflexivity|]. split; [exact MM|]. cbn [hp stack yynode entries map froot fheap fcell]. rewrite CA. cbn. auto 10.
  - cbn [entries map]. rewrite (fill_slot f _ a (proj1 H')). eexists _, (FPre a (pprio e j) j :: f :: F). split; [reflexivity|].
    assert (NA : a <> faddr f).
    { intros E. assert (I : In (faddr f) (faddrs (f :: F))) by (cbn [faddrs]; apply in_or_app; right; apply faddr_in). apply M3 in I. rewrite <- E in I. unfold a in I. lia. }
    split; [|split; [|split; [|split; [|split; [exact FX'|exact FO']]]]].
    + cbn [hp]. apply mem_slot; [exact MM|]. apply in_or_app. left. cbn [faddrs]. apply in_or_app. right. apply faddr_in.
    + reflexivity.
    + cbn [yynode]. rewrite EY. reflexivity.
    + cbn [hp fheap]. split.
      * cbn [fcell]. rewrite slot_other by exact NA. rewrite CA. cbn. auto.
      * eapply slot_heap; [exact M4|exact H'].
Qed.
Lemma bin_ok h0 i j st F t e : opr h0 i j st F t -> post_at j = None -> bin_at j = Some e ->
  exists st' b F', do_infix KBin (iprio e j) (ileft e j) st = Some (st', b) /\ opd h0 i (S j) st' F'.
Proof.
  intros OP P Q. set (m := imark e j).
  assert (PR : (fst m < closed)%N) by (apply find_some in Q; destruct GT as ((_ & _ & S3 & _) & _); apply S3; apply Q).
  unfold do_infix. change (iprio e j) with (fst m). change (ileft e j) with (snd m).
  destruct (close_ok h0 i j st F t m OP PR) as [(h' & -> & M & A & X & O & R)|(G & f & F' & h' & EF & -> & M & A & H & (k & FX & X) & FO & O & K & R & C)].
  - set (T := plug F t) in *. destruct (ast_root _ _ _ _ A) as [EL _]. rewrite EL. set (c := Cell KBin (Some (raddr T)) None None (tlo T) 0). set (a := next h').
    destruct (mem_alloc h0 h' _ c M) as [MA U]. assert (CA : cells (alloc h' c) a = c) by apply alloc_same.
    eexists _, true, [FBin a m T j]. split; [reflexivity|]. split; [exact MA|]. cbn [hp stack yynode entries map froot fheap fcell faddr fprio].
    split; [reflexivity|]. split; [reflexivity|]. rewrite CA. cbn [c ck c1 c2 cs]. split; [|split].
    + split; [|exact I]. repeat split. eapply ast_ext; [|exact A]. exact U.
    + econstructor; eauto. constructor.
    + cbn. auto.
  - set (T := plug G t) in *. cbn [entries map]. destruct (ast_root _ _ _ _ A) as [EL _]. rewrite EL. set (c := Cell KBin (Some (raddr T)) None None (tlo T) 0). set (a := next h').
    destruct (mem_alloc h0 h' _ c M) as [MA U]. assert (CA : cells (alloc h' c) a = c) by apply alloc_same.
    assert (H' : fheap (cells (alloc h' c)) (f :: F') (Some (raddr T))) by (eapply fheap_ext; [|exact H]; intros b I; apply U, in_or_app; left; exact I).
    rewrite (into_slot f _ a _ (proj1 H')). eexists _, false, (FBin a m T j :: f :: F'). split; [reflexivity|].
    assert (IF : In (faddr f) (faddrs (f :: F'))) by (cbn [faddrs]; apply in_or_app; right; apply faddr_in).
    assert (NA : a <> faddr f).
    { intros E. destruct M as (_ & _ & M3 & _). specialize (M3 (faddr f) (in_or_app _ _ _ (or_introl IF))). rewrite <- E in M3. unfold a in M3. lia. }
    destruct (nodup_app _ _ (proj2 (proj2 (proj2 M)))) as (N1 & N2 & N3).
    split; [|split; [|split; [|split; [|split]]]].
    + cbn [hp]. apply mem_slot.
      * change (faddrs (FBin a m T j :: f :: F')) with (faddrs (f :: F') ++ a :: addrs T). eapply mem_perm; [exact MA|apply nodup_mid; apply MA|].
        intros b I. apply in_app_or in I. destruct I as [I|[<- | I]]; [right; apply in_or_app; left; exact I|left; reflexivity|right; apply in_or_app; right; exact I].
      * change (faddrs (FBin a m T j :: f :: F')) with (faddrs (f :: F') ++ a :: addrs T). apply in_or_app. left. exact IF.
    + reflexivity.
    + cbn [yynode]. destruct OP as (_ & _ & EY & _). rewrite EY, EF. exact (froot_split G f F' _ (Some a)).
    + cbn [hp fheap]. split; [|exact (slot_heap f F' _ _ a N1 H')]. cbn [fcell]. rewrite slot_other by exact NA. rewrite CA. cbn [c ck c1 c2 cs]. repeat split.
      eapply ast_ext; [|exact A]. intros b B. rewrite slot_other; [apply U, in_or_app; right; exact B|]. intros ->. exact (N3 _ IF B).
    + econstructor; eauto.
    + split; [cbn; auto|]. split; [|exact FO]. cbn [ok_on flefts] in *. constructor; [exact C|exact K].
Qed.
Lemma post_ok h0 i j st F t e : opr h0 i j st F t -> post_at j = Some e ->
  exists st' F' t', do_post (iprio e j) (ileft e j) st = Some st' /\ opr h0 i (S j) st' F' t'.
Proof.
  intros OP Q. set (m := imark e j).
  assert (PR : (fst m < closed)%N) by (apply find_some in Q; destruct GT as ((_ & S2 & _ & _) & _); apply S2; apply Q).
  unfold do_post. change (iprio e j) with (fst m). change (ileft e j) with (snd m).
  destruct (close_ok h0 i j st F t m OP PR) as [(h' & -> & M & A & X & O & R)|(G & f & F' & h' & EF & -> & M & A & H & (k & FX & X) & FO & O & K & R & C)].
  - set (T := plug F t) in *. destruct (ast_root _ _ _ _ A) as [EL EH]. rewrite EL, EH. set (c := Cell KPost (Some (raddr T)) None None (tlo T) (S (thi T))). set (a := next h').
    destruct (mem_alloc h0 h' _ c M) as [MA U]. assert (CA : cells (alloc h' c) a = c) by apply alloc_same.
    eexists _, [], (TPost a m T j). split; [reflexivity|]. split; [exact MA|]. cbn [hp stack yynode entries map froot fheap faddr raddr].
    split; [reflexivity|]. split; [reflexivity|]. split; [exact I|]. split; [|split; [|split; [exact I|split; [|split; [exact I|reflexivity]]]]].
    + unfold ast_of. cbn [ast tlo thi]. rewrite CA. cbn [c ck c1 cs ce]. destruct (expr_span _ _ _ X) as [_ <-]. repeat split. eapply ast_ext; [|exact A]. exact U.
    + exists i. split; [constructor|]. constructor; assumption.
    + cbn. auto.
  - set (T := plug G t) in *. cbn [entries map]. destruct (ast_root _ _ _ _ A) as [EL EH]. rewrite EL, EH. set (c := Cell KPost (Some (raddr T)) None None (tlo T) (S (thi T))). set (a := next h').
    destruct (mem_alloc h0 h' _ c M) as [MA U]. assert (CA : cells (alloc h' c) a = c) by apply alloc_same.
    assert (H' : fheap (cells (alloc h' c)) (f :: F') (Some (raddr T))) by (eapply fheap_ext; [|exact H]; intros b I; apply U, in_or_app; left; exact I).
    assert (LF : low f) by (pose proof (fexpr_low _ _ _ FX) as L; inversion L; assumption).
    assert (NT : match f with FTern _ _ _ _ _ _ => False | _ => True end).
    { destruct LF as (_ & _ & LF). destruct f; auto. apply find_some in Q. rewrite LF in Q. destruct Q as [[] _]. }
    assert (ESL : match ck (cells (alloc h' c) (faddr f)), c2 (cells (alloc h' c) (faddr f)) with
                  | KBase, _ => None
                  | KBin, Some _ => Some (State (set2 (alloc h' c) (faddr f) a) (yynode st) ((a, closed) :: (faddr f, fprio f) :: entries F'))
                  | _, _ => Some (State (set1 (alloc h' c) (faddr f) a) (yynode st) ((a, closed) :: (faddr f, fprio f) :: entries F'))
                  end = Some (State (slot f (alloc h' c) a) (yynode st) ((a, closed) :: (faddr f, fprio f) :: entries F'))).
    { destruct f; cbn [slot fcell faddr] in *; [| |destruct NT]; destruct H' as [H' _].
      - destruct H' as (-> & _). reflexivity.
      - destruct H' as (-> & _ & -> & _). reflexivity. }
    unfold entries in ESL. rewrite ESL. clear ESL. eexists _, (f :: F'), (TPost a m T j). split; [reflexivity|].
    assert (IF : In (faddr f) (faddrs (f :: F'))) by (cbn [faddrs]; apply in_or_app; right; apply faddr_in).
    assert (NA : a <> faddr f).
    { intros E. destruct M as (_ & _ & M3 & _). specialize (M3 (faddr f) (in_or_app _ _ _ (or_introl IF))). rewrite <- E in M3. unfold a in M3. lia. }
    destruct (nodup_app _ _ (proj2 (proj2 (proj2 M)))) as (N1 & N2 & N3).
    split; [|split; [|split; [|split; [|split; [|split; [|split; [|split; [|split]]]]]]]].
    + cbn [hp]. apply mem_slot.
      * cbn [addrs]. eapply mem_perm; [exact MA|apply nodup_mid; apply MA|].
        intros b I. apply in_app_or in I. destruct I as [I|[<- | I]]; [right; apply in_or_app; left; exact I|left; reflexivity|right; apply in_or_app; right; exact I].
      * apply in_or_app. left. exact IF.
    + reflexivity.
    + cbn [yynode]. destruct OP as (_ & _ & EY & _). rewrite EY, EF. exact (froot_split G f F' _ (Some a)).
    + cbn [hp raddr]. exact (slot_heap f F' _ _ a N1 H').
    + cbn [hp]. unfold ast_of. cbn [ast tlo thi]. rewrite slot_other by exact NA. rewrite CA. cbn [c ck c1 cs ce]. destruct (expr_span _ _ _ X) as [_ <-]. repeat split.
      eapply ast_ext; [|exact A]. intros b B. rewrite slot_other; [apply U, in_or_app; right; exact B|]. intros ->. exact (N3 _ IF B).
    + exists k. split; [exact FX|]. constructor; assumption.
    + exact FO.
    + cbn. auto.
    + cbn [lefts ok_on] in *. constructor; [exact C|exact K].
    + reflexivity.
Qed.
(** A ternary operator: the first part, then the second. *)
Lemma tern_ok h0 i j st F t e : opr h0 i j st F t -> post_at j = None -> bin_at j = None -> tern_at j = Some e ->
  exists h' a T, let h1 := alloc h' (Cell KTern (Some (raddr T)) None None (tlo T) 0) in a = next h' /\
    do_infix KTern (tprio e j) (tleft e j) st = Some (State h1 (Some a) [(a, tprio e j)], true) /\
    (forall h2 t2 q, mem h1 h2 (addrs t2) -> ast_of (cells h2) t2 -> expr (S j) q t2 -> ends q -> ordered t2 -> here tok (top2 e) q = true ->
      exists F', opd h0 i (S q) (State (set2 h2 a (raddr t2)) (Some a) [(a, tprio e j)]) F').
Proof.
  intros OP P1 P2 Q. set (m := tmark e j). pose proof (find_some _ _ Q) as [Q1 _].
  assert (PR : (fst m < closed)%N) by (destruct GT as ((_ & _ & _ & S4) & _); apply S4; exact Q1).
  unfold do_infix. change (tprio e j) with (fst m). change (tleft e j) with (snd m).
  destruct (close_ok h0 i j st F t m OP PR) as [(h' & -> & M & A & X & O & R)|(G & f & F' & h' & EF & -> & M & A & H & (k & FX & X) & FO & O & K & R & C)].
  - set (T := plug F t) in *. destruct (ast_root _ _ _ _ A) as [EL _]. rewrite EL. exists h', (next h'), T. split; [reflexivity|]. split; [reflexivity|].
    set (c := Cell KTern (Some (raddr T)) None None (tlo T) 0) in *. set (a := next h'). destruct (mem_alloc h0 h' _ c M) as [MA U]. assert (CA : cells (alloc h' c) a = c) by apply alloc_same.
    intros h2 t2 q (N1 & N2 & N3 & N4) A2 X2 E2 O2 HE. exists [FTern a m T j t2 q].
    assert (LA : a < next (alloc h' c)) by (cbn; unfold a; lia).
    assert (NA2 : forall b, In b (addrs t2) -> b <> a) by (intros b B ->; apply N3 in B; lia).
    assert (LT : forall b, In b (addrs T) -> b < next (alloc h' c)) by (intros b B; destruct M as (_ & _ & M3 & _); apply M3 in B; cbn; lia).
    assert (NAT : forall b, In b (addrs T) -> b <> a) by (intros b B ->; destruct M as (_ & _ & M3 & _); apply M3 in B; unfold a in B; lia).
    split; [|split; [reflexivity|split; [reflexivity|split; [|split]]]].
    + cbn [hp faddrs faddr1 app]. destruct MA as (B1 & B2 & B3 & B4). apply (mem_same h0 h2); [|reflexivity|].
      * split; [lia|]. split; [intros b B; rewrite N2 by lia; apply B2; exact B|]. split.
        -- intros b [<- | B]; [split; [apply B3; left; reflexivity|lia]|]. apply in_app_or in B. destruct B as [B|B]; [split; [apply B3; right; exact B|apply LT in B; lia]|apply N3 in B; lia].
        -- constructor; [intros B; apply in_app_or in B; destruct B as [B|B]; [exact (NAT _ B eq_refl)|exact (NA2 _ B eq_refl)]|].
           inversion B4; subst. apply nodup_join; [assumption|exact N4|]. intros b B B'. apply LT in B. apply N3 in B'. lia.
      * intros b B. unfold set2. apply put_other. intros ->. apply B. left. reflexivity.
    + cbn [hp fheap fcell]. split; [|exact I]. unfold set2. rewrite put_same. cbn [ck c1 c2 c3 cs]. rewrite N2 by exact LA. rewrite CA. cbn [c ck c1 c3 cs]. repeat split.
      * eapply ast_ext; [|exact A]. intros b B. rewrite put_other by (apply NAT; exact B). rewrite N2 by (apply LT; exact B). apply U. exact B.
      * eapply ast_ext; [|exact A2]. intros b B. apply put_other. apply NA2. exact B.
    + econstructor; eauto. constructor.
    + cbn. auto.
  - exfalso. pose proof (fexpr_low _ _ _ FX) as L. inversion L as [|? ? (_ & L1 & _) _]; subst. specialize (L1 e j Q1). fold m in L1. congruence.
Qed.

Definition stops (q : nat) : Prop := post_at q = None /\ bin_at q = None /\ tern_at q = None.
Definition good_loop (h0 : heap) (i : nat) (r : result) : Prop :=
  match r with Brk st q => (exists F t, opr h0 i q st F t) /\ stops q | No | Out => True | _ => False end.
Definition good_parse (h0 : heap) (i : nat) (r : result) : Prop :=
  match r with
  | Ret h n q => exists t, expr i q t /\ ends q /\ ordered t /\ ast_of (cells h) t /\ raddr t = n /\ mem h0 h (addrs t)
  | No | Out => True
  | _ => False
  end.
Lemma finish_ok h0 i r : good_loop h0 i r -> good_parse h0 i (finish tok eof start r).
Proof.
  destruct r as [st q|h n q| | |]; cbn [good_loop finish]; try tauto.
  intros ((F & t & (M & ES & EY & H & A & (k & FX & X) & FO & O & K & R)) & (P1 & P2 & P3)). destruct (start && negb (Nat.eqb (tok q) eof)) eqn:E; [exact I|].
  rewrite EY, plug_root, ES. cbn [good_parse unwind]. exists (plug F t). destruct (unwind_frames F t (hp st) H A (proj2 (proj2 (proj2 M)))) as (A' & NX & U).
  split; [eapply fexpr_plug; eauto|]. split; [split; [exact P1|split; [exact P2|split; [exact P3|]]]; intros ->; cbn in E; destruct (Nat.eqb_spec (tok q) eof); [assumption|discriminate]|].
  split; [apply plug_ordered; assumption|]. split; [exact A'|]. split; [reflexivity|]. rewrite plug_addrs. eapply mem_same; [exact M|exact NX|].
  intros a B. apply U. intros B'. apply B, in_or_app. left. exact B'.
Qed.
Lemma opd_init h i : opd h i i (State h None []) [].
Proof. split; [split; [cbn; lia|split; [auto|split; [intros a []|constructor]]]|]. cbn. repeat split. constructor. Qed.
Lemma paren_ok h0 i j st F o c h2 t2 q : opd h0 i j st F -> pre_at j = None -> paren_at j = Some (o, c) -> mem (hp st) h2 (addrs t2) -> ast_of (cells h2) t2 -> expr (S j) q t2 -> ends q -> ordered t2 -> here tok c q = true ->
  exists st' t, attach (State (set_span h2 (raddr t2) (cs (cells h2 (raddr t2)) - 1) (S (ce (cells h2 (raddr t2))))) (yynode st) (stack st)) (raddr t2) closed = Some st' /\ opr h0 i (S q) st' F t.
Proof.
  intros OP P1 P2 (N1 & N2 & N3 & N4) A2 X2 E2 O2 HE. destruct (ast_root _ _ _ _ A2) as [EL EH]. destruct (expr_span _ _ _ X2) as [L1 L2]. rewrite EL, EH, L1, L2.
  destruct (attach_ok h0 i j st F (TPar j t2 q) (S q) OP (set_span h2 (raddr t2) j q)) as (st' & E & R).
  - exact N1.
  - intros a L. unfold set_span. rewrite put_other; [apply N2; exact L|]. intros ->. pose proof (N3 _ (raddr_in t2)). lia.
  - exact N3.
  - exact N4.
  - unfold ast_of. cbn [ast tlo thi]. eapply ast_respan; [exact N4|exact A2].
  - econstructor; eauto.
  - exact O2.
  - reflexivity.
  - reflexivity.
  - exists st', (TPar j t2 q). split; [|exact R]. rewrite Nat.sub_succ, Nat.sub_0_r. exact E.
Qed.
Lemma loop_ok fuel : forall h0 i j st,
  (forall F, opd h0 i j st F -> good_loop h0 i (loop tab tok eof start entry btest base fuel false st j)) /\
  (forall F t, opr h0 i j st F t -> good_loop h0 i (loop tab tok eof start entry btest base fuel true st j)).
Proof.
  induction fuel as [|f IH]; intros h0 i j st; [split; intros; exact I|].
  assert (PA : forall h p, good_parse h p (if entry (tok p) then finish tok eof start (loop tab tok eof start entry btest base f false (State h None []) p) else No)).
  { intros h p. destruct (entry (tok p)); [|exact I]. apply finish_ok. apply (proj1 (IH h p p (State h None [])) []). apply opd_init. }
  split.
  - intros F OP. cbn [loop]. destruct (pre_at j) as [e|] eqn:P1.
    + destruct (pre_ok _ _ _ _ _ _ OP P1) as (st' & F' & -> & OP'). exact (proj1 (IH _ _ _ _) _ OP').
    + destruct (paren_at j) as [[o c]|] eqn:P2.
      * destruct (entry (tok (S j))) eqn:EN; [|exact I]. specialize (PA (hp st) (S j)). rewrite EN in PA.
        destruct (finish tok eof start (loop tab tok eof start entry btest base f false (State (hp st) None []) (S j))) as [? ?|h2 n q| | |]; cbn [good_parse] in PA; try contradiction; try exact I.
        destruct PA as (t2 & X2 & E2 & O2 & A2 & <- & M2). destruct (here tok c q) eqn:HE; [|exact I].
        destruct (paren_ok _ _ _ _ _ _ _ _ _ _ OP P1 P2 M2 A2 X2 E2 O2 HE) as (st' & t & -> & OP'). exact (proj2 (IH _ _ _ _) _ _ OP').
      * destruct (btest (tok j)); [|exact I]. destruct (base j) as [q|] eqn:B; [|exact I].
        destruct (base_ok _ _ _ _ _ _ OP P1 P2 B) as (st' & t & -> & OP'). exact (proj2 (IH _ _ _ _) _ _ OP').
  - intros F t OP. cbn [loop]. destruct (post_at j) as [e|] eqn:P1.
    + destruct (post_ok _ _ _ _ _ _ _ OP P1) as (st' & F' & t' & -> & OP'). exact (proj2 (IH _ _ _ _) _ _ OP').
    + destruct (bin_at j) as [e|] eqn:P2.
      * destruct (bin_ok _ _ _ _ _ _ _ OP P1 P2) as (st' & b & F' & -> & OP'). exact (proj1 (IH _ _ _ _) _ OP').
      * destruct (tern_at j) as [e|] eqn:P3.
        -- destruct (tern_ok _ _ _ _ _ _ _ OP P1 P2 P3) as (h' & a & T & EA & -> & K). cbn [hp yynode stack].
           specialize (PA (alloc h' (Cell KTern (Some (raddr T)) None None (tlo T) 0)) (S j)).
           destruct (if entry (tok (S j)) then _ else _) as [? ?|h2 n q| | |]; cbn [good_parse] in PA; try contradiction; try exact I.
           destruct PA as (t2 & X2 & E2 & O2 & A2 & <- & M2). destruct (here tok (top2 e) q) eqn:HE; [|exact I].
           destruct (K h2 t2 q M2 A2 X2 E2 O2 HE) as (F' & OP'). exact (proj1 (IH _ _ _ _) _ OP').
        -- split; [exists F, t; exact OP|]. repeat split; assumption.
Qed.
Theorem parse_ok fuel h p : good_parse h p (parse tab tok eof start entry btest base fuel h p).
Proof. unfold parse. destruct (entry (tok p)); [|exact I]. apply finish_ok. apply (proj1 (loop_ok fuel h p p (State h None [])) []). apply opd_init. Qed.

(** ** Every expression is read *)
Hypothesis EN : forall p, pre_at p <> None \/ paren_at p <> None \/ base p <> None -> entry (tok p) = true.
Hypothesis BT : forall p, base p <> None -> btest (tok p) = true.
Lemma expr_entry i j t : expr i j t -> entry (tok i) = true.
Proof. induction 1; try assumption; apply EN; [right; right|right; left|left]; congruence. Qed.
Notation loopN := (loop tab tok eof start entry btest base).
Lemma call_ok h i j : entry (tok i) = true -> ends j ->
  (exists n d st' F' t', d <= n /\ (forall f, n < f -> loopN f false (State h None []) i = loopN (f - d) true st' j) /\ opr h i j st' F' t') ->
  exists n h2 m, (forall f, n < f -> parse tab tok eof start entry btest base f h i = Ret h2 m j) /\
    exists t, expr i j t /\ ends j /\ ordered t /\ ast_of (cells h2) t /\ raddr t = m /\ mem h h2 (addrs t).
Proof.
  intros EI E (n & d & st2 & F2 & t2 & D & L & OP2).
  assert (GP : good_parse h i (finish tok eof start (Brk st2 j))) by (apply finish_ok; split; [exists F2, t2; exact OP2|split; [apply E|split; apply E]]).
  assert (FE : exists h2 m, finish tok eof start (Brk st2 j) = Ret h2 m j).
  { unfold finish. destruct E as (_ & _ & _ & E). destruct OP2 as (_ & _ & EY & _). rewrite EY, plug_root. destruct start; [rewrite (E eq_refl), Nat.eqb_refl|]; cbn; eauto. }
  destruct FE as (h2 & m & FE). exists (S n), h2, m. rewrite FE in GP. split; [|exact GP].
  intros f LF. unfold parse. rewrite EI, L by lia. replace (f - d) with (S (f - S d)) by lia. cbn [loop]. destruct E as (P1 & P2 & P3 & _). rewrite P1, P2, P3. exact FE.
Qed.
Lemma expr_read i j t : expr i j t -> forall h0 i0 st F, opd h0 i0 i st F ->
  exists n d st' F' t', d <= n /\ (forall f, n < f -> loopN f false st i = loopN (f - d) true st' j) /\ opr h0 i0 j st' F' t'.
Proof.
  induction 1 as [i j a P1 P2 B|i j t o c P1 P2 X IH E HE|i j t a e P X IH|i k t a e X IH P|i k j l r a e X1 IH1 P1 P2 X2 IH2|i k k2 j l t r a e X1 IH1 P1 P2 P3 X2 IH2 E HE X3 IH3]; intros h0 i0 st F OP.
  - destruct (base_ok _ _ _ _ _ _ OP P1 P2 B) as (st' & t & E & OP'). exists 1, 1, st', F, t. split; [lia|]. split; [|exact OP']. intros [|f] L; [lia|]. cbn [loop]. rewrite P1, P2, (BT i) by congruence. rewrite B, E.
    replace (S f - 1) with f by lia. reflexivity.
  - destruct (call_ok _ _ _ (expr_entry _ _ _ X) E (IH (hp st) (S i) (State (hp st) None []) [] (opd_init _ _))) as (n & h2 & m & L & t3 & X3 & E3 & O3 & A3 & <- & M3).
    destruct (paren_ok _ _ _ _ _ _ _ _ _ _ OP P1 P2 M3 A3 X3 E3 O3 HE) as (st' & t' & EA & OP').
    exists (S n), 1, st', F, t'. split; [lia|]. split; [|exact OP']. intros [|f] LF; [lia|]. cbn [loop]. rewrite P1, P2. specialize (L f ltac:(lia)). unfold parse in L.
    rewrite (expr_entry _ _ _ X) in *. rewrite L, HE, EA. replace (S f - 1) with f by lia. reflexivity.
  - destruct (pre_ok _ _ _ _ _ _ OP P) as (st1 & F1 & E1 & OP1). destruct (IH _ _ _ _ OP1) as (n & d & st' & F' & t' & D & L & OP').
    exists (S n), (S d), st', F', t'. split; [lia|]. split; [|exact OP']. intros [|f] LF; [lia|]. cbn [loop]. rewrite P, E1. rewrite L by lia. reflexivity.
  - destruct (IH _ _ _ _ OP) as (n & d & st1 & F1 & t1 & D & L & OP1). destruct (post_ok _ _ _ _ _ _ _ OP1 P) as (st' & F' & t' & E1 & OP').
    exists (S n), (S d), st', F', t'. split; [lia|]. split; [|exact OP']. intros f LF. rewrite L by lia. replace (f - d) with (S (f - S d)) by lia. cbn [loop]. rewrite P, E1. reflexivity.
  - destruct (IH1 _ _ _ _ OP) as (n & d & st1 & F1 & t1 & D & L & OP1). destruct (bin_ok _ _ _ _ _ _ _ OP1 P1 P2) as (st2 & b & F2 & E1 & OP2).
    destruct (IH2 _ _ _ _ OP2) as (n2 & d2 & st' & F' & t' & D2 & L2 & OP').
    exists (S (n + n2)), (S (d + d2)), st', F', t'. split; [lia|]. split; [|exact OP']. intros f LF. rewrite L by lia. replace (f - d) with (S (f - S d)) by lia. cbn [loop]. rewrite P1, P2, E1.
    rewrite L2 by lia. f_equal. lia.
  - destruct (IH1 _ _ _ _ OP) as (n & d & st1 & F1 & t1 & D & L & OP1). destruct (tern_ok _ _ _ _ _ _ _ OP1 P1 P2 P3) as (h' & b & T & EB & E1 & K). cbv zeta in K.
    set (h1 := alloc h' (Cell KTern (Some (raddr T)) None None (tlo T) 0)) in *.
    destruct (call_ok _ _ _ (expr_entry _ _ _ X2) E (IH2 h1 (S k) (State h1 None []) [] (opd_init _ _))) as (n2 & h2 & m & L2 & t3 & Y3 & E3 & O3 & A3 & <- & M3).
    destruct (K h2 t3 k2 M3 A3 Y3 E3 O3 HE) as (F2 & OP2). destruct (IH3 _ _ _ _ OP2) as (n3 & d3 & st' & F' & t' & D3 & L3 & OP').
    exists (S (n + n2 + n3)), (S (d + d3)), st', F', t'. split; [lia|]. split; [|exact OP']. intros f LF. rewrite L by lia. replace (f - d) with (S (f - S d)) by lia. cbn [loop]. rewrite P1, P2, P3, E1.
    cbn [hp yynode stack]. specialize (L2 (f - S d) ltac:(lia)). unfold parse in L2. rewrite (expr_entry _ _ _ X2) in L2. fold h1. rewrite L2. rewrite (expr_entry _ _ _ X2), HE. rewrite L3 by lia. f_equal. lia.
Qed.

Theorem parse_reads h i j t : expr i j t -> ends j ->
  exists n h2 m t', (forall f, n < f -> parse tab tok eof start entry btest base f h i = Ret h2 m j) /\
    expr i j t' /\ ordered t' /\ ast_of (cells h2) t' /\ raddr t' = m /\ mem h h2 (addrs t').
Proof.
  intros X E. destruct (call_ok h i j (expr_entry _ _ _ X) E (expr_read _ _ _ X h i (State h None []) [] (opd_init _ _))) as (n & h2 & m & L & t' & A & _ & B).
  exists n, h2, m, t'. split; [exact L|]. split; [exact A|exact B].
Qed.

(** ** It ends *)
Definition over (N : nat) : Prop := forall p, N <= p -> pre_at p = None /\ paren_at p = None /\ base p = None /\ post_at p = None /\ bin_at p = None /\ tern_at p = None.
Lemma finish_out r : r <> Out -> finish tok eof start r <> Out.
Proof. destruct r as [st q|h n q| | |]; cbn [finish]; try congruence. intros _. destruct (start && _); [discriminate|]. destruct (yynode st); discriminate. Qed.
Lemma expr_long i j t : expr i j t -> i < j.
Proof. induction 1; try lia. apply BP. assumption. Qed.
Lemma loop_ends N : over N -> forall fuel h0 i j st, N - j < fuel ->
  (forall F, opd h0 i j st F -> loopN fuel false st j <> Out) /\ (forall F t, opr h0 i j st F t -> loopN fuel true st j <> Out).
Proof.
  intros FN. induction fuel as [|f IH]; intros h0 i j st LF; [lia|].
  assert (PA : forall h p, N - p < f -> (if entry (tok p) then finish tok eof start (loopN f false (State h None []) p) else No) <> Out).
  { intros h p L. destruct (entry (tok p)); [|discriminate]. apply finish_out. apply (proj1 (IH h p p (State h None []) L) []). apply opd_init. }
  assert (PG : forall h p, good_parse h p (if entry (tok p) then finish tok eof start (loopN f false (State h None []) p) else No)) by (intros h p; exact (parse_ok f h p)).
  assert (SM : forall q, j < q -> j < N -> N - q < f) by (intros; lia).
  split.
  - intros F OP. cbn [loop]. destruct (Nat.le_gt_cases N j) as [GE|LT]; [destruct (FN j GE) as (-> & -> & -> & _); destruct (btest (tok j)); discriminate|].
    destruct (pre_at j) as [e|] eqn:P1.
    + destruct (pre_ok _ _ _ _ _ _ OP P1) as (st' & F' & -> & OP'). exact (proj1 (IH _ _ _ _ (SM (S j) ltac:(lia) LT)) _ OP').
    + destruct (paren_at j) as [[o c]|] eqn:P2.
      * destruct (entry (tok (S j))) eqn:E0; [|discriminate]. specialize (PA (hp st) (S j) (SM (S j) ltac:(lia) LT)). specialize (PG (hp st) (S j)). rewrite E0 in PA, PG.
        destruct (finish tok eof start (loopN f false (State (hp st) None []) (S j))) as [? ?|h2 n q| | |]; cbn [good_parse] in PG; try contradiction; try discriminate; try congruence.
        destruct PG as (t2 & X2 & E2 & O2 & A2 & <- & M2). destruct (here tok c q) eqn:HE; [|discriminate].
        destruct (paren_ok _ _ _ _ _ _ _ _ _ _ OP P1 P2 M2 A2 X2 E2 O2 HE) as (st' & t & -> & OP'). apply expr_long in X2. exact (proj2 (IH _ _ _ _ (SM (S q) ltac:(lia) LT)) _ _ OP').
      * destruct (btest (tok j)); [|discriminate]. destruct (base j) as [q|] eqn:B; [|discriminate].
        destruct (base_ok _ _ _ _ _ _ OP P1 P2 B) as (st' & t & -> & OP'). exact (proj2 (IH _ _ _ _ (SM q (BP _ _ B) LT)) _ _ OP').
  - intros F t OP. cbn [loop]. destruct (Nat.le_gt_cases N j) as [GE|LT]; [destruct (FN j GE) as (_ & _ & _ & -> & -> & ->); discriminate|].
    destruct (post_at j) as [e|] eqn:P1.
    + destruct (post_ok _ _ _ _ _ _ _ OP P1) as (st' & F' & t' & -> & OP'). exact (proj2 (IH _ _ _ _ (SM (S j) ltac:(lia) LT)) _ _ OP').
    + destruct (bin_at j) as [e|] eqn:P2.
      * destruct (bin_ok _ _ _ _ _ _ _ OP P1 P2) as (st' & b & F' & -> & OP'). exact (proj1 (IH _ _ _ _ (SM (S j) ltac:(lia) LT)) _ OP').
      * destruct (tern_at j) as [e|] eqn:P3; [|discriminate].
        destruct (tern_ok _ _ _ _ _ _ _ OP P1 P2 P3) as (h' & a & T & EA & -> & K). cbn [hp yynode stack].
        specialize (PA (alloc h' (Cell KTern (Some (raddr T)) None None (tlo T) 0)) (S j) (SM (S j) ltac:(lia) LT)). specialize (PG (alloc h' (Cell KTern (Some (raddr T)) None None (tlo T) 0)) (S j)).
        destruct (if entry (tok (S j)) then _ else _) as [? ?|h2 n q| | |]; cbn [good_parse] in PG; try contradiction; try discriminate; try congruence.
        destruct PG as (t2 & X2 & E2 & O2 & A2 & <- & M2). destruct (here tok (top2 e) q) eqn:HE; [|discriminate].
        destruct (K h2 t2 q M2 A2 X2 E2 O2 HE) as (F' & OP'). apply expr_long in X2. exact (proj1 (IH _ _ _ _ (SM (S q) ltac:(lia) LT)) _ OP').
Qed.
Theorem parse_ends N fuel h p : over N -> N - p < fuel -> parse tab tok eof start entry btest base fuel h p <> Out.
Proof. intros FN L. unfold parse. destruct (entry (tok p)); [|discriminate]. apply finish_out. apply (proj1 (loop_ends N FN fuel h p p (State h None []) L) []). apply opd_init. Qed.
(** More fuel changes nothing. *)
Lemma loop_mono f : forall b st p, loopN f b st p <> Out -> loopN (S f) b st p = loopN f b st p.
Proof.
  induction f as [|f IH]; intros b st p H; [contradiction H; reflexivity|].
  assert (PM : forall h q, (if entry (tok q) then finish tok eof start (loopN f false (State h None []) q) else No) <> Out ->
    (if entry (tok q) then finish tok eof start (loopN (S f) false (State h None []) q) else No) = (if entry (tok q) then finish tok eof start (loopN f false (State h None []) q) else No)).
  { intros h q. destruct (entry (tok q)); [|reflexivity]. intros K. rewrite IH; [reflexivity|]. intros E. apply K. rewrite E. reflexivity. }
  remember (S f) as f1 eqn:E1. rewrite E1 in H |- * at 2. cbn [loop] in H |- *. cbv zeta in *. destruct b.
  - destruct (post_at p) as [e|]; [destruct (do_post _ _ _); [subst f1; apply IH; exact H|reflexivity]|].
    destruct (bin_at p) as [e|]; [destruct (do_infix _ _ _ _) as [[s2 br]|]; [subst f1; apply IH; exact H|reflexivity]|].
    destruct (tern_at p) as [e|]; [|reflexivity]. destruct (do_infix _ _ _ _) as [[s2 [|]]|]; [|subst f1; apply IH; exact H|reflexivity].
    subst f1. rewrite PM; [|intros E; rewrite E in H; apply H; reflexivity].
    destruct (if entry (tok (S p)) then _ else _) as [? ?|h2 m q| | |]; try reflexivity. destruct (yynode s2); [|reflexivity]. destruct (here tok (top2 e) q); [apply IH; exact H|reflexivity].
  - destruct (pre_at p) as [e|]; [destruct (do_pre _ _ _); [subst f1; apply IH; exact H|reflexivity]|].
    destruct (paren_at p) as [[o c]|].
    + specialize (PM (hp st) (S p)). subst f1. destruct (entry (tok (S p))); [|reflexivity]. rewrite PM; [|intros E; rewrite E in H; apply H; reflexivity].
      destruct (finish tok eof start _) as [? ?|h2 m q| | |]; try reflexivity. destruct (here tok c q); [|reflexivity]. destruct (attach _ _ _); [apply IH; exact H|reflexivity].
    + destruct (btest (tok p)); [|reflexivity]. destruct (base p); [|reflexivity]. destruct (attach _ _ _); [subst f1; apply IH; exact H|reflexivity].
Qed.
Lemma parse_mono f f' h p : f <= f' -> parse tab tok eof start entry btest base f h p <> Out -> parse tab tok eof start entry btest base f' h p = parse tab tok eof start entry btest base f h p.
Proof.
  intros L H. induction L as [|f' L IH]; [reflexivity|]. rewrite <- IH. unfold parse in *. destruct (entry (tok p)); [|reflexivity]. rewrite loop_mono; [reflexivity|].
  intros E. apply H. rewrite <- IH, E. reflexivity.
Qed.
Theorem parse_decides N fuel h p : over N -> N - p < fuel ->
  (exists h' n q t, parse tab tok eof start entry btest base fuel h p = Ret h' n q /\ expr p q t /\ ends q /\ ordered t /\ ast_of (cells h') t /\ raddr t = n /\ mem h h' (addrs t)) \/
  (parse tab tok eof start entry btest base fuel h p = No /\ forall q t, expr p q t -> ~ ends q).
Proof.
  intros FN L. pose proof (parse_ends N fuel h p FN L) as NO. pose proof (parse_ok fuel h p) as OK.
  destruct (parse tab tok eof start entry btest base fuel h p) as [? ?|h2 m q| | |] eqn:E; cbn [good_parse] in OK; try contradiction.
  - left. destruct OK as (t & OK). exists h2, m, q, t. split; [reflexivity|exact OK].
  - right. split; [reflexivity|]. intros q t X EQ. destruct (parse_reads h p q t X EQ) as (n & h2 & m & t' & R & _).
    specialize (R (S (n + fuel)) ltac:(lia)). rewrite (parse_mono fuel) in R by (try lia; congruence). congruence.
Qed.
End P.

(** ** One reading only
    An expression as a row of operands and operators. *)
Inductive item :=
| IOpd (t : tree)
| IPre (p : N) (i : nat)
| IPost (m : inf) (k : nat)
| IBin (m : inf) (k : nat)
| ITern (m : inf) (k : nat) (t : tree) (k2 : nat).
Fixpoint flat (t : tree) : list item :=
  match t with
  | TBase _ i j => [IOpd (TBase 0 i j)]
  | TPar i t j => [IOpd (TPar i (bare t) j)]
  | TPre _ p i t => IPre p i :: flat t
  | TPost _ m t k => flat t ++ [IPost m k]
  | TBin _ m l k r => flat l ++ IBin m k :: flat r
  | TTern _ m l k t k2 r => flat l ++ ITern m k (bare t) k2 :: flat r
  end.
Fixpoint cut (m : inf) (F : list frame) (t : tree) : tree * list frame :=
  match F with
  | f :: F' => if closes m (fprio f) then cut m F' (plugf f t) else (t, F)
  | [] => (t, [])
  end.
Definition shift (s : list frame * option tree) (x : item) : list frame * option tree :=
  match x, snd s with
  | IOpd t, _ => (fst s, Some t)
  | IPre p i, _ => (FPre 0 p i :: fst s, None)
  | IPost m k, Some t => let (t, F) := cut m (fst s) t in (F, Some (TPost 0 m t k))
  | IBin m k, Some t => let (t, F) := cut m (fst s) t in (FBin 0 m t k :: F, None)
  | ITern m k t2 k2, Some t => let (t, F) := cut m (fst s) t in (FTern 0 m t k t2 k2 :: F, None)
  | _, None => s
  end.
Lemma cut_app m G : forall F t, Forall (fun f => closes m (fprio f) = true) G -> ok_on F [m] -> cut m (G ++ F) t = (plug G t, F).
Proof.
  induction G as [|g G IH]; intros F t A B; cbn [app].
  - destruct F as [|f F]; [reflexivity|]. cbn [cut]. inversion B as [|x y Z _]. rewrite Z. reflexivity.
  - inversion A as [|x y Z A']; subst. cbn [cut]. rewrite Z. apply IH; assumption.
Qed.
Lemma shift_flat t : ordered t -> forall F, ok_on F (lefts t) ->
  exists G t', fold_left shift (flat t) (F, None) = (G ++ F, Some t') /\ plug G t' = bare t /\ (forall P : N -> Prop, Forall P (rights t) -> Forall (fun f => P (fprio f)) G).
Proof.
  assert (OK1 : forall F m l, ok_on F (m :: l) -> ok_on F [m] /\ ok_on F l).
  { intros [|f F] m l H; [split; exact I|]. inversion H; subst. split; [constructor; [assumption|constructor]|assumption]. }
  induction t as [a i j|i t IH j|a p i t IH|a m t IH k|a m l IHl k r IHr|a m l IHl k t IHt k2 r IHr]; intros O F K; cbn [flat bare ordered lefts rights] in *.
  - exists [], (TBase 0 i j). repeat split. intros; constructor.
  - exists [], (TPar i (bare t) j). repeat split. intros; constructor.
  - destruct O as (O & B). destruct (IH O (FPre 0 p i :: F) B) as (G & t' & E & P & R). exists (G ++ [FPre 0 p i]), t'. cbn [fold_left shift fst]. rewrite E, <- app_assoc. split; [reflexivity|].
    split; [rewrite plug_app, P; reflexivity|]. intros Q H. inversion H; subst. apply Forall_app. split; [apply R; assumption|constructor; [assumption|constructor]].
  - destruct O as (O & B). apply OK1 in K. destruct K as (K1 & K2). destruct (IH O F K2) as (G & t' & E & P & R). rewrite fold_left_app, E. cbn [fold_left shift fst snd].
    rewrite cut_app by (try assumption; exact (R _ B)). exists [], (TPost 0 m (plug G t') k). rewrite P. repeat split. intros; constructor.
  - destruct O as (O1 & O2 & B1 & B2). apply OK1 in K. destruct K as (K1 & K2). destruct (IHl O1 F K2) as (G & t' & E & P & R). rewrite fold_left_app, E. cbn [fold_left shift fst snd].
    rewrite cut_app by (try assumption; exact (R _ B1)). destruct (IHr O2 (FBin 0 m (plug G t') k :: F) B2) as (G2 & t2 & E2 & P2 & R2). exists (G2 ++ [FBin 0 m (plug G t') k]), t2.
    rewrite E2, <- app_assoc. split; [reflexivity|]. split; [rewrite plug_app, P2, P; reflexivity|]. intros Q H. inversion H; subst. apply Forall_app. split; [apply R2; assumption|constructor; [assumption|constructor]].
  - destruct O as (O1 & O0 & O2 & B1 & B2). apply OK1 in K. destruct K as (K1 & K2). destruct (IHl O1 F K2) as (G & t' & E & P & R). rewrite fold_left_app, E. cbn [fold_left shift fst snd].
    rewrite cut_app by (try assumption; exact (R _ B1)). destruct (IHr O2 (FTern 0 m (plug G t') k (bare t) k2 :: F) B2) as (G2 & t2 & E2 & P2 & R2). exists (G2 ++ [FTern 0 m (plug G t') k (bare t) k2]), t2.
    rewrite E2, <- app_assoc. split; [reflexivity|]. split; [rewrite plug_app, P2, P; reflexivity|]. intros Q H. inversion H; subst. apply Forall_app. split; [apply R2; assumption|constructor; [assumption|constructor]].
Qed.
Lemma flat_bare t t' : ordered t -> ordered t' -> flat t = flat t' -> bare t = bare t'.
Proof.
  intros O O' E. destruct (shift_flat t O [] I) as (G & u & A & B & _). destruct (shift_flat t' O' [] I) as (G' & u' & A' & B' & _).
  rewrite E, A', !app_nil_r in A. injection A as <- <-. congruence.
Qed.
Fixpoint size (t : tree) : nat :=
  match t with
  | TBase _ _ _ => 1
  | TPar _ t _ | TPre _ _ _ t | TPost _ _ t _ => S (size t)
  | TBin _ _ l _ r => S (size l + size r)
  | TTern _ _ l _ t _ r => S (size l + size t + size r)
  end.
Section U.
Variable tab : optab.
Variable tok : nat -> nat.
Variable eof : nat.
Variable start : bool.
Variable base : nat -> option nat.
Notation pre_at := (pre_at tab tok).
Notation post_at := (post_at tab tok).
Notation bin_at := (bin_at tab tok).
Notation tern_at := (tern_at tab tok).
Notation paren_at := (paren_at tab tok).
Notation expr := (expr tab tok eof start base).
Notation ends := (ends tab tok eof start).
(** From position i with or without a complete operand to position j. *)
Inductive chain (n : nat) (j : nat) : bool -> nat -> list item -> Prop :=
| c_nil : chain n j true j []
| c_base i k l : pre_at i = None -> paren_at i = None -> base i = Some k -> chain n j true k l -> chain n j false i (IOpd (TBase 0 i k) :: l)
| c_par i k t o c l : pre_at i = None -> paren_at i = Some (o, c) -> expr (S i) k t -> ends k -> ordered t -> size t < n -> chain n j true (S k) l ->
    chain n j false i (IOpd (TPar i (bare t) k) :: l)
| c_pre i e l : pre_at i = Some e -> chain n j false (S i) l -> chain n j false i (IPre (pprio e i) i :: l)
| c_post k e l : post_at k = Some e -> chain n j true (S k) l -> chain n j true k (IPost (imark e k) k :: l)
| c_bin k e l : post_at k = None -> bin_at k = Some e -> chain n j false (S k) l -> chain n j true k (IBin (imark e k) k :: l)
| c_tern k e k2 t l : post_at k = None -> bin_at k = None -> tern_at k = Some e -> expr (S k) k2 t -> ends k2 -> ordered t -> size t < n -> chain n j false (S k2) l ->
    chain n j true k (ITern (tmark e k) k (bare t) k2 :: l).
Lemma expr_chain n j i k t : expr i k t -> ordered t -> size t <= n -> forall l, chain n j true k l -> chain n j false i (flat t ++ l).
Proof.
  induction 1 as [i k a P1 P2 B|i k t o c P1 P2 X IH E HE|i k t a e P X IH|i k t a e X IH P|i k k' l r a e X1 IH1 P1 P2 X2 IH2|i k k2 k' l t r a e X1 IH1 P1 P2 P3 X2 IH2 E HE X3 IH3]; intros O Z ls C; cbn [ordered size flat] in *.
  - apply c_base; assumption.
  - eapply c_par; try eassumption. 
  - apply c_pre; [assumption|]. apply IH; [apply O|lia|exact C].
  - rewrite <- app_assoc. apply IH; [apply O|lia|]. apply c_post; assumption.
  - rewrite <- app_assoc. apply IH1; [apply O|lia|]. apply c_bin; try assumption. apply IH2; [apply O|lia|exact C].
  - rewrite <- app_assoc. apply IH1; [apply O|lia|]. apply c_tern; try assumption; [apply O|lia|]. apply IH3; [apply O|lia|exact C].
Qed.
Lemma chain_det n j j' : (forall i k k' t t', size t < n -> size t' < n -> expr i k t -> expr i k' t' -> ordered t -> ordered t' -> ends k -> ends k' -> k = k' /\ bare t = bare t') ->
  ends j -> ends j' -> forall b i l, chain n j b i l -> forall l', chain n j' b i l' -> j = j' /\ l = l'.
Proof.
  intros U (E1 & E2 & E3 & _) (E1' & E2' & E3' & _). induction 1 as [|i k l P1 P2 B C IH|i k t o c l P1 P2 X E O Z C IH|i e l P C IH|k e l P C IH|k e l P1 P2 C IH|k e k2 t l P1 P2 P3 X E O Z C IH]; intros l' C'.
  - inversion C'; subst; try congruence. split; reflexivity.
  - inversion C'; subst; try congruence. match goal with Y : chain _ _ true ?k0 _ |- _ => assert (k0 = k) by congruence; subst k0; destruct (IH _ Y) as (-> & ->) end. split; reflexivity.
  - inversion C' as [| |i' k' t' o' c' l0 Q1 Q2 X' E' O' Z' C0| | | |]; subst; try congruence. destruct (U _ _ _ _ _ Z Z' X X' O O' E E') as (<- & <-). destruct (IH _ C0) as (-> & ->). split; reflexivity.
  - inversion C'; subst; try congruence. match goal with Y : chain _ _ false (S i) _ |- _ => destruct (IH _ Y) as (-> & ->) end. split; congruence.
  - inversion C'; subst; try congruence. match goal with Y : chain _ _ true (S k) _ |- _ => destruct (IH _ Y) as (-> & ->) end. split; congruence.
  - inversion C'; subst; try congruence. match goal with Y : chain _ _ false (S k) _ |- _ => destruct (IH _ Y) as (-> & ->) end. split; congruence.
  - inversion C' as [| | | | | |k' e' k2' t' l0 Q1 Q2 Q3 X' E' O' Z' C0]; subst; try congruence. destruct (U _ _ _ _ _ Z Z' X X' O O' E E') as (<- & <-). destruct (IH _ C0) as (-> & ->). split; congruence.
Qed.
Lemma unique_n n : forall i k k' t t', size t < n -> size t' < n -> expr i k t -> expr i k' t' -> ordered t -> ordered t' -> ends k -> ends k' -> k = k' /\ bare t = bare t'.
Proof.
  induction n as [|n IH]; intros i k k' t t' Z Z' X X' O O' E E'; [lia|].
  destruct (chain_det n k k' IH E E' false i (flat t ++ []) (expr_chain n k i k t X O ltac:(lia) [] (c_nil _ _)) (flat t' ++ []) (expr_chain n k' i k' t' X' O' ltac:(lia) [] (c_nil _ _))) as (EK & EL).
  rewrite !app_nil_r in EL. split; [exact EK|]. apply flat_bare; assumption.
Qed.
Theorem expr_unique i k k' t t' : expr i k t -> expr i k' t' -> ordered t -> ordered t' -> ends k -> ends k' -> k = k' /\ bare t = bare t'.
Proof. apply (unique_n (S (size t + size t'))); lia. Qed.
End U.
