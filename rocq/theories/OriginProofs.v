(** Where the nodes made from a grammar file come from. *)
From Coq Require Import List Ascii String Bool PeanoNat Lia.
From Verif Require Import FlexModel GramModel.
From Verif Require Import GraphModel GraphProofs GrammarModel GrammarSpec.
Import ListNotations.
Open Scope list_scope.

(** An item and the items inside. *)
Fixpoint subs (i : GramModel.item) : list GramModel.item :=
  i :: match i with
       | GramModel.IPlus j | GramModel.IStar j | IAction j _ | ITryRecover j | IAnnotation _ _ _ j | ICondition _ j | IEvolve j _ _ _ => subs j
       | IAlternative j l | ICons j l | ITryRollback j l => subs j ++ subs l
       | IOperator _ b _ => [INonTerminal b []]
       | _ => []
       end.
Lemma subs_self i : In i (subs i).
Proof. destruct i; left; reflexivity. Qed.

(** The nodes of a chain of operators. *)
Definition op_toks (p : op) : list id := match p with OPre t | OPost t | OBin t => [t] | OTern t u | OParen t u => [t; u] end.
Definition link (P : id -> Prop) (x : node) : Prop := exists l r, (x = NAlt l r \/ x = NCons l r) /\ P l /\ P r.
Lemma link_imp (P Q : id -> Prop) x : (forall c, P c -> Q c) -> link P x -> link Q x.
Proof. intros H (l & r & E & A & B). exists l, r. auto. Qed.
Lemma chain_children top b : forall l o k x, nth_error (chain_nodes top b l o) k = Some x ->
  link (fun c => In c (flat_map op_toks l) \/ c = top \/ c = b \/ o <= c < o + len (chain_nodes top b l o)) x.
Proof.
  induction l as [|p l IH]; intros o k x E; cbn [chain_nodes] in E; [destruct k; discriminate |].
  assert (Ln : len (chain_nodes top b (p :: l) o) = S (len (spell top p (S o)) + len (chain_nodes top b l (S o + len (spell top p (S o)))))).
  { cbn [chain_nodes len]. rewrite app_length. reflexivity. }
  assert (Lp : len (spell top p (S o)) > 0) by (destruct p; cbn [spell len]; lia).
  destruct k as [|k]; cbn [nth_error] in E.
  - injection E as <-. exists (S o), (match l with [] => b | _ => S o + len (spell top p (S o)) end). split; [left; reflexivity |]. rewrite Ln. split; [right; right; right; lia |].
    destruct l as [|q l]; [tauto |]. right. right. right. cbn [chain_nodes len]. lia.
  - destruct (Nat.lt_ge_cases k (len (spell top p (S o)))) as [L | L].
    + rewrite nth_error_app1 in E by exact L. rewrite Ln. cbn [flat_map].
      destruct p as [t|t|t|t u|t u]; cbn [spell len op_toks] in *; do 4 (destruct k as [|k]; [cbn [nth_error] in E; injection E as <-; eexists _, _; split; [right; reflexivity |]; split; first [tauto | left; cbn; tauto | right; right; right; lia] | cbn [nth_error] in E; try discriminate E; try lia]); lia.
    + rewrite nth_error_app2 in E by exact L. specialize (IH _ _ _ E). eapply link_imp; [| exact IH]. cbn beta. intros c H. rewrite Ln. cbn [flat_map]. rewrite in_app_iff.
      destruct H as [H | [H | [H | H]]]; auto. right. right. right. lia.
Qed.

Section G.
Variable g : grammar.
Variable tid sid : text -> option id.
Variable base : nat.
Notation kind := (GrammarModel.kind g).
Notation sym := (sym_id sid).
Notation place := (place tid sid).
Notation rep := (rep g tid sid).
Notation known := (known tid sid).
Hypothesis Z0 : gzero g = 0.
Hypothesis Zk : kind 0 = NZero.
Hypothesis Zb : 0 < base.
Hypothesis Br : base <= gregular g.
Hypothesis HT : forall x t, tid x = Some t -> kind t = NTerm /\ mem t (gterms g) = true /\ t < base.
Hypothesis HS : forall x s, sid x = Some s -> kind s = NSym /\ s < base.
Notation sits := (sits g).

Definition plain_node (k : node) : Prop := forall b ops x, k <> NOper b ops x.
Lemma known_plain j n : known j -> rep j n -> plain_node (kind n).
Proof.
  intros K R b ops x E. destruct j; cbn [GraphProofs.known GraphProofs.rep] in *; try (destruct K; fail); repeat match type of R with exists _, _ => destruct R as [? R] | _ /\ _ => destruct R as [? R] end; try congruence.
  all: first [destruct (HT _ _ R) as [Kt _]; congruence | rewrite R in E; rewrite Zk in E; discriminate | idtac].
Qed.
(** Nodes made for loops and chains of operators. *)
Definition quiet (n : id) : Prop := link (fun c => plain_node (kind c)) (kind n).

Lemma place_origin : forall i, known i -> forall n o, base <= n -> gregular g <= o ->
  sits n (pin (place i n o)) -> sits o (pout (place i n o)) -> n + len (pin (place i n o)) <= gregular g -> o + len (pout (place i n o)) <= size g ->
  (forall k, n <= k < n + len (pin (place i n o)) -> exists j, In j (subs i) /\ known j /\ rep j k) /\
  (forall k, o <= k < o + len (pout (place i n o)) -> quiet k).
Proof.
  assert (OK : forall i, known i -> forall n o, base <= n -> gregular g <= o ->
    sits n (pin (place i n o)) -> sits o (pout (place i n o)) -> n + len (pin (place i n o)) <= gregular g -> o + len (pout (place i n o)) <= size g -> rep i (pid (place i n o))).
  { intros i Kn n o Bn Go St Su B C. exact (proj1 (place_ok g tid sid base Z0 Zk Zb Br HT HS i Kn n o Bn Go St Su B C)). }
  induction i as [|x d|s a|s|j IH|j IH|j IH c|c|j IHj l IHl|j IHj l IHl|j IH|j IHj l IHl|x sq m j IH|c j IH|nm b l|j IH s ds c|]; intros Kn n o Bn Go St Su B C;
    pose proof (OK _ Kn n o Bn Go St Su B C) as RR; pose proof Kn as Kn0; cbn [GraphProofs.known] in Kn; try (destruct Kn; fail); cbn [GraphModel.place] in *.
  - cbn [pin pout len]. split; intros k L; lia.
  - unfold place_token in *. destruct Kn as [t Et]. rewrite Et in *. cbn [fst pin pout len]. split; intros k L; lia.
  - cbn [pin pout pid len] in *. split; intros k L; [| lia]. replace k with n by lia. exists (INonTerminal s a). split; [apply subs_self | auto].
  - cbn [pin pout pid len] in *. split; intros k L; [| lia]. replace k with n by lia. exists (IInline s). split; [apply subs_self | auto].
  - cbn [pin pout pid] in *. destruct (sits_app _ _ _ _ St) as [St1 _]. destruct (sits_app _ _ _ _ Su) as [Su1 Su2]. rewrite app_length in B, C. cbn [len] in B, C.
    destruct (IH Kn n o Bn Go St1 Su1 ltac:(lia) ltac:(lia)) as [O1 O2]. pose proof (OK j Kn n o Bn Go St1 Su1 ltac:(lia) ltac:(lia)) as Rj. rewrite !app_length. cbn [len]. split.
    + intros k L. destruct (Nat.eq_dec k (n + len (pin (place j n o)))) as [-> | N]; [eexists; split; [left; reflexivity | auto] |]. destruct (O1 k ltac:(lia)) as (q & Iq & H). exists q. split; [right; exact Iq | exact H].
    + destruct (sits_cons _ _ _ _ Su2) as [Kc Su3]. destruct (sits_cons _ _ _ _ Su3) as [Ka _]. intros k L. destruct (Nat.lt_ge_cases k (o + len (pout (place j n o)))) as [N | N]; [apply O2; lia |].
      destruct (Nat.eq_dec k (o + len (pout (place j n o)))) as [-> | M].
      * unfold quiet. rewrite Kc. eexists _, _. split; [right; reflexivity |]. split; [exact (known_plain j _ Kn Rj) | intros ? ? ?; rewrite Ka; discriminate].
      * replace k with (S (o + len (pout (place j n o)))) by lia. unfold quiet. rewrite Ka. eexists _, _. split; [left; reflexivity |]. split; intros ? ? ?; [rewrite Zk | rewrite Kc]; discriminate.
  - cbn [pin pout pid] in *. destruct (sits_app _ _ _ _ St) as [St1 _]. destruct (sits_app _ _ _ _ Su) as [Su1 Su2]. rewrite app_length in B, C. cbn [len] in B, C.
    destruct (IH Kn n o Bn Go St1 Su1 ltac:(lia) ltac:(lia)) as [O1 O2]. pose proof (OK j Kn n o Bn Go St1 Su1 ltac:(lia) ltac:(lia)) as Rj. rewrite !app_length. cbn [len]. split.
    + intros k L. destruct (Nat.eq_dec k (n + len (pin (place j n o)))) as [-> | N]; [eexists; split; [left; reflexivity | auto] |]. destruct (O1 k ltac:(lia)) as (q & Iq & H). exists q. split; [right; exact Iq | exact H].
    + destruct (sits_cons _ _ _ _ Su2) as [Kc Su3]. destruct (sits_cons _ _ _ _ Su3) as [Ka _]. intros k L. destruct (Nat.lt_ge_cases k (o + len (pout (place j n o)))) as [N | N]; [apply O2; lia |].
      destruct (Nat.eq_dec k (o + len (pout (place j n o)))) as [-> | M].
      * unfold quiet. rewrite Kc. eexists _, _. split; [right; reflexivity |]. split; [exact (known_plain j _ Kn Rj) | intros ? ? ?; rewrite Ka; discriminate].
      * replace k with (S (o + len (pout (place j n o)))) by lia. unfold quiet. rewrite Ka. eexists _, _. split; [left; reflexivity |]. split; intros ? ? ?; [rewrite Zk | rewrite Kc]; discriminate.
  - cbn [pin pout pid] in *. destruct (sits_app _ _ _ _ St) as [St1 _]. rewrite app_length in B. cbn [len] in B.
    destruct (IH Kn n o Bn Go St1 Su ltac:(lia) ltac:(lia)) as [O1 O2]. rewrite !app_length. cbn [len]. split; [| exact O2].
    intros k L. destruct (Nat.eq_dec k (n + len (pin (place j n o)))) as [-> | N]; [eexists; split; [left; reflexivity | auto] |]. destruct (O1 k ltac:(lia)) as (q & Iq & H). exists q. split; [right; exact Iq | exact H].
  - cbn [pin pout pid len] in *. split; intros k L; [| lia]. replace k with n by lia. exists (ICode c). split; [apply subs_self | auto].
  - cbn [pin pout pid] in *. destruct (sits_app _ _ _ _ St) as [St1 St2]. destruct (sits_app _ _ _ _ St2) as [St3 _]. destruct (sits_app _ _ _ _ Su) as [Su1 Su2]. rewrite !app_length in B. rewrite !app_length in C. cbn [len] in B. destruct Kn as [K1 K2].
    destruct (IHj K1 n o Bn Go St1 Su1 ltac:(lia) ltac:(lia)) as [O1 O2]. destruct (IHl K2 (n + len (pin (place j n o))) (o + len (pout (place j n o))) ltac:(lia) ltac:(lia) St3 Su2 ltac:(lia) ltac:(lia)) as [O3 O4]. rewrite !app_length. cbn [len]. split.
    + intros k L. destruct (Nat.lt_ge_cases k (n + len (pin (place j n o)))) as [N | N]; [destruct (O1 k ltac:(lia)) as (q & Iq & H); exists q; split; [right; apply in_app_iff; left; exact Iq | exact H] |].
      destruct (Nat.lt_ge_cases k (n + len (pin (place j n o)) + len (pin (place l (n + len (pin (place j n o))) (o + len (pout (place j n o))))))) as [M | M]; [destruct (O3 k ltac:(lia)) as (q & Iq & H); exists q; split; [right; apply in_app_iff; right; exact Iq | exact H] |].
      match type of RR with GraphProofs.rep _ _ _ _ ?m => replace k with m by lia end. eexists. split; [left; reflexivity | auto].
    + intros k L. destruct (Nat.lt_ge_cases k (o + len (pout (place j n o)))) as [N | N]; [apply O2; lia | apply O4; lia].
  - cbn [pin pout pid] in *. destruct (sits_app _ _ _ _ St) as [St1 St2]. destruct (sits_app _ _ _ _ St2) as [St3 _]. destruct (sits_app _ _ _ _ Su) as [Su1 Su2]. rewrite !app_length in B. rewrite !app_length in C. cbn [len] in B. destruct Kn as [K1 K2].
    destruct (IHj K1 n o Bn Go St1 Su1 ltac:(lia) ltac:(lia)) as [O1 O2]. destruct (IHl K2 (n + len (pin (place j n o))) (o + len (pout (place j n o))) ltac:(lia) ltac:(lia) St3 Su2 ltac:(lia) ltac:(lia)) as [O3 O4]. rewrite !app_length. cbn [len]. split.
    + intros k L. destruct (Nat.lt_ge_cases k (n + len (pin (place j n o)))) as [N | N]; [destruct (O1 k ltac:(lia)) as (q & Iq & H); exists q; split; [right; apply in_app_iff; left; exact Iq | exact H] |].
      destruct (Nat.lt_ge_cases k (n + len (pin (place j n o)) + len (pin (place l (n + len (pin (place j n o))) (o + len (pout (place j n o))))))) as [M | M]; [destruct (O3 k ltac:(lia)) as (q & Iq & H); exists q; split; [right; apply in_app_iff; right; exact Iq | exact H] |].
      match type of RR with GraphProofs.rep _ _ _ _ ?m => replace k with m by lia end. eexists. split; [left; reflexivity | auto].
    + intros k L. destruct (Nat.lt_ge_cases k (o + len (pout (place j n o)))) as [N | N]; [apply O2; lia | apply O4; lia].
  - cbn [pin pout pid] in *. destruct (sits_app _ _ _ _ St) as [St1 _]. rewrite app_length in B. cbn [len] in B.
    destruct (IH Kn n o Bn Go St1 Su ltac:(lia) ltac:(lia)) as [O1 O2]. rewrite !app_length. cbn [len]. split; [| exact O2].
    intros k L. destruct (Nat.eq_dec k (n + len (pin (place j n o)))) as [-> | N]; [eexists; split; [left; reflexivity | auto] |]. destruct (O1 k ltac:(lia)) as (q & Iq & H). exists q. split; [right; exact Iq | exact H].
  - cbn [pin pout pid] in *. destruct (sits_app _ _ _ _ St) as [St1 St2]. destruct (sits_app _ _ _ _ St2) as [St3 _]. destruct (sits_app _ _ _ _ Su) as [Su1 Su2]. rewrite !app_length in B. rewrite !app_length in C. cbn [len] in B. destruct Kn as [K1 K2].
    destruct (IHj K1 n o Bn Go St1 Su1 ltac:(lia) ltac:(lia)) as [O1 O2]. destruct (IHl K2 (n + len (pin (place j n o))) (o + len (pout (place j n o))) ltac:(lia) ltac:(lia) St3 Su2 ltac:(lia) ltac:(lia)) as [O3 O4]. rewrite !app_length. cbn [len]. split.
    + intros k L. destruct (Nat.lt_ge_cases k (n + len (pin (place j n o)))) as [N | N]; [destruct (O1 k ltac:(lia)) as (q & Iq & H); exists q; split; [right; apply in_app_iff; left; exact Iq | exact H] |].
      destruct (Nat.lt_ge_cases k (n + len (pin (place j n o)) + len (pin (place l (n + len (pin (place j n o))) (o + len (pout (place j n o))))))) as [M | M]; [destruct (O3 k ltac:(lia)) as (q & Iq & H); exists q; split; [right; apply in_app_iff; right; exact Iq | exact H] |].
      match type of RR with GraphProofs.rep _ _ _ _ ?m => replace k with m by lia end. eexists. split; [left; reflexivity | auto].
    + intros k L. destruct (Nat.lt_ge_cases k (o + len (pout (place j n o)))) as [N | N]; [apply O2; lia | apply O4; lia].
  - cbn [pin pout pid] in *. destruct (sits_app _ _ _ _ St) as [St1 _]. rewrite app_length in B. cbn [len] in B.
    destruct (IH Kn n o Bn Go St1 Su ltac:(lia) ltac:(lia)) as [O1 O2]. rewrite !app_length. cbn [len]. split; [| exact O2].
    intros k L. destruct (Nat.eq_dec k (n + len (pin (place j n o)))) as [-> | N]; [eexists; split; [left; reflexivity | auto] |]. destruct (O1 k ltac:(lia)) as (q & Iq & H). exists q. split; [right; exact Iq | exact H].
  - cbn [pin pout pid] in *. destruct (sits_app _ _ _ _ St) as [St1 _]. rewrite app_length in B. cbn [len] in B.
    destruct (IH Kn n o Bn Go St1 Su ltac:(lia) ltac:(lia)) as [O1 O2]. rewrite !app_length. cbn [len]. split; [| exact O2].
    intros k L. destruct (Nat.eq_dec k (n + len (pin (place j n o)))) as [-> | N]; [eexists; split; [left; reflexivity | auto] |]. destruct (O1 k ltac:(lia)) as (q & Iq & H). exists q. split; [right; exact Iq | exact H].
Qed.

(** A node of rule [i], whose own node is [e]. *)
Definition origin (i : GramModel.item) (e k : id) : Prop :=
  (exists j, In j (subs i) /\ known j /\ rep j k) \/
  (exists nm b l s ds c, i = IEvolve (IOperator nm b l) s ds c /\ rep (IOperator nm b l) k /\ kind e = NEvolve k (sym s)) \/
  k = e.
Lemma rule_origin i : known_rule tid sid i -> forall n o, base <= n -> gregular g <= o ->
  let p := place i n o in
  sits n (pin p) -> sits o (pout p) -> n + len (pin p) <= gregular g -> o + len (pout p) <= size g ->
  (forall k, n <= k < n + len (pin p) -> origin i (pid p) k) /\ (forall k, o <= k < o + len (pout p) -> quiet k).
Proof.
  destruct i as [|x d|s a|s|j|j|j c|c|j l|j l|j|j l|x sq m j|c j|nm b l|j s ds c|]; intros Kn; cbn [known_rule] in Kn; try (destruct Kn; fail).
  intros n o Bn Go p St Su B C. unfold p in *. clear p.
  destruct (match j with IOperator _ _ _ => true | _ => false end) eqn:Ej.
  - destruct j; try discriminate Ej. destruct Kn as (K1 & Kb & Ks). cbn [GraphModel.place] in *. destruct (place_operators_known tid _ n K1) as (os & E & R).
    rewrite E in *. cbn [fst snd app pin pout pid List.length] in *. rewrite Nat.add_0_r in *.
    destruct (sits_cons _ _ _ _ St) as [Kn St2]. destruct (sits_cons _ _ _ _ St2) as [Ko St3]. destruct (sits_cons _ _ _ _ St3) as [Ke _].
    replace (n + 2) with (S (S n)) in * by lia. split.
    + intros k L. destruct (Nat.eq_dec k n) as [-> | N]; [left; exists (INonTerminal base0 []); split; [right; right; left; reflexivity | split; [exact Kb | exact Kn]] |].
      destruct (Nat.eq_dec k (S n)) as [-> | N2]; [| right; right; lia]. right. left. exists name, base0, ops, s, ds, c. split; [reflexivity |]. split; [| exact Ke].
      cbn [GraphProofs.rep]. eauto 8.
    + destruct os as [|p os]; [cbn [chain_nodes len]; intros; lia |]. set (ch := chain_nodes o n (p :: os) o) in *.
      assert (W : forall k, o <= k < o + len ch -> exists x, nth_error ch (k - o) = Some x /\ kind k = x).
      { intros k L. destruct (nth_error ch (k - o)) as [x|] eqn:Ex; [| apply nth_error_None in Ex; lia]. exists x. split; [reflexivity |]. rewrite <- (Su _ _ Ex). f_equal. lia. }
      assert (P : forall k, o <= k < o + len ch -> plain_node (kind k)).
      { intros k L. destruct (W k L) as (x & Ex & ->). destruct (chain_children _ _ _ _ _ _ Ex) as (l & r & [-> | ->] & _); unfold plain_node; discriminate. }
      intros k L. destruct (W k L) as (x & Ex & Kx). unfold quiet. rewrite Kx. eapply link_imp; [| exact (chain_children _ _ _ _ _ _ Ex)]. cbn beta.
      fold ch. intros cc [H | [-> | [-> | H]]]; [| apply P; unfold ch; cbn [chain_nodes len]; lia | unfold plain_node; rewrite Kn; discriminate | apply P; exact H].
      pose proof (reps_ok g tid base Z0 Zb Br HT _ _ R) as OK. rewrite Forall_forall in OK. apply in_flat_map in H. destruct H as (q & Iq & It). specialize (OK q Iq).
      assert (T : forall t, tok_ok g t -> plain_node (kind t)). { intros t (T & _). unfold is_tok, is_term in T. apply andb_true_iff in T. destruct T as [_ T]. unfold plain_node. destruct (kind t); discriminate. }
      destruct q; cbn [op_toks op_ok In] in *; destruct It as [<- | It]; try (apply T; tauto); destruct It as [<- | []]; apply T; tauto.
  - assert (Kj : known j) by (destruct j; try discriminate Ej; apply Kn).
    cbn [GraphModel.place pin pout pid] in *. destruct (sits_app _ _ _ _ St) as [St1 St2]. rewrite app_length in *. cbn [len] in *.
    destruct (place_origin j Kj n o Bn Go St1 Su ltac:(lia) ltac:(lia)) as [O1 O2]. split; [| exact O2].
    intros k L. destruct (Nat.eq_dec k (n + len (pin (place j n o)))) as [-> | N]; [right; right; reflexivity |]. left. destruct (O1 k ltac:(lia)) as (q & Iq & H). exists q. split; [right; exact Iq | exact H].
Qed.
Lemma rules_origin : forall l n o, Forall (known_rule tid sid) l -> base <= n -> gregular g <= o ->
  let q := place_rules tid sid l n o in
  sits n (fst (fst q)) -> sits o (snd (fst q)) -> n + len (fst (fst q)) <= gregular g -> o + len (snd (fst q)) <= size g ->
  (forall k, n <= k < n + len (fst (fst q)) -> exists i e, In i l /\ In e (snd q) /\ rep i e /\ origin i e k) /\ (forall k, o <= k < o + len (snd (fst q)) -> quiet k).
Proof.
  induction l as [|i l IH]; intros n o F Bn Go q St Su B C; unfold q in *; clear q; cbn [place_rules fst snd] in *.
  - split; intros k Lk; cbn [len] in Lk; lia.
  - pose proof (Forall_inv F) as Ki. pose proof (Forall_inv_tail F) as Fl. destruct (sits_app _ _ _ _ St) as [St1 St2]. destruct (sits_app _ _ _ _ Su) as [Su1 Su2]. rewrite app_length in B, C.
    destruct (rule_origin i Ki n o Bn Go St1 Su1 ltac:(lia) ltac:(lia)) as (R1 & R2).
    destruct (rule_place_ok g tid sid base Z0 Zk Zb Br HT HS i Ki n o Bn Go St1 Su1 ltac:(lia) ltac:(lia)) as (RI & _).
    destruct (IH (n + len (pin (place i n o))) (o + len (pout (place i n o))) Fl ltac:(lia) ltac:(lia) St2 Su2 ltac:(lia) ltac:(lia)) as (R3 & R4).
    rewrite !app_length. split; intros k Lk.
    + destruct (Nat.lt_ge_cases k (n + len (pin (place i n o)))) as [N | N]; [exists i, (pid (place i n o)); split; [left; reflexivity |]; split; [left; reflexivity |]; split; [exact RI | apply R1; lia] |].
      destruct (R3 k ltac:(lia)) as (i' & e & I1 & I2 & I3 & I4). exists i', e. split; [right; exact I1 |]. split; [right; exact I2 |]. auto.
    + destruct (Nat.lt_ge_cases k (o + len (pout (place i n o)))); [apply R2; lia | apply R4; lia].
Qed.
End G.
