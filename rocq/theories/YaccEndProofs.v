(** Parsers end, and stop at the first token that no sentence goes on with; what is found
    does not depend on what is not read. *)
From Coq Require Import List NArith PeanoNat Bool Lia Wf_nat.
From Verif Require Import YaccModel YaccSpec YaccProofs.
Import ListNotations.

Section E.
Variable ps : list prod.
Variable tbl : table.
Variable eoi nt : N.
Variable V W : Type.
Variable sem : N -> list V -> list V -> W -> option (V * W).
Hypothesis ok : table_ok ps tbl eoi = true.
Notation nxt := (next tbl).
Notation run := (parse ps tbl eoi V W sem).

(** ** The end *)
Variable depth : nat.
Hypothesis settled : settle_ok ps tbl eoi nt depth = true.

Inductive linked : stack V -> Prop :=
| lk_nil : linked []
| lk_cons k s v x : linked k -> nxt (top V k) x = Some s -> linked ((s, v) :: k).
Lemma linked_skipn n : forall k, linked k -> linked (skipn n k).
Proof.
  induction n as [| n IH]; intros k K; [exact K |]. destruct K; [constructor | cbn; apply IH; assumption].
Qed.

Definition ends (k : stack V) (w : W) (rest : list (N * V)) : Prop := exists n, run n k w rest <> NoFuel V W.
Definition ahead (rest : list (N * V)) : N := match rest with [] => eoi | (t, _) :: _ => t end.

Lemma ends_more k w rest k' w' rest' : move ps tbl eoi V W sem k w rest = More V W k' w' rest' -> ends k' w' rest' -> ends k w rest.
Proof. intros M [n H]. exists (S n). cbn [parse]. rewrite M. exact H. Qed.
Lemma ends_now k w rest r : move ps tbl eoi V W sem k w rest = Ends V W r -> r <> NoFuel V W -> ends k w rest.
Proof. intros M H. exists 1. cbn [parse]. rewrite M. exact H. Qed.

Lemma top_app st k : hd (top V k) (map fst st) = top V (st ++ k).
Proof. destruct st as [| [s v] st]; reflexivity. Qed.

Lemma settles_ends f : forall st k w rest,
  settles ps tbl eoi f (ahead rest) (top V k) (map fst st) = true -> linked (st ++ k) -> linked k ->
  (forall k2 w2 rest2, length rest2 < length rest -> linked k2 -> Forall (fun x => (fst x < nt)%N) rest2 -> ends k2 w2 rest2) ->
  (k <> [] -> forall k2 w2, length k2 <= length k -> linked k2 -> ends k2 w2 rest) ->
  Forall (fun x => (fst x < nt)%N) rest -> ends (st ++ k) w rest.
Proof.
  induction f as [| f IH]; intros st k w rest H L Lk H1 H2 F; cbn [settles] in H; [discriminate |].
  rewrite top_app in H. unfold ahead in H.
  destruct (move ps tbl eoi V W sem (st ++ k) w rest) as [k' w' rest' | r] eqn:M; [| eapply ends_now; [exact M |]].
  - eapply ends_more; [exact M |]. unfold move in M.
    destruct (act tbl eoi (top V (st ++ k)) (match rest with [] => eoi | (t, _) :: _ => t end)) as [s | p | |] eqn:A.
    + destruct rest as [| [t v] rest]; [discriminate |]. injection M as <- <- <-.
      inversion F; subst. apply H1; [cbn; lia | | assumption]. unfold act in A.
      destruct (nxt (top V (st ++ k)) (T t)) as [s' |] eqn:X; [| destruct (reduction tbl _ _); discriminate].
      destruct (N.eqb t eoi); [discriminate |]. injection A as ->. eapply lk_cons; eassumption.
    + destruct (sem p _ _ w) as [[v w2] |]; [| discriminate].
      destruct (nxt (top V (skipn (len ps p) (st ++ k))) (NT (lhs (prod_at ps p)))) as [s |] eqn:X; [| discriminate].
      injection M as <- <- <-. rewrite map_length in H. destruct (Nat.leb_spec (len ps p) (length st)) as [Le | Le].
      * rewrite skipn_app in X |- *. replace (len ps p - length st) with 0 in * by lia. cbn [skipn] in X |- *.
        rewrite skipn_map in H. rewrite top_app in H. rewrite X in H.
        change ((s, v) :: skipn (len ps p) st ++ k) with (((s, v) :: skipn (len ps p) st) ++ k).
        apply IH; try assumption. cbn [app]. eapply lk_cons; [| exact X].
        replace (skipn (len ps p) st ++ k) with (skipn (len ps p) (st ++ k)); [apply linked_skipn, L |].
        rewrite skipn_app. replace (len ps p - length st) with 0 by lia. reflexivity.
      * assert (Nk : k <> []). { intros ->. cbn in H. discriminate. }
        apply H2; [exact Nk | |].
        -- cbn [length]. rewrite skipn_length, app_length. destruct k; [contradiction |]. cbn [length]. lia.
        -- eapply lk_cons; [apply linked_skipn, L | exact X].
    + destruct (st ++ k) as [| [? ?] [| ]]; discriminate.
    + discriminate.
  - unfold move in M. destruct (act tbl eoi (top V (st ++ k)) _) as [s | p | |].
    + destruct rest as [| [t v] rest]; [injection M as <-; discriminate | discriminate M].
    + destruct (sem p _ _ w) as [[v w2] |]; [| injection M as <-; discriminate].
      destruct (nxt (top V (skipn (len ps p) (st ++ k))) (NT (lhs (prod_at ps p)))); [discriminate M | injection M as <-; discriminate].
    + destruct (st ++ k) as [| [? ?] [| ]]; injection M as <-; discriminate.
    + injection M as <-. discriminate.
Qed.

Hypothesis eoi_small : (eoi < nt)%N.
Lemma ahead_small rest : Forall (fun x => (fst x < nt)%N) rest -> (ahead rest < nt)%N.
Proof. intro F. destruct rest as [| [t v] rest]; [exact eoi_small |]. inversion F; subst. assumption. Qed.

Theorem parse_ends rest : forall k w, linked k -> Forall (fun x => (fst x < nt)%N) rest -> ends k w rest.
Proof.
  induction rest as [rest IHr] using (induction_ltof1 _ (@length (N * V))). unfold ltof in IHr.
  induction k as [k IHk] using (induction_ltof1 _ (@length (N * V))). unfold ltof in IHk. intros w L F.
  pose proof settled as C. unfold settle_ok in C. rewrite forallb_forall in C.
  specialize (C (ahead rest) (proj2 (in_range _ _) (ahead_small _ F))). apply andb_true_iff in C as [C0 C].
  destruct L as [| k s v x L X].
  - change (@nil (N * V)) with (@nil (N * V) ++ []) at 1. eapply settles_ends; try exact C0; try constructor; try assumption.
    + intros; apply IHr; assumption.
    + intro Hn; contradiction Hn; reflexivity.
  - change ((s, v) :: k) with ([(s, v)] ++ k). rewrite forallb_forall in C.
    specialize (C _ (nxt_state _ _ _ _ X)). rewrite forallb_forall in C. specialize (C _ (nxt_in _ _ _ _ X)). cbn [snd] in C.
    eapply settles_ends; [exact C | econstructor; eassumption | exact L | | | exact F].
    + intros; apply IHr; assumption.
    + intros _ k2 w2 H2 L2. apply IHk; [cbn [length]; lia | exact L2 | exact F].
Qed.

(** ** Viable prefixes *)
Hypothesis just : just_ok ps tbl = true.
Hypothesis prodv : productive_ok ps = true.
Variable v0 : V.
Notation trees := (trees_of ps V).
Notation tree_ := (tree_of ps V).

Definition textual (x : sym) : Prop := exists t u, tree_ x t u.
Lemma texts l : (forall x, In x l -> textual x) -> exists m u, trees l m u.
Proof.
  induction l as [| x l IH]; intro H; [exists [], []; constructor |].
  destruct (H x (or_introl eq_refl)) as (t & u & Ht). destruct IH as (m & u' & Hm); [intros y I; apply H; right; exact I |].
  exists (t :: m), (u ++ u'). constructor; assumption.
Qed.
Lemma makes_textual l : forall d, (forall p, In p l -> (p < N.of_nat (length ps))%N) -> (forall n, In n d -> textual (NT n)) ->
  forall n, In n (makes ps d l) -> textual (NT n).
Proof.
  induction l as [| p l IH]; intros d Hl Hd; cbn [makes]; [exact Hd |].
  destruct (forallb _ _) eqn:E; apply IH; try (intros q I; apply Hl; right; exact I); [| exact Hd].
  intros n [<- | I]; [| apply Hd, I]. rewrite forallb_forall in E.
  destruct (texts (rhs (prod_at ps p))) as (m & u & Hm).
  - intros [t | n] I; [exists (Leaf t v0), [(t, v0)]; constructor |]. specialize (E _ I). cbn in E.
    apply existsb_exists in E as (y & Iy & Ey). apply N.eqb_eq in Ey. subst y. apply Hd, Iy.
  - exists (Node p m), u. econstructor; [| exact Hm]. apply prod_at_nth. specialize (Hl p (or_introl eq_refl)). lia.
Qed.
Lemma again_textual f : forall d, (forall n, In n d -> textual (NT n)) -> forall n, In n (makes_again ps f d) -> textual (NT n).
Proof.
  induction f as [| f IH]; intros d Hd; cbn [makes_again]; [exact Hd |]. apply IH. apply makes_textual; [| exact Hd].
  intros p I. apply in_range, I.
Qed.
Lemma all_textual p x : In x (rhs (prod_at ps p)) -> textual x.
Proof.
  intro I. destruct x as [t | n]; [exists (Leaf t v0), [(t, v0)]; constructor |].
  pose proof prodv as P. unfold productive_ok in P. cbv zeta in P. rewrite forallb_forall in P.
  destruct (Nat.lt_ge_cases (N.to_nat p) (length ps)) as [L | L].
  - assert (Ip : In (prod_at ps p) ps) by (apply nth_In; exact L).
    specialize (P _ Ip). rewrite forallb_forall in P. specialize (P _ I). cbv beta iota in P.
    apply existsb_exists in P as (y & Iy & Ey). apply N.eqb_eq in Ey. subst y.
    refine (again_textual 20 [] _ n Iy). intros m [].
  - unfold prod_at in I. rewrite nth_overflow in I by exact L. destruct I.
Qed.

Lemma justified_spec l1 : forall seen i l2, justified ps seen (l1 ++ i :: l2) = true -> snd i = 0%N -> fst i <> 0%N ->
  exists c, In c (seen ++ l1) /\ calls ps c i = true.
Proof.
  induction l1 as [| x l1 IH]; intros seen i l2 H Z N0; cbn [app justified] in H; apply andb_true_iff in H as [H1 H2].
  - rewrite Z in H1. cbn in H1. apply orb_true_iff in H1 as [H1 | H1]; [apply N.eqb_eq in H1; contradiction |].
    apply existsb_exists in H1 as (c & Ic & Ec). exists c. rewrite app_nil_r. auto.
  - destruct (IH _ _ _ H2 Z N0) as (c & Ic & Ec). exists c. split; [| exact Ec].
    apply in_or_app. cbn in Ic. destruct Ic as [<- | Ic]; [right; left; reflexivity |].
    apply in_app_or in Ic as [Ic | Ic]; [left; exact Ic | right; right; exact Ic].
Qed.
Definition order (s : N) : list item := let l := items (state_at tbl s) in ordered ps (length l) [] l.
Lemma order_ok s : In s (states tbl) -> justified ps [] (order s) = true /\ (forall i, In i (items (state_at tbl s)) <-> In i (order s)) /\ items (state_at tbl s) <> [].
Proof.
  intro I. pose proof just as J. unfold just_ok in J. rewrite forallb_forall in J. specialize (J _ I). cbv zeta in J.
  rewrite !andb_true_iff in J. destruct J as [[[J1 J2] J3] J4]. rewrite forallb_forall in J2, J3. fold (order s) in *.
  repeat split.
  - exact J1.
  - intro H. apply mem_item_in, J2, H.
  - intro H. apply mem_item_in, J3, H.
  - destruct (items (state_at tbl s)); [discriminate | intro; discriminate].
Qed.

Variable w0 : W.
Notation stk := (stk ps tbl eoi V W sem w0).

Lemma viable h : forall k u w l1 p d l2 z m, stk k u w -> length k = h -> order (top V k) = l1 ++ (p, d) :: l2 ->
  trees (behind ps (p, d)) m z -> exists v l, trees (rhs (prod_at ps 0)) l (u ++ z ++ v).
Proof.
  induction h as [h IHh] using lt_wf_ind. intros k u w l1. revert k u w.
  induction l1 as [l1 IHl] using (induction_ltof1 _ (@length item)). unfold ltof in IHl.
  intros k u w p d l2 z m K Hh O Tm.
  assert (Ip : In (p, d) (items (state_at tbl (top V k)))).
  { destruct (in_dec N.eq_dec (top V k) (states tbl)) as [Is | Is].
    - apply (order_ok _ Is). rewrite O. apply in_elt.
    - exfalso. assert (E : state_at tbl (top V k) = State [] [] []).
      { unfold state_at. apply nth_overflow. unfold states in Is. rewrite in_range in Is. lia. }
      unfold order in O. rewrite E in O. cbn in O. destruct l1; discriminate. }
  rewrite <- (Nnat.N2Nat.id d) in Ip.
  destruct (pop _ _ _ ok _ _ _ _ _ _ _ _ _ K Ip) as (u0 & wa & l & u1 & K' & Ts & _ & -> & I0 & Ld & Lr & _).
  assert (Full : trees (rhs (prod_at ps p)) (l ++ m) (u1 ++ z)).
  { rewrite <- (firstn_skipn (N.to_nat d) (rhs (prod_at ps p))). apply trees_app; [exact Ts | exact Tm]. }
  destruct (N.eq_dec p 0) as [-> | Np].
  - apply (first_is_bottom _ _ _ ok) in I0.
    destruct (skipn (N.to_nat d) k) as [| [s v] k'] eqn:Ek.
    + inversion K'; subst. exists [], (l ++ m). rewrite app_nil_r. exact Full.
    + inversion K' as [| ? ? ? ? ? ? ? ? ? ? Nx]; subst. cbn in I0. apply (nxt_nonzero _ _ _ ok) in Nx as [Nz _]. contradiction.
  - pose proof (item_in _ _ _ ok _ _ _ I0) as Lp.
    assert (Tp : tree_ (NT (lhs (prod_at ps p))) (Node p (l ++ m)) (u1 ++ z)) by (econstructor; [apply prod_at_nth, Lp | exact Full]).
    assert (Is : In (top V (skipn (N.to_nat d) k)) (states tbl)) by (apply state_in; eauto).
    destruct (order_ok _ Is) as (J & Oi & _).
    assert (D : exists a b, order (top V (skipn (N.to_nat d) k)) = a ++ (p, 0%N) :: b /\
                  (length (skipn (N.to_nat d) k) < h \/ skipn (N.to_nat d) k = k /\ length a <= length l1)).
    { destruct (N.eq_dec d 0) as [-> | Nd].
      - exists l1, l2. cbn [N.to_nat skipn]. split; [exact O | right; split; [reflexivity | apply Nat.le_refl]].
      - apply Oi, in_split in I0 as (a & b & E). exists a, b. split; [exact E | left]. rewrite skipn_length. lia. }
    destruct D as (a & b & E & D). rewrite E in J.
    destruct (justified_spec _ _ _ _ J eq_refl Np) as (c & Ic & Ec). cbn [app] in Ic.
    apply in_split in Ic as (a1 & a2 & ->). unfold calls in Ec. cbn [fst] in Ec. destruct c as [q e].
    destruct (behind ps (q, e)) as [| x beta] eqn:B; [discriminate |]. apply sym_eqb_eq in Ec. subst x.
    assert (Hb : exists mb zb, trees beta mb zb).
    { apply texts. intros y Iy. apply (all_textual q). unfold behind in B. cbn [fst snd] in B.
      assert (In y (skipn (N.to_nat e) (rhs (prod_at ps q)))) by (rewrite B; right; exact Iy).
      rewrite <- (firstn_skipn (N.to_nat e)). apply in_or_app. right. assumption. }
    destruct Hb as (mb & zb & Hb).
    assert (Tq : trees (behind ps (q, e)) (Node p (l ++ m) :: mb) ((u1 ++ z) ++ zb)) by (rewrite B; constructor; assumption).
    rewrite <- app_assoc in E. cbn [app] in E.
    assert (G : exists v l, trees (rhs (prod_at ps 0)) l (u0 ++ ((u1 ++ z) ++ zb) ++ v)).
    { destruct D as [D | [D1 D2]].
      - eapply IHh; [exact D | exact K' | reflexivity | exact E | exact Tq].
      - rewrite D1 in K', E. eapply IHl; [| exact K' | exact Hh | exact E | exact Tq]. rewrite app_length in D2. cbn [length] in D2. lia. }
    destruct G as (v & l' & G). exists (zb ++ v), l'. rewrite <- !app_assoc. rewrite <- !app_assoc in G. exact G.
Qed.

Lemma prefix_cut (u z x : list (N * V)) e : u ++ z = x ++ [e] -> ~ In (fst e) (map fst u) -> exists z', x = u ++ z'.
Proof.
  revert x. induction u as [| a u IH]; intros x H N0; [exists x; reflexivity |].
  destruct x as [| b x]; cbn in H; injection H as -> H.
  - exfalso. apply N0. left. reflexivity.
  - destruct (IH x H) as [z' ->]; [intro I; apply N0; right; exact I |]. exists z'. reflexivity.
Qed.

Lemma stk_prefix k u w : stk k u w -> ~ In eoi (map fst u) -> exists v, sentence ps V (u ++ v).
Proof.
  intros K Ne. assert (Is : In (top V k) (states tbl)).
  { destruct K as [| k u w s v x t u1 w1 K X]; cbn [top].
    - unfold states. apply in_range. pose proof ok as H. unfold table_ok in H. rewrite !andb_true_iff in H. destruct H as [_ H].
      apply negb_true_iff, N.eqb_neq in H. lia.
    - apply (nxt_nonzero _ _ _ ok) in X. apply X. }
  destruct (order_ok _ Is) as (_ & Oi & Nn). destruct (items (state_at tbl (top V k))) as [| [p d] its] eqn:Ei; [contradiction |].
  assert (I : In (p, d) (order (top V k))) by (apply Oi; left; reflexivity).
  apply in_split in I as (l1 & l2 & E).
  destruct (texts (behind ps (p, d))) as (m & z & Tm).
  { intros y Iy. apply (all_textual p). unfold behind in Iy. rewrite <- (firstn_skipn (N.to_nat d)). apply in_or_app. right. exact Iy. }
  destruct (viable _ _ _ _ _ _ _ _ _ _ K eq_refl E Tm) as (v & l & H).
  destruct (start_prod _ _ _ ok) as (n & R & St). rewrite R in H.
  inversion H as [| x xs t l' x1 x2 T1 T2 E1 E2 E3]; subst. inversion T2 as [| y ys t' l'' y1 y2 T3 T4 E4 E5]; subst.
  inversion T4; subst. inversion T3; subst. cbn [app] in E3.
  destruct (prefix_cut u (z ++ v) x1 (eoi, v1)) as [z' ->]; [symmetry; exact E3 | exact Ne |].
  exists z'. exists t. rewrite St. exact T1.
Qed.

Lemma error_stk n : forall k u w rest r w', stk k u w -> Forall (fun x => fst x <> eoi) rest ->
  run n k w rest = SyntaxError V W r w' -> exists k' u' w2, stk k' u' w2 /\ u ++ rest = u' ++ r /\ w2 = w'.
Proof.
  induction n as [| n IH]; intros k u w rest r w' K F; cbn [parse]; [discriminate |].
  destruct (move ps tbl eoi V W sem k w rest) as [k1 w1 rest1 | r1] eqn:M.
  - intro E. destruct (move_more _ _ _ ok _ _ _ _ _ _ _ _ _ _ _ K F M) as (u1 & K1 & <- & F1). eapply IH; eassumption.
  - intro E. subst r1. unfold move in M. destruct (act tbl eoi (top V k) _) as [s | p | |].
    + destruct rest as [| [? ?] ?]; discriminate.
    + destruct (sem p _ _ w) as [[? ?] |]; [destruct (next tbl _ _); discriminate | discriminate].
    + destruct k as [| [? ?] [| ]]; discriminate.
    + injection M as <- <-. exists k, u, w. auto.
Qed.

Theorem error_place n rest r w' : Forall (fun x => fst x <> eoi) rest -> run n [] w0 rest = SyntaxError V W r w' ->
  exists u v, rest = u ++ r /\ sentence ps V (u ++ v).
Proof.
  intros F E. destruct (error_stk n [] [] w0 rest r w' (sk_nil _ _ _ _ _ _ _) F E) as (k & u & w2 & K & H & _).
  cbn [app] in H. subst rest. destruct (stk_prefix k u w2 K) as [v Hv]; [| eauto].
  intro I. apply in_map_iff in I as ([t x] & Ht & I). cbn in Ht. subst t. rewrite Forall_forall in F.
  apply (F (eoi, x)); [apply in_or_app; left; exact I | reflexivity].
Qed.
End E.

(** ** What is not read does not matter *)
Section U.
Variable ps : list prod.
Variable tbl : table.
Variable eoi : N.
Variable V W : Type.
Variable sem : N -> list V -> list V -> W -> option (V * W).
Notation run := (parse ps tbl eoi V W sem).

Lemma error_local n : forall k w rest r w', run n k w rest = SyntaxError V W r w' ->
  exists u, rest = u ++ r /\ forall r', ahead eoi V r' = ahead eoi V r -> run n k w (u ++ r') = SyntaxError V W r' w'.
Proof.
  induction n as [| n IH]; intros k w rest r w'; cbn [parse]; [discriminate |].
  unfold move. change (match rest with [] => eoi | (t, _) :: _ => t end) with (ahead eoi V rest).
  destruct (act tbl eoi (top V k) (ahead eoi V rest)) as [s | p | |] eqn:A.
  - destruct rest as [| [t v] rest]; [discriminate |]. intro E. destruct (IH _ _ _ _ _ E) as (u & -> & H).
    exists ((t, v) :: u). split; [reflexivity |]. intros r' Hr. cbn [app ahead]. cbn [ahead] in A. rewrite A. apply H, Hr.
  - destruct (sem p _ _ w) as [[v w2] |] eqn:Sm; [| discriminate]. destruct (next tbl _ _) as [s |] eqn:X; [| discriminate].
    intro E. destruct (IH _ _ _ _ _ E) as (u & -> & H). exists u. split; [reflexivity |]. intros r' Hr.
    assert (Ea : ahead eoi V (u ++ r') = ahead eoi V (u ++ r)) by (destruct u; [exact Hr | reflexivity]).
    change (match u ++ r' with [] => eoi | (t, _) :: _ => t end) with (ahead eoi V (u ++ r')). rewrite Ea, A, Sm, X. apply H, Hr.
  - destruct k as [| [? ?] [| ]]; discriminate.
  - intro E. injection E as <- <-. exists []. split; [reflexivity |]. intros r' Hr. cbn [app].
    change (match r' with [] => eoi | (t, _) :: _ => t end) with (ahead eoi V r'). rewrite Hr, A. reflexivity.
Qed.

Lemma parse_more n : forall m k w rest, n <= m -> run n k w rest <> NoFuel V W -> run m k w rest = run n k w rest.
Proof.
  induction n as [| n IH]; intros m k w rest L H; [contradiction H; reflexivity |].
  destruct m as [| m]; [lia |]. cbn [parse] in *. destruct (move ps tbl eoi V W sem k w rest); [| reflexivity].
  apply IH; [lia | exact H].
Qed.
End U.
