(** Tables that pass the checks below give parsers that are right, make no move that the
    table does not know, end, and stop at the first token that cannot go on. *)
From Coq Require Import List NArith PeanoNat Bool Lia Wf_nat.
From Verif Require Import YaccModel YaccSpec.
Import ListNotations.

(** ** Checks of a table *)
Section C.
Variable ps : list prod.
Variable tbl : table.
Variable eoi : N.

Definition mem_item (i : item) (l : list item) : bool := existsb (item_eqb i) l.
Definition states : list N := range (N.of_nat (length tbl)).

(** The dot of an item of the state behind a transition has moved over its symbol. *)
Definition back_ok : bool :=
  forallb (fun s => forallb (fun e =>
    forallb (fun i =>
      match snd i with
      | 0%N => true
      | d => mem_item (fst i, N.pred d) (items (state_at tbl s)) &&
             match nth_error (rhs (prod_at ps (fst i))) (N.to_nat (N.pred d)) with
             | Some y => sym_eqb y (fst e) | None => false end
      end) (items (state_at tbl (snd e)))) (trans (state_at tbl s))) states.
Definition bottom_ok : bool :=
  forallb (fun i => N.eqb (snd i) 0) (items (state_at tbl 0)).
Definition only_bottom_ok : bool :=
  forallb (fun s => N.eqb s 0 || negb (mem_item (0%N, 0%N) (items (state_at tbl s)))) states &&
  forallb (fun s => forallb (fun e => negb (N.eqb (snd e) 0) && N.ltb (snd e) (N.of_nat (length tbl))) (trans (state_at tbl s))) states.
Definition reds_in_ok : bool :=
  forallb (fun s => forallb (fun e =>
    match snd e with [] => true | _ =>
    mem_item (fst e, N.of_nat (length (rhs (prod_at ps (fst e))))) (items (state_at tbl s)) &&
    N.ltb (fst e) (N.of_nat (length ps)) && negb (N.eqb (fst e) 0) end)
    (reds (state_at tbl s))) states.
Definition goto_ok : bool :=
  forallb (fun s => forallb (fun i =>
    match snd i with
    | 0%N => N.eqb (fst i) 0 || match next tbl s (NT (lhs (prod_at ps (fst i)))) with Some _ => true | None => false end
    | _ => true end) (items (state_at tbl s))) states.
Definition accept_ok : bool :=
  forallb (fun s => match next tbl s (T eoi) with
                    | Some _ => mem_item (0%N, 1%N) (items (state_at tbl s)) | None => true end) states.
Definition start_ok : bool :=
  match ps with
  | r :: _ => match rhs r with [NT _; T e] => N.eqb e eoi | _ => false end
  | [] => false
  end.
(** No reduction is for the end of the text only by accident of numbering: $end occurs in
    production 0 only. *)
Definition eoi_ok : bool :=
  forallb (fun r => forallb (fun x => negb (sym_eqb x (T eoi))) (rhs r)) (tl ps).
Definition items_in_ok : bool :=
  forallb (fun s => forallb (fun i => N.ltb (fst i) (N.of_nat (length ps))) (items (state_at tbl s))) states.
Definition table_ok : bool :=
  items_in_ok && back_ok && bottom_ok && only_bottom_ok && reds_in_ok && goto_ok && accept_ok && start_ok && eoi_ok && negb (N.eqb (N.of_nat (length tbl)) 0).

(** Every item at the beginning of its production is there because of one before it, if
    the items are put into an order that fits. *)
Definition calls (j i : item) : bool :=
  match behind ps j with x :: _ => sym_eqb x (NT (lhs (prod_at ps (fst i)))) | [] => false end.
Fixpoint justified (seen l : list item) : bool :=
  match l with
  | [] => true
  | i :: l =>
    (negb (N.eqb (snd i) 0) || N.eqb (fst i) 0 || existsb (fun j => calls j i) seen) && justified (i :: seen) l
  end.
Fixpoint ordered (fuel : nat) (seen rest : list item) : list item :=
  match fuel with
  | 0 => rev seen
  | S f =>
    match partition (fun i => negb (N.eqb (snd i) 0) || N.eqb (fst i) 0 || existsb (fun j => calls j i) seen) rest with
    | ([], _) => rev seen
    | (l, rest) => ordered f (rev l ++ seen) rest
    end
  end.
Definition just_ok : bool :=
  forallb (fun s =>
    let l := items (state_at tbl s) in
    let o := ordered (length l) [] l in
    justified [] o && forallb (fun i => mem_item i o) l && forallb (fun i => mem_item i l) o &&
    match l with [] => false | _ => true end) states.

(** Every non-terminal has a text: the productions can be put into an order in which each
    uses only what those before it make. *)
Fixpoint makes (done : list N) (l : list N) : list N :=
  match l with
  | [] => done
  | p :: l =>
    if forallb (fun x => match x with T _ => true | NT n => existsb (N.eqb n) done end) (rhs (prod_at ps p))
    then makes (lhs (prod_at ps p) :: done) l else makes done l
  end.
Fixpoint makes_again (fuel : nat) (done : list N) : list N :=
  match fuel with 0 => done | S f => makes_again f (makes done (range (N.of_nat (length ps)))) end.
Definition productive_ok : bool :=
  let d := makes_again 20 [] in
  forallb (fun r => forallb (fun x => match x with T _ => true | NT n => existsb (N.eqb n) d end) (rhs r)) ps.

(** Moves with one token ahead, above the state [p] of the stack: they end, or take [p]
    off, within [fuel] moves.  Nothing can be taken from below the bottom. *)
Fixpoint settles (fuel : nat) (t p : N) (st : list N) : bool :=
  match fuel with
  | 0 => false
  | S f =>
    match act tbl eoi (hd p st) t with
    | Reduce q =>
      if Nat.leb (len ps q) (length st) then
        let st := skipn (len ps q) st in
        match next tbl (hd p st) (NT (lhs (prod_at ps q))) with
        | Some s => settles f t p (s :: st)
        | None => true
        end
      else negb (N.eqb p 0)
    | _ => true
    end
  end.
Variable nt : N.
Definition settle_ok (fuel : nat) : bool :=
  forallb (fun t =>
    settles fuel t 0 [] &&
    forallb (fun p => forallb (fun e => settles fuel t p [snd e]) (trans (state_at tbl p))) states) (range nt).

(** [starts]: where a symbol can begin; in front of which tokens a production is reduced,
    wherever it has begun. *)
Definition starts_of (x : sym) : list N :=
  filter (fun s => existsb (fun i => match behind ps i with y :: _ => sym_eqb y x | [] => false end) (items (state_at tbl s))) states.
Variable starts : sym -> list N.
Fixpoint path (s : N) (l : list sym) : option N :=
  match l with [] => Some s | x :: l => match next tbl s x with Some s => path s l | None => None end end.
Definition reduced (p t : N) : bool :=
  forallb (fun s => match path s (rhs (prod_at ps p)) with
                    | Some s' => match act tbl eoi s' t with Reduce q => N.eqb p q | _ => false end
                    | None => false end) (starts (NT (lhs (prod_at ps p)))).
Fixpoint along (s : N) (l : list sym) : bool :=
  match l with
  | [] => true
  | x :: l => existsb (N.eqb s) (starts x) && match next tbl s x with Some s' => along s' l | None => false end
  end.
Definition closed_ok : bool :=
  forallb (fun p => forallb (fun s => along s (rhs (prod_at ps p))) (starts (NT (lhs (prod_at ps p)))))
    (tl (range (N.of_nat (length ps)))).
End C.

Lemma sym_eqb_eq a b : sym_eqb a b = true <-> a = b.
Proof.
  destruct a, b; cbn; rewrite ?N.eqb_eq; split; intro H; try discriminate; try (subst; reflexivity); injection H; auto.
Qed.
Lemma item_eqb_eq a b : item_eqb a b = true <-> a = b.
Proof.
  destruct a as [a1 a2], b as [b1 b2]; unfold item_eqb; cbn [fst snd]. rewrite andb_true_iff, !N.eqb_eq.
  split; [intros [-> ->]; reflexivity | intro H; injection H; auto].
Qed.
Lemma mem_item_in i l : mem_item i l = true <-> In i l.
Proof.
  unfold mem_item. rewrite existsb_exists. split.
  - intros (x & I & E). apply item_eqb_eq in E. subst. exact I.
  - intro I. exists i. split; [exact I | apply item_eqb_eq; reflexivity].
Qed.
Lemma in_range x n : In x (range n) <-> (x < n)%N.
Proof.
  unfold range. rewrite in_map_iff. split.
  - intros (y & <- & I). apply in_seq in I. lia.
  - intro H. exists (N.to_nat x). split; [lia | apply in_seq; lia].
Qed.

Section P.
Variable ps : list prod.
Variable tbl : table.
Variable eoi : N.
Hypothesis ok : table_ok ps tbl eoi = true.

Notation nxt := (next tbl).
Notation its s := (items (state_at tbl s)).

Lemma ok_back : back_ok ps tbl = true.
Proof. unfold table_ok in ok. rewrite !andb_true_iff in ok. tauto. Qed.
Lemma ok_bottom : bottom_ok tbl = true.
Proof. unfold table_ok in ok. rewrite !andb_true_iff in ok. tauto. Qed.
Lemma ok_only : only_bottom_ok tbl = true.
Proof. unfold table_ok in ok. rewrite !andb_true_iff in ok. tauto. Qed.
Lemma ok_reds : reds_in_ok ps tbl = true.
Proof. unfold table_ok in ok. rewrite !andb_true_iff in ok. tauto. Qed.
Lemma ok_goto : goto_ok ps tbl = true.
Proof. unfold table_ok in ok. rewrite !andb_true_iff in ok. tauto. Qed.
Lemma ok_accept : accept_ok tbl eoi = true.
Proof. unfold table_ok in ok. rewrite !andb_true_iff in ok. tauto. Qed.
Lemma ok_start : start_ok ps eoi = true.
Proof. unfold table_ok in ok. rewrite !andb_true_iff in ok. tauto. Qed.

Lemma state_in s : (exists e, In e (trans (state_at tbl s))) \/ (exists e, In e (its s)) \/ (exists e, In e (reds (state_at tbl s))) -> In s (states tbl).
Proof.
  intro H. unfold states. apply in_range. destruct (Nat.lt_ge_cases (N.to_nat s) (length tbl)) as [L | L]; [lia |].
  exfalso. unfold state_at in H. rewrite nth_overflow in H by exact L. cbn in H.
  destruct H as [[e []] | [[e []] | [e []]]].
Qed.
Lemma nxt_in s x s' : nxt s x = Some s' -> In (x, s') (trans (state_at tbl s)).
Proof.
  unfold next. intro H. destruct (find _ _) as [[y z] |] eqn:F; [| discriminate]. injection H as <-.
  apply find_some in F as [I E]. cbn in E. apply sym_eqb_eq in E. subst. exact I.
Qed.
Lemma nxt_state s x s' : nxt s x = Some s' -> In s (states tbl).
Proof. intro H. apply state_in. left. exists (x, s'). apply nxt_in, H. Qed.
Lemma nxt_back s x s' p d : nxt s x = Some s' -> In (p, N.of_nat (S d)) (its s') ->
  In (p, N.of_nat d) (its s) /\ nth_error (rhs (prod_at ps p)) d = Some x.
Proof.
  intros H I. pose proof ok_back as B. unfold back_ok in B. rewrite forallb_forall in B.
  specialize (B _ (nxt_state _ _ _ H)). rewrite forallb_forall in B. specialize (B _ (nxt_in _ _ _ H)).
  rewrite forallb_forall in B. specialize (B _ I). cbn [fst snd] in B.
  destruct (N.of_nat (S d)) eqn:E; [lia |]. apply andb_true_iff in B as [B1 B2].
  replace (N.pred (N.pos p0)) with (N.of_nat d) in * by lia. rewrite Nnat.Nat2N.id in B2.
  split; [apply mem_item_in; exact B1 |]. destruct (nth_error _ d) as [y |]; [| discriminate].
  apply sym_eqb_eq in B2. subst. reflexivity.
Qed.
Lemma bottom_zero p d : In (p, d) (its 0) -> d = 0%N.
Proof.
  intro I. pose proof ok_bottom as B. unfold bottom_ok in B. rewrite forallb_forall in B. specialize (B _ I).
  apply N.eqb_eq in B. exact B.
Qed.
Lemma first_is_bottom s : In (0%N, 0%N) (its s) -> s = 0%N.
Proof.
  intro I. pose proof ok_only as B. unfold only_bottom_ok in B. apply andb_true_iff in B as [B _]. rewrite forallb_forall in B.
  assert (Is : In s (states tbl)) by (apply state_in; eauto). specialize (B _ Is). apply orb_true_iff in B as [B | B].
  - apply N.eqb_eq, B.
  - apply negb_true_iff in B. apply mem_item_in in I. congruence.
Qed.
Lemma nxt_nonzero s x s' : nxt s x = Some s' -> s' <> 0%N /\ In s' (states tbl).
Proof.
  intro H. pose proof ok_only as B. unfold only_bottom_ok in B. apply andb_true_iff in B as [_ B]. rewrite forallb_forall in B.
  specialize (B _ (nxt_state _ _ _ H)). rewrite forallb_forall in B. specialize (B _ (nxt_in _ _ _ H)).
  apply andb_true_iff in B as [B1 B2]. cbn in B1, B2. apply negb_true_iff, N.eqb_neq in B1. apply N.ltb_lt in B2.
  split; [exact B1 | apply in_range; exact B2].
Qed.

Lemma item_in s p d : In (p, d) (its s) -> N.to_nat p < length ps.
Proof.
  intro I. assert (B : items_in_ok ps tbl = true) by (unfold table_ok in ok; rewrite !andb_true_iff in ok; tauto).
  unfold items_in_ok in B. rewrite forallb_forall in B.
  assert (Is : In s (states tbl)) by (apply state_in; eauto). specialize (B _ Is). rewrite forallb_forall in B.
  specialize (B _ I). apply N.ltb_lt in B. cbn in B. lia.
Qed.

Lemma reduction_in s t p : reduction tbl s t = Some p -> exists l, In (p, l) (reds (state_at tbl s)) /\ l <> [].
Proof.
  unfold reduction. set (f := fun o e => _).
  assert (G : forall l o, (forall q, o = Some q -> exists m, In (q, m) (reds (state_at tbl s)) /\ m <> []) ->
             (forall e, In e l -> In e (reds (state_at tbl s))) ->
             fold_left f l o = Some p -> exists m, In (p, m) (reds (state_at tbl s)) /\ m <> []).
  { induction l as [| e l IH]; intros o Ho Hl; cbn [fold_left]; [intro E; apply Ho, E |].
    apply IH; [| intros e' I; apply Hl; right; exact I].
    intros q. unfold f. destruct (existsb (N.eqb t) (snd e)) eqn:X; [| apply Ho].
    assert (Ne : snd e <> []) by (destruct (snd e); [discriminate | intro; discriminate]).
    destruct o as [r |]; intro E; injection E as <-.
    - destruct (N.min_spec r (fst e)) as [[_ ->] | [_ ->]]; [apply Ho; reflexivity |].
      exists (snd e). split; [rewrite <- surjective_pairing; apply Hl; left; reflexivity | exact Ne].
    - exists (snd e). split; [rewrite <- surjective_pairing; apply Hl; left; reflexivity | exact Ne]. }
  apply G; [intros q E; discriminate | auto].
Qed.
Lemma reduce_ok s t p : act tbl eoi s t = Reduce p ->
  In (p, N.of_nat (len ps p)) (its s) /\ (N.to_nat p < length ps) /\ p <> 0%N.
Proof.
  unfold act. destruct (nxt s (T t)) as [s' |]; [destruct (N.eqb t eoi); discriminate |].
  destruct (reduction tbl s t) as [q |] eqn:R; [| discriminate]. intro E; injection E as ->.
  apply reduction_in in R as (l & I & Nl). pose proof ok_reds as B. unfold reds_in_ok in B. rewrite forallb_forall in B.
  assert (Is : In s (states tbl)) by (apply state_in; eauto). specialize (B _ Is). rewrite forallb_forall in B.
  specialize (B _ I). cbn [fst snd] in B. destruct l; [contradiction |]. rewrite !andb_true_iff in B. destruct B as [[B1 B2] B3].
  apply mem_item_in in B1. apply N.ltb_lt in B2. apply negb_true_iff, N.eqb_neq in B3. repeat split; [exact B1 | lia | exact B3].
Qed.
Lemma goto_defined s p : In (p, 0%N) (its s) -> p <> 0%N -> exists s', nxt s (NT (lhs (prod_at ps p))) = Some s'.
Proof.
  intros I Np. pose proof ok_goto as B. unfold goto_ok in B. rewrite forallb_forall in B.
  assert (Is : In s (states tbl)) by (apply state_in; eauto). specialize (B _ Is). rewrite forallb_forall in B.
  specialize (B _ I). cbn [fst snd] in B. apply orb_true_iff in B as [B | B]; [apply N.eqb_eq in B; contradiction |].
  destruct (nxt s _); [eauto | discriminate].
Qed.
Lemma prod_at_nth p : N.to_nat p < length ps -> nth_error ps (N.to_nat p) = Some (prod_at ps p).
Proof. intro H. unfold prod_at. apply nth_error_nth' with (d := Prod 0 []) in H. exact H. Qed.

Variable V W : Type.
Variable sem : N -> list V -> list V -> W -> option (V * W).
Lemma trees_snoc xs l u x t u' : trees_of ps V xs l u -> tree_of ps V x t u' -> trees_of ps V (xs ++ [x]) (l ++ [t]) (u ++ u').
Proof.
  induction 1 as [| y xs s l u1 u2 H1 H2 IH]; intro H; cbn.
  - rewrite <- (app_nil_r u'). apply ts_cons; [exact H | apply ts_nil].
  - rewrite <- app_assoc. apply ts_cons; [exact H1 | apply IH, H].
Qed.
Lemma trees_app xs l u : trees_of ps V xs l u -> forall ys m v, trees_of ps V ys m v -> trees_of ps V (xs ++ ys) (l ++ m) (u ++ v).
Proof.
  induction 1 as [| y xs s l u1 u2 H1 H2 IH]; intros ys m v H; cbn; [exact H |].
  rewrite <- app_assoc. apply ts_cons; [exact H1 | apply IH, H].
Qed.
Lemma do_snoc b l w vs w1 t v w2 : do_all V W sem b l w vs w1 -> does V W sem (rev vs ++ b) t w1 v w2 ->
  do_all V W sem b (l ++ [t]) w (vs ++ [v]) w2.
Proof.
  induction 1 as [b w | b s l w x wa vs wb H1 H2 IH]; intro H; cbn [app rev] in *.
  - eapply da_cons; [exact H | apply da_nil].
  - eapply da_cons; [exact H1 | apply IH]. rewrite <- app_assoc in H. exact H.
Qed.

(** What is on the stack. *)
Variable w0 : W.
Inductive stk : stack V -> list (N * V) -> W -> Prop :=
| sk_nil : stk [] [] w0
| sk_cons k u w s v x t u1 w1 : stk k u w -> nxt (top V k) x = Some s -> x <> T eoi -> tree_of ps V x t u1 ->
    does V W sem (map snd k) t w v w1 -> stk ((s, v) :: k) (u ++ u1) w1.

Lemma pop d : forall k u w p, stk k u w -> In (p, N.of_nat d) (its (top V k)) ->
  exists u0 wa l u1, stk (skipn d k) u0 wa /\ trees_of ps V (firstn d (rhs (prod_at ps p))) l u1 /\
    do_all V W sem (map snd (skipn d k)) l wa (rev (map snd (firstn d k))) w /\ u = u0 ++ u1 /\
    In (p, 0%N) (its (top V (skipn d k))) /\ d <= length k /\ d <= length (rhs (prod_at ps p)) /\
    (forall x, In x (firstn d (rhs (prod_at ps p))) -> x <> T eoi).
Proof.
  induction d as [| d IH]; intros k u w p K I.
  - exists u, w, [], []. cbn [skipn firstn map rev]. rewrite app_nil_r. repeat split; auto; try constructor; try lia; try (intros x []; fail).
  - destruct K as [| k u w s v x t u1 w1 K Nx Ne Tr Do].
    + apply bottom_zero in I. lia.
    + cbn [top] in I. destruct (nxt_back _ _ _ _ _ Nx I) as [I' Hx].
      destruct (IH _ _ _ _ K I') as (u0 & wa & l & u2 & K' & Ts & Da & -> & I0 & L & L' & Ne').
      exists u0, wa, (l ++ [t]), (u2 ++ u1).
      assert (F : firstn (S d) (rhs (prod_at ps p)) = firstn d (rhs (prod_at ps p)) ++ [x]).
      { clear - Hx. revert Hx. generalize (rhs (prod_at ps p)). induction d as [| d IH]; intros [| y l] H; cbn in *; try discriminate.
        - injection H as ->. reflexivity.
        - f_equal. apply IH, H. }
      rewrite F. cbn [skipn firstn map rev length snd]. repeat split.
      * exact K'.
      * apply trees_snoc; assumption.
      * eapply do_snoc; [exact Da |]. rewrite rev_involutive, <- map_app, firstn_skipn. exact Do.
      * rewrite app_assoc. reflexivity.
      * exact I0.
      * lia.
      * apply nth_error_Some. congruence.
      * intros y Iy. apply in_app_or in Iy as [Iy | [<- | []]]; [apply Ne', Iy | exact Ne].
Qed.

Lemma move_more k u w rest k' w' rest' : stk k u w -> Forall (fun x => fst x <> eoi) rest ->
  move ps tbl eoi V W sem k w rest = More V W k' w' rest' ->
  exists u', stk k' u' w' /\ u' ++ rest' = u ++ rest /\ Forall (fun x => fst x <> eoi) rest'.
Proof.
  intros K F. unfold move. set (t := match rest with [] => eoi | (t, _) :: _ => t end).
  destruct (act tbl eoi (top V k) t) as [s | p | |] eqn:A; try discriminate.
  - destruct rest as [| [t' v] rest]; [discriminate |]. intro E. injection E as <- <- <-. subst t. cbn in A.
    inversion F as [| ? ? F1 F2]; subst. cbn in F1. unfold act in A.
    destruct (nxt (top V k) (T t')) as [s' |] eqn:X; [| destruct (reduction tbl _ _); discriminate].
    destruct (N.eqb t' eoi) eqn:Et; [discriminate |]. injection A as ->.
    exists (u ++ [(t', v)]). rewrite <- app_assoc. split; [| split; [reflexivity | exact F2]].
    eapply sk_cons; [exact K | exact X | | apply to_leaf | apply do_leaf]. intro E. injection E as E. contradiction.
  - destruct (sem p _ _ w) as [[v w2] |] eqn:Sm; [| discriminate].
    destruct (nxt (top V (skipn (len ps p) k)) (NT (lhs (prod_at ps p)))) as [s |] eqn:X; [| discriminate].
    intro E. injection E as <- <- <-. apply reduce_ok in A as (I & L & _).
    destruct (pop _ _ _ _ _ K I) as (u0 & wa & l & u1 & K' & Ts & Da & -> & _ & _ & _ & _).
    exists (u0 ++ u1). split; [| split; [reflexivity | exact F]].
    eapply sk_cons; [exact K' | exact X | discriminate | |].
    + eapply to_node; [apply prod_at_nth, L |]. unfold len in Ts. rewrite firstn_all in Ts. exact Ts.
    + eapply do_node; eassumption.
  - destruct k as [| [s v] [| ]]; discriminate.
Qed.

Lemma start_prod : exists n, rhs (prod_at ps 0) = [NT n; T eoi] /\ start_symbol ps = NT n.
Proof.
  clear w0 sem V W. pose proof ok_start as B. unfold start_ok in B. unfold start_symbol, prod_at. cbn [N.to_nat nth].
  destruct ps as [| r ?]; [discriminate |]. cbn [nth].
  destruct (rhs r) as [| [t | n] [| [e | m] [| ]]]; try discriminate. apply N.eqb_eq in B. subst. exists n. auto.
Qed.
Lemma accept_item s t : act tbl eoi s t = Accept -> t = eoi /\ In (0%N, 1%N) (its s).
Proof.
  unfold act. destruct (nxt s (T t)) as [s' |] eqn:X; [| destruct (reduction tbl s t); discriminate].
  destruct (N.eqb t eoi) eqn:E; [| discriminate]. intros _. apply N.eqb_eq in E. subst t. split; [reflexivity |].
  pose proof ok_accept as B. unfold accept_ok in B. rewrite forallb_forall in B. specialize (B _ (nxt_state _ _ _ X)).
  rewrite X in B. apply mem_item_in, B.
Qed.
Lemma accept_stack k u w t : stk k u w -> act tbl eoi (top V k) t = Accept ->
  exists s v tr, k = [(s, v)] /\ tree_of ps V (start_symbol ps) tr u /\ does V W sem [] tr w0 v w /\ t = eoi.
Proof.
  intros K A. apply accept_item in A as [-> I]. change 1%N with (N.of_nat 1) in I.
  destruct (pop _ _ _ _ _ K I) as (u0 & wa & l & u1 & K' & Ts & Da & -> & I0 & L & _ & _).
  destruct start_prod as (n & R & ->). rewrite R in Ts. cbn [firstn] in Ts.
  apply first_is_bottom in I0. destruct k as [| [s v] k]; [cbn in L; lia |]. cbn [skipn] in *.
  destruct K' as [| k u w' s' v' x t u2 w1 K' Nx Ne Tr Do]; [| cbn in I0; apply nxt_nonzero in Nx as [Nz _]; contradiction].
  inversion Ts as [| x xs t l' u2 u3 T1 T2 E1 E2]; subst. inversion T2; subst. cbn [firstn map rev app snd] in Da.
  inversion Da as [| ? t' l' wx v' w1 vs w2 D1 D2]; subst. inversion D2; subst.
  exists s, v, t. cbn [app]. rewrite app_nil_r. auto.
Qed.

Theorem parse_sound n : forall k u w rest v w', stk k u w -> Forall (fun x => fst x <> eoi) rest ->
  parse ps tbl eoi V W sem n k w rest = Accepted V W v w' ->
  exists t, tree_of ps V (start_symbol ps) t (u ++ rest) /\ does V W sem [] t w0 v w'.
Proof.
  induction n as [| n IH]; intros k u w rest v w' K F; cbn [parse]; [discriminate |].
  destruct (move ps tbl eoi V W sem k w rest) as [k1 w1 rest1 | r] eqn:M.
  - intro E. destruct (move_more _ _ _ _ _ _ _ K F M) as (u1 & K1 & <- & F1). eapply IH; eassumption.
  - intro E. subst r. unfold move in M. set (t := match rest with [] => eoi | (t, _) :: _ => t end) in M.
    destruct (act tbl eoi (top V k) t) as [s | p | |] eqn:A.
    + destruct rest as [| [? ?] ?]; discriminate.
    + destruct (sem p _ _ w) as [[? ?] |]; [destruct (next tbl _ _); discriminate | discriminate].
    + destruct (accept_stack _ _ _ _ K A) as (s & v' & tr & -> & Tr & Do & Et). cbn in M. injection M as <- <-.
      assert (rest = []) as ->; [| rewrite app_nil_r; eauto].
      subst t. destruct rest as [| [t' ?] ?]; [reflexivity |]. inversion F; subst. cbn in *. contradiction.
    + discriminate.
Qed.

Theorem never_stuck n : forall k u w rest, stk k u w -> Forall (fun x => fst x <> eoi) rest ->
  parse ps tbl eoi V W sem n k w rest <> Stuck V W.
Proof.
  induction n as [| n IH]; intros k u w rest K F; cbn [parse]; [discriminate |].
  destruct (move ps tbl eoi V W sem k w rest) as [k1 w1 rest1 | r] eqn:M.
  - destruct (move_more _ _ _ _ _ _ _ K F M) as (u1 & K1 & _ & F1). eapply IH; eassumption.
  - intro E. subst r. unfold move in M. set (t := match rest with [] => eoi | (t, _) :: _ => t end) in M.
    destruct (act tbl eoi (top V k) t) as [s | p | |] eqn:A.
    + destruct rest as [| [t' v'] ?]; [| discriminate]. subst t. unfold act in A.
      destruct (next tbl _ _); [rewrite N.eqb_refl in A; discriminate | destruct (reduction tbl _ _); discriminate].
    + destruct (sem p _ _ w) as [[? ?] |]; [| discriminate]. apply reduce_ok in A as (I & L & Np).
      destruct (pop _ _ _ _ _ K I) as (u0 & wa & l & u1 & _ & _ & _ & _ & I0 & _). destruct (goto_defined _ _ I0 Np) as [s' Es].
      rewrite Es in M. discriminate.
    + destruct (accept_stack _ _ _ _ K A) as (s & v' & tr & -> & _). discriminate.
    + discriminate.
Qed.
End P.
