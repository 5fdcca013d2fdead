(** What a table with settled conflicts reads: a finer grammar, whose classes each stand for
    a non-terminal, passes the checks below if the parser takes, in every state where a
    production of it can begin and in front of every token that can follow, just that
    production.  All of the finer grammar is then read that way. *)
From Coq Require Import List NArith PeanoNat Bool Lia.
From Verif Require Import YaccModel YaccSpec YaccProofs YaccEndProofs.
Import ListNotations.

Inductive csym := CT (t : N) | CN (c : N).
(** A production of a class: the class, the production it refines, and its right side. *)
Record cprod := CProd { cls : N; cnum : N; crhs : list csym }.

Section R.
Variable ps : list prod.
Variable tbl : table.
Variable eoi : N.
Variable cps : list cprod.
(** The non-terminal of a class. *)
Variable cnt : N -> N.
Definition sym_of (x : csym) : sym := match x with CT t => T t | CN c => NT (cnt c) end.

(** ** Checks
    [Cx]: the states in which a class can begin, with what can follow it then; [Fi]: what it
    can begin with; [Nu]: whether it can be empty. *)
Variable Cx : N -> list (N * list N).
Variable Fi : N -> list N.
Variable Nu : N -> bool.
Definition mem (x : N) (l : list N) : bool := existsb (N.eqb x) l.
Definition subset (a b : list N) : bool := forallb (fun x => mem x b) a.
Fixpoint firsts (xs : list csym) (la : list N) : list N :=
  match xs with
  | [] => la
  | CT t :: _ => [t]
  | CN c :: xs => if Nu c then Fi c ++ firsts xs la else Fi c
  end.
Definition empty_able (xs : list csym) : bool := forallb (fun x => match x with CT _ => false | CN c => Nu c end) xs.
(** What can follow class c in state s. *)
Definition after (c s : N) : option (list N) :=
  match find (fun e => N.eqb (fst e) s) (Cx c) with Some e => Some (snd e) | None => None end.
Fixpoint walk (s : N) (xs : list csym) (la : list N) : option N :=
  match xs with
  | [] => Some s
  | x :: xs =>
    if match x with
       | CT t => negb (N.eqb t eoi)
       | CN c => match after c s with Some l => subset (firsts xs la) l | None => false end
       end
    then match next tbl s (sym_of x) with Some s' => walk s' xs la | None => None end
    else None
  end.
Definition cprod_ok (q : cprod) : bool :=
  list_eqb sym_eqb (map sym_of (crhs q)) (rhs (prod_at ps (cnum q))) && N.eqb (cnt (cls q)) (lhs (prod_at ps (cnum q))) &&
  (negb (empty_able (crhs q)) || Nu (cls q)) && subset (firsts (crhs q) []) (Fi (cls q)) &&
  forallb (fun e => match walk (fst e) (crhs q) (snd e) with
                    | Some s' => forallb (fun t => match act tbl eoi s' t with Reduce p => N.eqb p (cnum q) | _ => false end) (snd e)
                    | None => false end) (Cx (cls q)).
Definition fine_ok : bool := forallb cprod_ok cps.
Hypothesis ok : fine_ok = true.

(** ** What the finer grammar reads *)
Variable V W : Type.
Variable sem : N -> list V -> list V -> W -> option (V * W).
Inductive reads : csym -> list (N * V) -> list V -> W -> V -> W -> Prop :=
| rd_tok t v b w : reads (CT t) [(t, v)] b w v w
| rd_cls q u b w vs w1 v w2 : In q cps -> reads_all (crhs q) u b w vs w1 -> sem (cnum q) vs b w1 = Some (v, w2) ->
    reads (CN (cls q)) u b w v w2
with reads_all : list csym -> list (N * V) -> list V -> W -> list V -> W -> Prop :=
| ra_nil b w : reads_all [] [] b w [] w
| ra_cons x xs u1 u2 b w v w1 vs w2 : reads x u1 b w v w1 -> reads_all xs u2 (v :: b) w1 vs w2 ->
    reads_all (x :: xs) (u1 ++ u2) b w (v :: vs) w2.
Scheme reads_mind := Induction for reads Sort Prop with reads_all_mind := Induction for reads_all Sort Prop.
Combined Scheme reads_both from reads_mind, reads_all_mind.

Lemma mem_in x l : mem x l = true <-> In x l.
Proof.
  unfold mem. rewrite existsb_exists. split.
  - intros (y & I & E). apply N.eqb_eq in E. subst. exact I.
  - intro I. exists x. split; [exact I | apply N.eqb_refl].
Qed.
Lemma subset_in a b x : subset a b = true -> In x a -> In x b.
Proof. unfold subset. rewrite forallb_forall. intros H I. apply mem_in, H, I. Qed.
Lemma sym_list_eqb a : forall b, list_eqb sym_eqb a b = true -> a = b.
Proof.
  induction a as [| x a IH]; intros [| y b] H; cbn in H; try discriminate; [reflexivity |].
  apply andb_true_iff in H as [H1 H2]. apply sym_eqb_eq in H1. f_equal; [exact H1 | apply IH, H2].
Qed.
Lemma firsts_la xs : forall la la', (forall t, In t la -> In t la') -> forall t, In t (firsts xs la) -> In t (firsts xs la').
Proof.
  induction xs as [| [t0 | c] xs IH]; intros la la' H t I; cbn [firsts] in *; [apply H, I | exact I |].
  destruct (Nu c); [| exact I]. apply in_app_or in I as [I | I]; apply in_or_app; [left; exact I | right; eapply IH; eassumption].
Qed.

Definition begins (xs : list csym) (u : list (N * V)) : Prop :=
  match u with [] => empty_able xs = true | (t, _) :: _ => In t (firsts xs []) end.
Lemma reads_begins :
  (forall x u b w v w', reads x u b w v w' -> begins [x] u) /\
  (forall xs u b w vs w', reads_all xs u b w vs w' -> begins xs u).
Proof.
  apply reads_both.
  - intros t v b w. cbn. left. reflexivity.
  - intros q u b w vs w1 v w2 Iq _ IH _. pose proof ok as O. unfold fine_ok in O. rewrite forallb_forall in O. specialize (O _ Iq).
    unfold cprod_ok in O. rewrite !andb_true_iff in O. destruct O as [[[[_ _] O1] O2] _].
    unfold begins in *. cbn [empty_able forallb firsts]. destruct u as [| [t x] u].
    + rewrite IH in O1. cbn in O1. rewrite O1. reflexivity.
    + apply (subset_in _ _ _ O2) in IH. destruct (Nu (cls q)); [apply in_or_app; left |]; exact IH.
  - intros b w. reflexivity.
  - intros x xs u1 u2 b w v w1 vs w2 _ IH1 _ IH2. unfold begins in *. destruct u1 as [| [t y] u1]; cbn [app].
    + destruct x as [t0 | c]; cbn [empty_able forallb] in IH1; [discriminate |]. rewrite andb_true_r in IH1.
      destruct u2 as [| [t y] u2].
      * cbn [empty_able forallb]. rewrite IH1. exact IH2.
      * cbn [firsts]. rewrite IH1. apply in_or_app. right. exact IH2.
    + destruct x as [t0 | c]; cbn [firsts] in *; [exact IH1 |].
      destruct (Nu c); [apply in_app_or in IH1 as [IH1 | []]; apply in_or_app; left |]; exact IH1.
Qed.
Lemma begins_ahead xs u rest la : begins xs u -> In (ahead eoi V rest) la -> In (ahead eoi V (u ++ rest)) (firsts xs la).
Proof.
  intros B I. unfold begins in B. destruct u as [| [t x] u]; cbn [app ahead].
  - fold (ahead eoi V rest). induction xs as [| [t0 | c] xs IH]; [exact I | discriminate |].
    cbn [empty_able forallb firsts] in *. apply andb_true_iff in B as [B1 B2]. rewrite B1. apply in_or_app. right. apply IH, B2.
  - eapply firsts_la; [| exact B]. intros y [].
Qed.

Notation run := (parse ps tbl eoi V W sem).
Definition goes (k : stack V) (w : W) (u : list (N * V)) (k' : stack V) (w' : W) (rest : list (N * V)) : Prop :=
  exists n, forall m, run (n + m) k w (u ++ rest) = run m k' w' rest.
Lemma goes_trans k w u1 k1 w1 u2 k2 w2 rest : goes k w u1 k1 w1 (u2 ++ rest) -> goes k1 w1 u2 k2 w2 rest -> goes k w (u1 ++ u2) k2 w2 rest.
Proof.
  intros [n1 H1] [n2 H2]. exists (n1 + n2). intro m. rewrite <- Nat.add_assoc, <- app_assoc, H1. apply H2.
Qed.

Lemma top_cons s (v : V) k : top V ((s, v) :: k) = s.
Proof. reflexivity. Qed.

Definition fits (c : N) (k : stack V) (rest : list (N * V)) : Prop :=
  exists l, after c (top V k) = Some l /\ In (ahead eoi V rest) l.

Theorem reads_goes :
  (forall x u b w v w', reads x u b w v w' -> forall k rest s', b = map snd k ->
     match x with CT t => t <> eoi | CN c => fits c k rest end ->
     next tbl (top V k) (sym_of x) = Some s' -> goes k w u ((s', v) :: k) w' rest) /\
  (forall xs u b w vs w', reads_all xs u b w vs w' -> forall k rest la s', b = map snd k ->
     walk (top V k) xs la = Some s' -> In (ahead eoi V rest) la ->
     exists ks, goes k w u (ks ++ k) w' rest /\ map snd ks = rev vs /\ top V (ks ++ k) = s' /\ length ks = length xs).
Proof.
  apply reads_both.
  - intros t v b w k rest s' -> Ne X. exists 1. intro m. cbn [Nat.add parse app]. unfold move. unfold act. cbn [sym_of] in X.
    rewrite X. apply N.eqb_neq in Ne. rewrite Ne. reflexivity.
  - intros q u b w vs w1 v w2 Iq Ra IH Sm k rest s' -> (l & Ha & Il) X.
    pose proof ok as O. unfold fine_ok in O. rewrite forallb_forall in O. specialize (O _ Iq).
    unfold cprod_ok in O. rewrite !andb_true_iff in O. destruct O as [[[[O1 O2] _] _] O4].
    unfold after in Ha. destruct (find _ (Cx (cls q))) as [[s0 l0] |] eqn:Fd; [| discriminate]. injection Ha as <-.
    apply find_some in Fd as [Is Es]. cbn [fst] in Es. apply N.eqb_eq in Es. subst s0. cbn [snd] in Il.
    rewrite forallb_forall in O4. specialize (O4 _ Is). cbn [fst snd] in O4.
    destruct (walk (top V k) (crhs q) l0) as [s1 |] eqn:Wk; [| discriminate].
    rewrite forallb_forall in O4. specialize (O4 _ Il).
    destruct (IH k rest l0 s1 eq_refl Wk Il) as (ks & [n G] & Mk & Tk & Lk).
    destruct (act tbl eoi s1 (ahead eoi V rest)) as [ | p | |] eqn:A; try discriminate. apply N.eqb_eq in O4. subst p.
    apply sym_list_eqb in O1. apply N.eqb_eq in O2. cbn [sym_of] in X.
    assert (Len : len ps (cnum q) = length ks) by (unfold len; rewrite <- O1, map_length; symmetry; exact Lk).
    exists (n + 1). intro m. rewrite <- Nat.add_assoc, G. cbn [Nat.add parse]. unfold move.
    change (match rest with [] => eoi | (t, _) :: _ => t end) with (ahead eoi V rest).
    rewrite Tk, A, Len, firstn_app, Nat.sub_diag, firstn_all, firstn_O, app_nil_r, Mk, rev_involutive.
    rewrite skipn_app, skipn_all, Nat.sub_diag. cbn [app skipn]. rewrite Sm, <- O2, X. reflexivity.
  - intros b w k rest la s' -> X _. exists []. cbn in *. injection X as <-. repeat split. exists 0. intro m. reflexivity.
  - intros x xs u1 u2 b w v w1 vs w2 R1 IH1 R2 IH2 k rest la s' -> Wk Il. cbn [walk] in Wk.
    destruct (match x with CT t => _ | CN c => _ end) eqn:Ok; [| discriminate].
    destruct (next tbl (top V k) (sym_of x)) as [s1 |] eqn:X; [| discriminate].
    destruct (IH2 ((s1, v) :: k) rest la s' eq_refl Wk Il) as (ks & G2 & Mk & Tk & Lk).
    exists (ks ++ [(s1, v)]). rewrite <- app_assoc. cbn [app]. repeat split.
    + eapply goes_trans; [apply IH1; [reflexivity | | exact X] | exact G2].
      destruct x as [t | c]; [apply N.eqb_neq, negb_true_iff, Ok |].
      destruct (after c (top V k)) as [l |] eqn:Ha; [| discriminate]. exists l. split; [exact Ha |].
      eapply subset_in; [exact Ok |]. apply begins_ahead; [eapply reads_begins, R2 | exact Il].
    + rewrite map_app, Mk. reflexivity.
    + exact Tk.
    + rewrite app_length, Lk. cbn [length]. lia.
Qed.

(** A whole text. *)
Theorem reads_whole c u w v w' s : reads (CN c) u [] w v w' -> fits c [] [] ->
  next tbl 0 (NT (cnt c)) = Some s -> act tbl eoi s eoi = Accept -> exists n, run n [] w u = Accepted V W v w'.
Proof.
  intros R Ft X A. destruct (proj1 reads_goes _ _ _ _ _ _ R [] [] s eq_refl Ft X) as [n G].
  exists (n + 1). specialize (G 1). rewrite app_nil_r in G. rewrite G. cbn [parse]. unfold move. cbn [top]. rewrite A. reflexivity.
Qed.
End R.
