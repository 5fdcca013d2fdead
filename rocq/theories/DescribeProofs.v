(** Proofs for C126. *)
From Coq Require Import List NArith Ascii String Bool Lia Permutation.
From Verif Require Import FlexModel DeclModel DeclProofs DeclProps DescribeModel DescribeSpec.
Import ListNotations.
Open Scope string_scope.
Open Scope list_scope.

Lemma text_eqb_ok : forall x y, text_eqb x y = true <-> x = y.
Proof.
  induction x as [|a x IH]; intros [|b y]; cbn [text_eqb]; try (split; congruence).
  rewrite andb_true_iff, Ascii.eqb_eq, IH. split; [intros (-> & ->); reflexivity | intro E; injection E; auto].
Qed.

(** ** Literals *)
Definition esc (a : ascii) : text :=
  if Ascii.eqb a backslash then [backslash; backslash]
  else if Ascii.eqb a quote then [backslash; quote] else [a].

Lemma escaped_each : forall d, escaped d = flat_map esc d.
Proof.
  unfold escaped, replace. induction d as [|a d IH]; [reflexivity|].
  cbn [flat_map]. rewrite flat_map_app, IH. f_equal. unfold esc.
  destruct (Ascii.eqb a backslash) eqn:E; [reflexivity|].
  cbn [flat_map]. destruct (Ascii.eqb a quote); reflexivity.
Qed.

Lemma escapes_same c v : In (c, v) escapes -> c = backslash \/ c = quote -> v = c.
Proof.
  intros I H. cbn [escapes In] in I.
  destruct H as [-> | ->];
    repeat match type of I with _ \/ _ => destruct I as [I | I]; [try (injection I as <-; reflexivity); try discriminate I|] end;
    contradiction.
Qed.

Lemma escaped_literal : forall d, one_line d -> forall y, literal (escaped d) y <-> y = d.
Proof.
  intros d. rewrite escaped_each. induction d as [|a d IH]; intros (N & R) y.
  - split; [intro H; inversion H; reflexivity | intros ->; constructor].
  - assert (O : one_line d) by (split; intro; [apply N | apply R]; right; assumption).
    specialize (IH O). cbn [flat_map]. unfold esc at 1.
    destruct (Ascii.eqb a backslash) eqn:EB; [|destruct (Ascii.eqb a quote) eqn:EQ].
    + apply Ascii.eqb_eq in EB. subst a. cbn [app]. split.
      * intro H. inversion H as [|c x z C L|c v x z C L]; subst.
        -- exfalso. apply C. left. reflexivity.
        -- apply escapes_same in C; [|auto]. subst v. f_equal. apply IH. exact L.
      * intros ->. apply lit_escape; [left; reflexivity | apply IH; reflexivity].
    + apply Ascii.eqb_eq in EQ. subst a. cbn [app]. split.
      * intro H. inversion H as [|c x z C L|c v x z C L]; subst.
        -- exfalso. apply C. left. reflexivity.
        -- apply escapes_same in C; [|auto]. subst v. f_equal. apply IH. exact L.
      * intros ->. apply lit_escape; [right; left; reflexivity | apply IH; reflexivity].
    + apply Ascii.eqb_neq in EB, EQ. cbn [app]. split.
      * intro H. inversion H as [|c x z C L|c v x z C L]; subst.
        -- f_equal. apply IH. exact L.
        -- destruct (EB eq_refl).
      * intros ->. apply lit_char; [|apply IH; reflexivity].
        intros [E | [E | [E | [E | []]]]]; subst a; [apply EB | apply EQ | apply N | apply R]; (reflexivity || (left; reflexivity)).
Qed.

Lemma plain_literal : forall d, one_line d -> ~ In backslash d -> ~ In quote d -> forall y, literal d y <-> y = d.
Proof.
  intros d O B Q y. rewrite <- (escaped_literal d O y).
  replace (escaped d) with d; [reflexivity|]. rewrite escaped_each. clear O y.
  induction d as [|a d IH]; [reflexivity|]. cbn [flat_map]. rewrite <- IH; [|intro; apply B; right; assumption|intro; apply Q; right; assumption].
  unfold esc. destruct (Ascii.eqb a backslash) eqn:EB; [apply Ascii.eqb_eq in EB; subst; destruct B; left; reflexivity|].
  destruct (Ascii.eqb a quote) eqn:EQ; [apply Ascii.eqb_eq in EQ; subst; destruct Q; left; reflexivity|]. reflexivity.
Qed.

(** ** The table of terminals *)
Lemma insert_perm n d : forall ts, Permutation ((n, d) :: ts) (insert n d ts).
Proof.
  induction ts as [|(m, e) ts IH]; [reflexivity|]. cbn [insert]. destruct (text_ltb n m); [reflexivity|].
  etransitivity; [apply perm_swap|]. apply perm_skip, IH.
Qed.

Definition right_table (ds : list (text * text)) (ts : terminals) : Prop :=
  NoDup (map fst ts) /\ (forall n d, In (n, d) ts <-> first_declared ds n d).

Lemma first_snoc ds n d m e :
  first_declared (ds ++ [(m, e)]) n d <-> first_declared ds n d \/ (n = m /\ d = e /\ ~ In n (map fst ds)).
Proof.
  unfold first_declared. split.
  - intros (l & r & E & N). destruct r as [|z r _] using rev_ind.
    + apply app_inj_tail in E as (-> & E). injection E as -> ->. right. auto.
    + rewrite app_comm_cons, app_assoc in E. apply app_inj_tail in E as (-> & _). left. exists l, r. auto.
  - intros [(l & r & -> & N) | (-> & -> & N)].
    + exists l, (r ++ [(m, e)]). rewrite <- app_assoc. auto.
    + exists ds, []. auto.
Qed.

Lemma declared_name ds n : In n (map fst ds) -> exists d, first_declared ds n d.
Proof.
  induction ds as [|(m, e) ds IH] using rev_ind; [intros []|].
  rewrite map_app, in_app_iff. intros H.
  destruct (in_dec (list_eq_dec ascii_dec) n (map fst ds)) as [I | I].
  - destruct (IH I) as (d & F). exists d. apply first_snoc. auto.
  - destruct H as [H | [H | []]]; [contradiction|]. cbn [fst] in H. subst m. exists e. apply first_snoc. auto.
Qed.

Lemma push_right ds ts m e : right_table ds ts -> right_table (ds ++ [(m, e)]) (push_terminal m e ts).
Proof.
  intros (ND & H). unfold push_terminal.
  destruct (existsb (fun p => text_eqb m (fst p)) ts) eqn:E.
  - apply existsb_exists in E as ((m', d') & I & E). apply text_eqb_ok in E. cbn [fst] in E. subst m'.
    split; [exact ND|]. intros n d. rewrite first_snoc, H. split; [auto|]. intros [F | (-> & -> & N)]; [exact F|].
    exfalso. apply N. apply H in I as (l & r & -> & _). rewrite map_app. apply in_app_iff. right. left. reflexivity.
  - assert (A : ~ In m (map fst ts)).
    { intro I. apply in_map_iff in I as (p & <- & I). enough (X : existsb (fun q => text_eqb (fst p) (fst q)) ts = true) by congruence.
      apply existsb_exists. exists p. split; [exact I | apply text_eqb_ok; reflexivity]. }
    assert (A' : ~ In m (map fst ds)).
    { intro I. apply declared_name in I as (d & F). apply H in F. apply A. apply in_map_iff. exists (m, d). auto. }
    pose proof (insert_perm m e ts) as P. split.
    + apply (Permutation_NoDup (Permutation_map fst P)). cbn [map fst]. constructor; assumption.
    + intros n d. rewrite first_snoc, <- H. split.
      * intro I. apply (Permutation_in _ (Permutation_sym P)) in I as [I | I]; [injection I as <- <-|]; auto.
      * intros I. apply (Permutation_in _ P). destruct I as [I | (-> & -> & _)]; [right; exact I | left; reflexivity].
Qed.

Lemma push_all_right : forall es ds ts, right_table ds ts -> right_table (ds ++ es) (push_all es ts).
Proof.
  unfold push_all. induction es as [|(m, e) es IH]; intros ds ts R.
  - rewrite app_nil_r. exact R.
  - cbn [fold_left fst snd]. change (ds ++ (m, e) :: es) with (ds ++ [(m, e)] ++ es). rewrite app_assoc. apply IH, push_right, R.
Qed.

Lemma all_right ds : right_table (ds ++ [(chars "EOF", chars "end of file")]) (all_terminals ds).
Proof.
  apply push_right. apply (push_all_right ds [] []). split; [constructor|].
  intros n d. split; [intros [] | intros (l & r & E & _); destruct l; discriminate].
Qed.

(** ** The switch *)
Lemma find_number : forall (ns : list (text * N)) (ts : terminals), map fst ns = map fst ts -> NoDup (map snd ns) ->
  forall n k d, NoDup (map fst ts) -> In (n, k) ns -> In (n, d) ts ->
  find (fun p => N.eqb (snd (fst p)) k) (combine ns (map snd ts)) = Some ((n, k), d).
Proof.
  induction ns as [|(m, j) ns IH]; intros [|(m', e) ts] E ND n k d NT I J; try discriminate; [destruct I|].
  cbn [map fst] in E, NT. injection E as <- E. cbn [map snd] in ND. inversion ND as [|? ? N1 N2]; subst.
  inversion NT as [|? ? T1 T2]; subst. cbn [map combine find fst snd].
  destruct I as [I | I].
  - injection I as -> ->. rewrite N.eqb_refl. destruct J as [J | J]; [injection J as ->; reflexivity|].
    exfalso. apply T1. apply in_map_iff. exists (n, d). auto.
  - destruct (N.eqb j k) eqn:Q.
    + apply N.eqb_eq in Q. subst j. exfalso. apply N1. apply in_map_iff. exists (n, k). auto.
    + apply IH; try assumption. destruct J as [J | J]; [|exact J]. injection J as -> ->.
      exfalso. apply T1. rewrite <- E. apply in_map_iff. exists (n, k). auto.
Qed.

Lemma find_none : forall (ns : list (text * N)) (ts : terminals) k, ~ In k (map snd ns) ->
  find (fun p => N.eqb (snd (fst p)) k) (combine ns (map snd ts)) = None.
Proof.
  induction ns as [|(m, j) ns IH]; intros [|(m', e) ts] k H; try reflexivity.
  cbn [map combine find fst snd]. destruct (N.eqb j k) eqn:Q.
  - apply N.eqb_eq in Q. subst. destruct H. left. reflexivity.
  - apply IH. intro I. apply H. right. exact I.
Qed.

Lemma token_text_right ds n k : In (n, k) (numbers (all_terminals ds)) ->
  exists d, first_declared (ds ++ [(chars "EOF", chars "end of file")]) n d /\ token_text (all_terminals ds) k = escaped d.
Proof.
  intro I. pose proof (all_right ds) as (ND & H).
  destruct (C51_token_numbers text (text_eqb (chars "EOF")) (map fst (all_terminals ds)) ND) as (M & NN & _).
  { intros x y _ _ X Y. apply text_eqb_ok in X, Y. congruence. }
  assert (J : In n (map fst (all_terminals ds))) by (rewrite <- M; apply in_map_iff; exists (n, k); auto).
  apply in_map_iff in J as ((n', d) & E & J). cbn [fst] in E. subst n'.
  exists d. split; [apply H, J|]. unfold token_text, numbers.
  rewrite (find_number _ _ M NN n k d ND I J). reflexivity.
Qed.

Lemma numbers_names ds n : (exists k, In (n, k) (numbers (all_terminals ds))) <->
  In n (map fst ds) \/ n = chars "EOF".
Proof.
  pose proof (all_right ds) as (ND & H).
  destruct (C51_token_numbers text (text_eqb (chars "EOF")) (map fst (all_terminals ds)) ND) as (M & _).
  { intros x y _ _ X Y. apply text_eqb_ok in X, Y. congruence. }
  transitivity (In n (map fst (all_terminals ds))).
  - rewrite <- M. unfold numbers. rewrite in_map_iff. split.
    + intros (k & I). exists (n, k). auto.
    + intros ((m, k) & E & I). cbn [fst] in E. subst. exists k. exact I.
  - rewrite in_map_iff. split.
    + intros ((m, d) & E & I). cbn [fst] in E. subst. apply H in I as (l & r & E & _).
      assert (X : In n (map fst (ds ++ [(chars "EOF", chars "end of file")]))).
      { rewrite E, map_app. apply in_app_iff. right. left. reflexivity. }
      rewrite map_app, in_app_iff in X. destruct X as [X | [X | []]]; [auto | right; symmetry; exact X].
    + intro X. destruct (declared_name (ds ++ [(chars "EOF", chars "end of file")]) n) as (d & F).
      { rewrite map_app, in_app_iff. destruct X as [X | ->]; [auto | right; left; reflexivity]. }
      exists (n, d). split; [reflexivity | apply H, F].
Qed.
