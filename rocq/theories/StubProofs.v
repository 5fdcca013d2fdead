(** The functions of visitors: lemmas for C124. *)
From Coq Require Import List NArith Bool FinFun.
From Verif Require Import AstModel StubModel StubSpec.
Import ListNotations.
Local Open Scope N_scope.

Lemma declare_names class s x : In x (declare class s) <-> fst x = class /\ In (snd x) (if soper (vsym s) then op_names (capitalized (sname (vsym s))) else [capitalized (sname (vsym s))]).
Proof. destruct x as [a b]. unfold declare, op_names. cbn [fst snd]. destruct (soper (vsym s)); cbn [In]; split; intros H; intuition (subst; try congruence; auto). Qed.
Lemma define_declare class s : define class s = declare class s.
Proof. unfold define, declare. destruct (soper (vsym s)); reflexivity. Qed.
Lemma op_names_in c x : In x (op_names c) <-> In x (map (fun p => p ++ c) [t_prefix; t_postfix; t_binary; t_ternary]).
Proof. reflexivity. Qed.
Lemma op_same a b x : In x (op_names a) -> In x (op_names b) -> a = b.
Proof.
  unfold op_names, t_prefix, t_postfix, t_binary, t_ternary. cbn [In app].
  intros [<-|[<-|[<-|[<-|[]]]]] [H|[H|[H|[H|[]]]]]; congruence.
Qed.
Lemma op_nodup c : NoDup (op_names c).
Proof.
  unfold op_names, t_prefix, t_postfix, t_binary, t_ternary. cbn [app].
  repeat constructor; cbn [In]; intuition congruence.
Qed.
Lemma declare_nodup class s : NoDup (declare class s).
Proof.
  unfold declare. destruct (soper (vsym s)); [|repeat constructor; intros []].
  pose proof (op_nodup (capitalized (sname (vsym s)))) as N. unfold op_names in N.
  change [(class, t_prefix ++ capitalized (sname (vsym s))); (class, t_postfix ++ capitalized (sname (vsym s))); (class, t_binary ++ capitalized (sname (vsym s))); (class, t_ternary ++ capitalized (sname (vsym s)))]
    with (map (pair class) [t_prefix ++ capitalized (sname (vsym s)); t_postfix ++ capitalized (sname (vsym s)); t_binary ++ capitalized (sname (vsym s)); t_ternary ++ capitalized (sname (vsym s))]).
  apply Injective_map_NoDup; [intros a b E; congruence|exact N].
Qed.
Lemma declared_nodup class l : names_apart (map vsym l) -> NoDup (declared class l).
Proof.
  induction l as [|s l IH]; intros [A B]; [constructor|]. unfold declared. cbn [flat_map]. fold (declared class l).
  cbn [map] in A. inversion A as [|c m NI A' E1]. subst c m.
  assert (APART : names_apart (map vsym l)) by (split; [exact A'|]; intros a o Ia Io; apply B; right; assumption).
  specialize (IH APART).
  assert (DIS : forall x, In x (declare class s) -> ~ In x (declared class l)).
  { intros x Hx Hl. unfold declared in Hl. apply in_flat_map in Hl. destruct Hl as (s' & Is' & Hx'). apply declare_names in Hx. apply declare_names in Hx'.
    destruct Hx as [_ Hx]. destruct Hx' as [_ Hx'].
    assert (NE : capitalized (sname (vsym s)) <> capitalized (sname (vsym s'))).
    { intros E. apply NI. rewrite E. apply (in_map (fun t => capitalized (sname t))). apply in_map. exact Is'. }
    assert (I1 : In (vsym s) (map vsym (s :: l))) by (left; reflexivity). assert (I2 : In (vsym s') (map vsym (s :: l))) by (right; apply in_map; exact Is').
    destruct (soper (vsym s)) eqn:O1; destruct (soper (vsym s')) eqn:O2.
    - exact (NE (op_same _ _ _ Hx Hx')).
    - destruct Hx' as [Hx'|[]]. rewrite <- Hx' in Hx. exact (B _ _ I2 I1 O1 Hx).
    - destruct Hx as [Hx|[]]. rewrite <- Hx in Hx'. exact (B _ _ I1 I2 O2 Hx').
    - destruct Hx as [Hx|[]]. destruct Hx' as [Hx'|[]]. congruence. }
  revert DIS. pose proof (declare_nodup class s) as N. induction (declare class s) as [|x d IHd]; intros DIS; [exact IH|].
  inversion N as [|y e N1 N2 E]. subst y e. cbn [app]. constructor.
  - intros H. apply in_app_or in H. destruct H as [H|H]; [exact (N1 H)|exact (DIS x (or_introl eq_refl) H)].
  - apply IHd; [exact N2|]. intros z Hz. apply DIS. right. exact Hz.
Qed.
