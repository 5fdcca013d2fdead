(** The generated visitors: property C124. *)
From Coq Require Import List NArith Bool.
From Verif Require Import AstModel StubModel StubSpec StubProofs.
Import ListNotations.
Local Open Scope N_scope.

(** ** C124: the functions of a visitor are there
    Full statement: for all symbols, and for visitors made with
    --new-visitor --inherit-default-visitor too; false (below). *)
Theorem C124_functions_partial : forall class l, names_apart (map vsym l) -> complete_class (declared class l) (defined class l).
Proof.
  intros class l A. assert (E : defined class l = declared class l).
  { unfold defined, declared. clear A. induction l as [|s l IH]; [reflexivity|]. cbn [flat_map]. rewrite define_declare, IH. reflexivity. }
  rewrite E. pose proof (declared_nodup class l A) as N. split; [exact N|]. split; [exact N|]. intros f. reflexivity.
Qed.
Print Assumptions C124_functions_partial.
(** What is declared overrides a function of Visitor, and all of them are. *)
Theorem C124_overrides : forall class l x, In (class, x) (declared class l) <-> In x (base_functions l).
Proof.
  intros class l x. unfold declared, base_functions. split; intros H; apply in_flat_map in H; destruct H as (s & Is & H); apply in_flat_map; exists s; (split; [exact Is|]).
  - apply declare_names in H. exact (proj2 H).
  - apply declare_names. split; [reflexivity|exact H].
Qed.
Print Assumptions C124_overrides.
(** [expr] with operators, and [id]. *)
Definition sample : list vsymbol := [VS {| sname := [101; 120; 112; 114]; soper := true; srules := [true]; sbase := [] |} true;
  VS {| sname := [105; 100]; soper := false; srules := [false]; sbase := [] |} false].
Example C124_case : names_apart (map vsym sample) /\ length (declared [77] sample) = 5%nat /\ In ([77], [73; 100]) (defined [77] sample).
Proof.
  split; [|split; [reflexivity|cbn; auto 10]]. split.
  - repeat constructor; cbn; intuition discriminate.
  - intros s o [<-|[<-|[]]] [<-|[<-|[]]] O; try discriminate; cbn; intuition discriminate.
Qed.
(** [foo] and [Foo]; an operator symbol [expr] and a symbol [binaryExpr]. *)
Theorem C124_names_refuted :
  (exists l class, NoDup (map (fun s => sname (vsym s)) l) /\ (forall s, In s l -> soper (vsym s) = false) /\ ~ NoDup (declared class l)) /\
  (exists l class, NoDup (map (fun s => capitalized (sname (vsym s))) l) /\ ~ NoDup (declared class l)).
Proof.
  split.
  - exists [VS {| sname := [70; 111; 111]; soper := false; srules := [false]; sbase := [] |} true; VS {| sname := [102; 111; 111]; soper := false; srules := [false]; sbase := [] |} true], [77].
    split; [repeat constructor; cbn; intuition discriminate|]. split; [intros s [<-|[<-|[]]]; reflexivity|]. cbn. intros N. inversion N as [|x l NI _]. apply NI. left. reflexivity.
  - exists [VS {| sname := [98; 105; 110; 97; 114; 121; 69; 120; 112; 114]; soper := false; srules := [false]; sbase := [] |} true; VS {| sname := [101; 120; 112; 114]; soper := true; srules := [true]; sbase := [] |} true], [77].
    split; [repeat constructor; cbn; intuition discriminate|]. cbn. intros N. inversion N as [|x l NI _]. apply NI. cbn. auto.
Qed.
Print Assumptions C124_names_refuted.
(** A new visitor with inherited default: whatever its name and the symbols,
    nothing that is defined belongs to it, unless it is called like a symbol. *)
Theorem C124_new_refuted : forall class l, (forall x, In x (base_functions l) -> x <> class) ->
  forall f, In f (defined_new class l) -> ~ In f (declared class l) /\ fst f <> class.
Proof.
  intros class l N f H. unfold defined_new in H. apply in_flat_map in H. destruct H as (s & Is & H).
  assert (F : fst f = snd f /\ In (snd f) (base_functions l)).
  { unfold base_functions, define_new in *. rewrite in_flat_map. destruct (soper (vsym s)) eqn:O.
    - split; [cbn in H; intuition (subst; reflexivity)|]. exists s. rewrite O. split; [exact Is|]. unfold op_names. cbn [In] in *. intuition (subst; cbn [snd]; auto).
    - destruct (has_members s); [|destruct H]. destruct H as [<-|[]]. split; [reflexivity|]. exists s. rewrite O. split; [exact Is|left; reflexivity]. }
  destruct F as [F1 F2]. assert (NE : fst f <> class) by (rewrite F1; exact (N _ F2)). split; [|exact NE].
  intros D. unfold declared in D. apply in_flat_map in D. destruct D as (s' & _ & D). apply declare_names in D. destruct D as [D _]. contradiction.
Qed.
Print Assumptions C124_new_refuted.
Example C124_new_case : (forall x, In x (base_functions sample) -> x <> [77]) /\ length (defined_new [77] sample) = 4%nat.
Proof. split; [|reflexivity]. intros x H. cbn in H. intuition (subst; discriminate). Qed.
