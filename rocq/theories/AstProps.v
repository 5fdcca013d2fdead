(** Theorems about the generated AST classes and visitors (properties C52, C59). *)
From Coq Require Import List NArith PeanoNat Bool Lia Permutation.
From Verif Require Import AstModel AstSpec AstProofs.
Import ListNotations.
Local Open Scope N_scope.

(** ** C52: visitor dispatch *)
(** The values of the kinds are 1000, 1001, and so on. *)
Theorem C52_kinds : forall l, NoDup (map snd (node_kinds l)) /\ map snd (node_kinds l) = map (fun k => 1000 + N.of_nat k) (seq 0 (length (node_kinds l))).
Proof. intros l. split; [apply kinds_nodup|apply kinds_snd]. Qed.
Print Assumptions C52_kinds.
(** Provided the names of the enumerators differ (C++ rejects them otherwise). *)
Theorem C52_dispatch : forall l s x, NoDup (map fst (node_kinds l)) -> In s l -> In x (created s) ->
  exists v, lookup x (node_kinds l) = Some v /\ visit_by_switch l v = Some x /\ visit_by_table l v = Some (Some x).
Proof. intros l s x N I C. exact (dispatch l s x N I C). Qed.
Print Assumptions C52_dispatch.
(** The kinds without a method are those of the operator symbols themselves. *)
Theorem C52_table_entries : forall l x v, In (x, v) (node_kinds l) ->
  visit_by_table l v = Some (Some x) \/ visit_by_table l v = Some None /\ exists s, In s l /\ soper s = true /\ x = capitalized (sname s).
Proof. intros l x v I. exact (table_entry l x v I). Qed.
Print Assumptions C52_table_entries.
(** a, the operator symbol e, and prim *)
Definition asample : list symbol :=
  [{| sname := [97]; soper := false; srules := [false]; sbase := [] |}; {| sname := [101]; soper := true; srules := [true]; sbase := [] |};
   {| sname := [112; 114; 105; 109]; soper := false; srules := [false]; sbase := [69; 65; 115; 116] |}].
Example C52_case : NoDup (map fst (node_kinds asample)) /\ map snd (node_kinds asample) = [1000; 1001; 1002; 1003; 1004; 1005; 1006] /\
  visit_by_table asample 1003 = Some (Some (t_binary ++ [69])) /\ visit_by_switch asample 1003 = Some (t_binary ++ [69]) /\
  visit_by_table asample 1006 = Some (Some [80; 114; 105; 109]) /\ visit_by_table asample 1005 = Some None.
Proof. split; [|repeat split; reflexivity]. vm_compute. repeat constructor; cbn; intuition discriminate. Qed.
(** Symbols that differ in the case of the first letter only have the same kind
    names; so have the operator symbol e and a symbol prefixE. *)
Theorem C52_names_refuted : exists a b, sname a <> sname b /\ ~ NoDup (map fst (node_kinds [a; b])).
Proof.
  exists {| sname := [97; 98]; soper := false; srules := [false]; sbase := [] |}, {| sname := [65; 98]; soper := false; srules := [false]; sbase := [] |}.
  split; [discriminate|]. vm_compute. intros N. inversion N as [|? ? X _]; subst. apply X. left. reflexivity.
Qed.
Print Assumptions C52_names_refuted.

(** ** C59: base classes *)
(** The tool does not hang, and generates the structs of every symbol once. *)
Theorem C59_all_generated : forall hash fuel l, (forall w, Permutation w (hash w)) -> (length l < fuel)%nat ->
  exists e, generate_ast hash fuel l = Some (flat_map structs e) /\ Permutation l e.
Proof. intros hash fuel l H F. exact (emitted hash fuel l H F). Qed.
Print Assumptions C59_all_generated.
(** Full statement: for every table of base classes; false (below).  Here:
    generated base classes have no declared base class themselves. *)
Theorem C59_bases_first_partial : forall hash fuel l, (forall w, Permutation w (hash w)) -> (length l < fuel)%nat ->
  (forall s, In s l -> match sbase s with 32 :: _ => False | _ => True end) ->
  (forall s, In s l -> sbase s <> [] -> In (sbase s) (flat_map classes l) -> exists b, In b l /\ sbase b = [] /\ In (sbase s) (classes b)) ->
  exists o, generate_ast hash fuel l = Some o /\ bases_first o.
Proof.
  intros hash fuel l H F P ONE. rewrite (emitted_plain hash fuel l H F P). eexists. split; [reflexivity|]. rewrite <- flat_map_app.
  set (w := filter (fun s => negb (blank s)) l).
  assert (W : forall s, In s (hash w) <-> In s l /\ blank s = false).
  { intros s. split.
    - intros I. apply (Permutation_in _ (Permutation_sym (H w))) in I. apply filter_In in I. destruct I as [I B]. split; [exact I|destruct (blank s); [discriminate|reflexivity]].
    - intros [I B]. apply (Permutation_in _ (H w)). apply filter_In. rewrite B. auto. }
  apply bases_ok.
  - intros s I. apply W in I. apply I.
  - intros s I. apply filter_In in I. apply I.
  - intros s I J. apply W in I. destruct I as [I B]. assert (NE : sbase s <> []) by (unfold blank in B; destruct (sbase s); discriminate).
    destruct (ONE s I NE) as (b & Ib & Eb & C).
    + apply in_flat_map in J. destruct J as (t & It & Ct). apply in_flat_map. exists t. split; [|exact Ct]. apply in_app_or in It. destruct It as [It|It]; [apply filter_In in It; apply It|apply W in It; apply It].
    + apply in_flat_map. exists b. split; [|exact C]. apply filter_In. split; [exact Ib|]. unfold blank. rewrite Eb. reflexivity.
Qed.
Print Assumptions C59_bases_first_partial.
Example C59_case : (forall s, In s asample -> match sbase s with 32 :: _ => False | _ => True end) /\
  (forall s, In s asample -> sbase s <> [] -> In (sbase s) (flat_map classes asample) -> exists b, In b asample /\ sbase b = [] /\ In (sbase s) (classes b)) /\
  option_map (map fst) (generate_ast (fun w => w) 9 asample) =
  Some [[65; 65; 115; 116]; [69; 65; 115; 116]; t_prefix ++ [69; 65; 115; 116]; t_postfix ++ [69; 65; 115; 116]; t_binary ++ [69; 65; 115; 116]; t_ternary ++ [69; 65; 115; 116];
        [80; 114; 105; 109; 65; 115; 116]].
Proof.
  split; [intros s [<- | [<- | [<- | []]]]; exact I|]. split; [|reflexivity]. intros s [<- | [<- | [<- | []]]] NE _; try (exfalso; apply NE; reflexivity).
  exists {| sname := [101]; soper := true; srules := [true]; sbase := [] |}. split; [right; left; reflexivity|]. split; [reflexivity|]. left. reflexivity.
Qed.
(** An operator expression e over the operator expression f over prim: the
    classes of prim and f can come in the wrong order. *)
Definition nested_operators : list symbol :=
  [{| sname := [101]; soper := true; srules := [true]; sbase := [] |}; {| sname := [102]; soper := true; srules := [true]; sbase := [69; 65; 115; 116] |};
   {| sname := [112]; soper := false; srules := [false]; sbase := [70; 65; 115; 116] |}].
Theorem C59_bases_first_refuted : exists hash, (forall w, Permutation w (hash w)) /\ exists o, generate_ast hash 9 nested_operators = Some o /\ ~ bases_first o.
Proof.
  exists (@rev symbol). split; [apply Permutation_rev|]. eexists. split; [vm_compute; reflexivity|]. intros B.
  specialize (B [([69; 65; 115; 116], t_node); (t_prefix ++ [69; 65; 115; 116], [69; 65; 115; 116]); (t_postfix ++ [69; 65; 115; 116], [69; 65; 115; 116]);
                 (t_binary ++ [69; 65; 115; 116], [69; 65; 115; 116]); (t_ternary ++ [69; 65; 115; 116], [69; 65; 115; 116])] [80; 65; 115; 116] [70; 65; 115; 116] _ eq_refl).
  cbn in B. specialize (B ltac:(auto 20)). decompose [or] B; try contradiction; discriminate.
Qed.
Print Assumptions C59_bases_first_refuted.
(** A symbol with two rules gets its struct twice. *)
Theorem C59_once_refuted : exists s, generate_ast (fun w => w) 9 [s] = Some [([65; 65; 115; 116], t_node); ([65; 65; 115; 116], t_node)].
Proof. exists {| sname := [97]; soper := false; srules := [false; false]; sbase := [] |}. reflexivity. Qed.
Print Assumptions C59_once_refuted.
