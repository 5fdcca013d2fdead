(** The names in the generated declarations, and the default visitor. *)
From Coq Require Import List NArith PeanoNat Bool Lia.
From Verif Require Import Base ItemModel InlineSpec MembersModel MembersSpec MembersProofs InlineProps.
Import ListNotations.

(** C75.  In the output for a symbol with one rule, every name is declared once
    and with the type it is used with: the struct of the AST node has every member
    declared in the rule, in its annotations or in the rules inlined, and no
    other; the parse method has the arguments as parameters, assigns to variables
    in scope and to members of the struct only, and stores what is annotated.
    Needed: declarations of one name agree, no name is another one followed by
    Sequence, arguments are of the rule itself and have different names, and, with
    AST generation, tokens are members or in lists. *)
Theorem C75_names_partial : forall g, ~ cyclic g -> ~ inlines_operator g -> exists f0, forall fuel ast s r, f0 <= fuel -> env g s = [r] ->
  consistent (declared g r) -> apart (declared g r) -> no_arguments (declared_in g (ritem r)) -> NoDup (argument_names (rdecls r)) ->
  (ast = true -> tokens_kept (declared_in g (ritem r))) ->
  exists st m, structs g fuel s = Some [st] /\ parse_method g fuel ast s = Some m /\
    NoDup (map fst st) /\ good_method st m /\
    (forall v, In v st <-> exists d, declared g r d /\ dmember d = true /\ as_var d = v) /\
    (forall v, In v (fst m) <-> exists d, In d (rdecls r) /\ dargument d = true /\ (ast = true \/ dmember d = false) /\ as_var d = v) /\
    (ast = true -> forall x k q a, annotated g (ritem r) x k q a -> occurs (store x k q a) (snd m)).
Proof. exact names_ok. Qed.
Print Assumptions C75_names_partial.

(** Each of the conditions is needed, and no checker asks for them; the output does
    not compile then.  s = [1], x = [2], A = [3], B = [4]. *)
Definition lone (ds : list decl) (i : item) : grammar := Grammar [Rule [1]%N ds i] (fun _ => None).
Ltac not_named := intros (_ & X); cbn [fst snd] in X;
  repeat match goal with
         | H : well_named _ _ (_ :: _) |- _ => inversion H; clear H; subst
         | H : visible _ _ _ |- _ => inversion H; clear H; subst
         | H : In _ [] |- _ => destruct H
         | H : In _ (_ :: _) |- _ => destruct H as [H|H]; [try discriminate H|]
         end.
(** [A -> x] kept in a variable: [(yynode)->x = -1] is generated. *)
Theorem C75_temporary_token_refuted : exists g st m,
  structs g 1 [1]%N = Some [st] /\ parse_method g 1 true [1]%N = Some m /\ ~ good_method st m.
Proof.
  exists (lone [] (IAnn [2]%N false false (ATerm [3]%N))). eexists. eexists. split; [vm_compute; reflexivity|]. split; [vm_compute; reflexivity|]. not_named.
Qed.
(** A name for a token and for a list of tokens: the list is not declared. *)
Theorem C75_token_and_list_refuted : exists g st m,
  structs g 1 [1]%N = Some [st] /\ parse_method g 1 true [1]%N = Some m /\ ~ good_method st m.
Proof.
  exists (lone [] (ICons (IAnn [2]%N true false (ATerm [3]%N)) (IAnn [2]%N true true (ATerm [4]%N)))). eexists. eexists.
  split; [vm_compute; reflexivity|]. split; [vm_compute; reflexivity|]. not_named.
Qed.
(** Two arguments of one name. *)
Theorem C75_same_arguments_refuted : exists g st m,
  structs g 1 [1]%N = Some [st] /\ parse_method g 1 false [1]%N = Some m /\ ~ NoDup (map fst (fst m)).
Proof.
  exists (lone [Decl [2]%N false true VVariable false [7]%N; Decl [2]%N false true VVariable false [7]%N] (IAtom (ATerm [3]%N))). eexists. eexists.
  split; [vm_compute; reflexivity|]. split; [vm_compute; reflexivity|]. intros N. inversion N as [|x l A B]. apply A. left. reflexivity.
Qed.
(** An argument of a rule that is inlined: it is no parameter. *)
Theorem C75_inlined_argument_refuted : exists g st m,
  structs g 2 [1]%N = Some [st] /\ parse_method g 2 true [1]%N = Some m /\ ~ good_method st m.
Proof.
  exists (Grammar [Rule [1]%N [] (IInl 0); Rule [5]%N [Decl [2]%N true true VVariable false [7]%N] (IAtom (ATerm [3]%N))] (fun _ => Some [5]%N)). eexists. eexists.
  split; [vm_compute; reflexivity|]. split; [vm_compute; reflexivity|]. not_named.
Qed.
(** Two rules for a symbol, as kdev-pg-code-gen.cpp 1234-1235 foresees: with a list kept in a variable
    in both of them the variable is declared in the block of the one only; and
    the struct is defined twice. *)
Theorem C75_two_rules_refuted : exists g st m,
  structs g 1 [1]%N = Some [st; st] /\ parse_method g 1 true [1]%N = Some m /\ ~ good_method st m.
Proof.
  exists (Grammar [Rule [1]%N [] (IAnn [2]%N false true (ATerm [3]%N)); Rule [1]%N [] (IAnn [2]%N false true (ATerm [4]%N))] (fun _ => None)). eexists. eexists.
  split; [vm_compute; reflexivity|]. split; [vm_compute; reflexivity|]. not_named.
Qed.
Print Assumptions C75_two_rules_refuted.

(** C76.  With one rule for every symbol, visitNode of the default visitor calls
    itself once for every node of the tree, parents before their children, children
    in the order of the members; and what the generated methods name is there. *)
Theorem C76_visits_all_partial : forall g, ~ cyclic g -> ~ inlines_operator g ->
  (forall s, env g s = [] \/ exists r, env g s = [r] /\ is_operator r = false /\ consistent (declared g r) /\ apart (declared g r)) ->
  exists f0, forall fuel, f0 <= fuel -> forall t, conforms (struct_of g fuel) t -> exists f, visit (calls_in g fuel) f t = Some (preorder t).
Proof. exact visits_ok. Qed.
Print Assumptions C76_visits_all_partial.

(** The parameter of the method is given its name if it is used, provided
    that of the declarations of a rule the first is of a node member if any is. *)
Theorem C76_parameter_named_partial : forall g fuel s b l, (forall r, In r (rules g) -> leads r) ->
  visitor g fuel s = Some (b, l) -> l <> [] -> b = true.
Proof. exact named_ok. Qed.
Print Assumptions C76_parameter_named_partial.
Lemma atom_declares g a d : ~ declared_in g (IAtom a) d.
Proof. intros [(x & m & s & b & Y & _)|(r & Y & _)]; inversion Y; subst; match goal with I : inlined _ _ |- _ => inversion I end. Qed.
(** [s [member token t; member node x: u]]: the body is visitNode(node->x), the parameter
    has no name. *)
Theorem C76_parameter_unnamed_refuted : exists g, visitor g 1 [1]%N = Some (false, [([2]%N, false)]) /\
  ~ cyclic g /\ consistent (declared g (hd (Rule [] [] IZero) (rules g))).
Proof.
  exists (lone [Decl [8]%N true false VToken false []; Decl [2]%N true false VNode false [5]%N] (IAtom (ATerm [3]%N))).
  split; [vm_compute; reflexivity|]. split.
  - destruct (C74_errors_exact (lone [Decl [8]%N true false VToken false []; Decl [2]%N true false VNode false [5]%N] (IAtom (ATerm [3]%N))) 1 (le_n 1)) as (c & E & H).
    apply H. vm_compute in E. injection E as <-. reflexivity.
  - intros d e [X|X] [Y|Y].
    2-4: exfalso; (exact (atom_declares _ _ _ Y) || exact (atom_declares _ _ _ X)).
    destruct X as [<-|[<-|[]]]; destruct Y as [<-|[<-|[]]]; intros E; try discriminate E; split; reflexivity.
Qed.
Print Assumptions C76_parameter_unnamed_refuted.

(** A grammar with the two kinds of members, a variable, an argument and an
    inlined rule:
      n=u #m=u v:u T inline w -> s [argument temporary variable y: int] ;;
      T -> u ;;   k=T -> w [member node n: u]
    and a tree of it. *)
Definition sample : grammar := Grammar
  [Rule [1]%N [Decl [9]%N false true VVariable false [7]%N]
     (ICons (ICons (ICons (ICons (IAnn [2]%N true false (ANon [5]%N)) (IStar (IAnn [3]%N true true (ANon [5]%N)))) (IAnn [4]%N false false (ANon [5]%N))) tok) (IInl 0));
   Rule [5]%N [] tok;
   Rule [6]%N [Decl [2]%N true false VNode false [5]%N] (IAnn [10]%N true false (ATerm [84]%N))]
  (fun n => nth_error [[6]]%N n).
Definition seq (x : text) : text := x ++ t_sequence.
Example C75_case :
  structs sample 3 [1]%N = Some [[([2]%N, (false, CNode [5]%N)); (seq [3]%N, (true, CNode [5]%N)); ([10]%N, (false, CInt))]] /\
  parse_method sample 3 true [1]%N = Some ([([9]%N, (false, CUser [7]%N))],
    [SMember [10]%N (false, CInt);
     SBlock [SVar ([4]%N, (false, CNode [5]%N)); SMember [2]%N (false, CNode [5]%N); SBlock [SMember (seq [3]%N) (true, CNode [5]%N)];
             SAssign [4]%N (false, CNode [5]%N); SBlock [SMember [10]%N (false, CInt)]]]).
Proof. split; vm_compute; reflexivity. Qed.
Lemma sample_acyclic : ~ cyclic sample /\ ~ inlines_operator sample.
Proof. destruct (C74_errors_exact sample 3 (le_n 3)) as (c & E & H). apply H. vm_compute in E. injection E as <-. reflexivity. Qed.
Definition leaf (i : nat) : tree := Tree i [5]%N [].
Example C76_case :
  (~ cyclic sample /\ ~ inlines_operator sample) /\
  let t := Tree 0 [1]%N [([2]%N, [leaf 1]); (seq [3]%N, [leaf 2; leaf 3])] in
  conforms (struct_of sample 3) t /\ visit (calls_in sample 3) 5 t = Some [0; 1; 2; 3] /\ preorder t = [0; 1; 2; 3].
Proof.
  split; [exact sample_acyclic|]. cbv zeta. split; [|split; vm_compute; reflexivity].
  assert (L : forall i, conforms (struct_of sample 3) (leaf i)) by (intros i; constructor; [vm_compute; constructor|constructor]).
  constructor.
  - change (filter is_node_var (struct_of sample 3 [1]%N)) with [([2]%N, (false, CNode [5]%N)); (seq [3]%N, (true, CNode [5]%N))].
    constructor; [split; [reflexivity|right; cbn; lia]|]. constructor; [split; [reflexivity|left; reflexivity]|]. constructor.
  - repeat constructor; apply L.
Qed.
