(** C113: what a generated DebugVisitor prints. *)
From Coq Require Import List NArith ZArith Bool Ascii String Lia.
From Verif Require Import FlexModel DebugModel DebugSpec DebugProofs.
Import ListNotations.

(** The lines without the name of a member are those of the nodes, each once, parents first and in
    order, indented by their depth. *)
Theorem C113_nodes : forall stream place content t d, named t -> exists l, preorder d t l /\
  map (fun x => (indent x, type_ x, from x, to x, shown x)) (filter (fun x => match name x with [] => true | _ => false end) (dump stream place content d t)) =
  map (fun x : nat * tree => let (_, ty, s, e, _) := snd x in (fst x, ty, spot_of stream place s, spot_of stream place e, token_string stream content s e)) l.
Proof.
  intros stream place content t d N. destruct (own_lines stream place content t N d) as (l & P & E). exists l. split; [exact P|].
  unfold own in E. rewrite E, map_map. apply map_ext. intros (k & [o ty s e ms]). reflexivity.
Qed.
Print Assumptions C113_nodes.

(** Nothing but tokens is lost: trees with the same dump have the same shape. *)
Theorem C113_shape : forall stream place content t t' d, named t -> named t' ->
  dump stream place content d t = dump stream place content d t' -> exists s, has_shape stream place content t s /\ has_shape stream place content t' s.
Proof.
  intros stream place content t t' d N N' E.
  refine (proj2 (dump_shape stream place content t N t' d [] [] N' (or_introl eq_refl) (or_introl eq_refl) _)). rewrite !app_nil_r. exact E.
Qed.
Print Assumptions C113_shape.

(** The text of a node of at most 31 characters is shown as it is. *)
Theorem C113_text : forall stream content s e x, (0 <= s < Z.of_nat (List.length stream))%Z -> (0 <= e < Z.of_nat (List.length stream))%Z ->
  content <> [] -> segment content (tbegin (token_at stream s)) (tend (token_at stream e)) x -> List.length x <= 31 ->
  forall y, visible x y <-> y = token_string stream content s e.
Proof.
  intros stream content s e x S0 E0 N G L y.
  assert (V : visible x (token_string stream content s e)).
  { apply token_string_short; auto; unfold valid; apply andb_true_intro; split; [apply Z.leb_le|apply Z.ltb_lt|apply Z.leb_le|apply Z.ltb_lt]; lia. }
  split; [intros W; exact (visible_unique _ _ W _ V)|intros ->; exact V].
Qed.
Print Assumptions C113_text.

(** Of a longer one, the first ten characters, and the ten before the last. *)
Theorem C113_long : forall stream content s e p m q c, (0 <= s < Z.of_nat (List.length stream))%Z -> (0 <= e < Z.of_nat (List.length stream))%Z ->
  segment content (tbegin (token_at stream s)) (tend (token_at stream e)) (p ++ m ++ q ++ [c]) -> List.length p = 10 -> List.length q = 10 -> 10 < List.length m ->
  forall y, visible (p ++ chars " ..." ++ number (Z.of_nat (List.length m)) ++ chars " more... " ++ q) y <-> y = token_string stream content s e.
Proof.
  intros stream content s e p m q c S0 E0 (u & v & C & B & E) P Q M y.
  assert (V : visible (p ++ chars " ..." ++ number (Z.of_nat (List.length m)) ++ chars " more... " ++ q) (token_string stream content s e)).
  { apply (token_string_long stream content s e p m q c u v); auto; unfold valid; apply andb_true_intro; split; [apply Z.leb_le|apply Z.ltb_lt|apply Z.leb_le|apply Z.ltb_lt]; lia. }
  split; [intros W; exact (visible_unique _ _ W _ V)|intros ->; exact V].
Qed.
Print Assumptions C113_long.

(** So the count of what is left out is one too small, and the last character is never shown. *)
Definition long_token : list token := [Token 0 31].
Theorem C113_last_refuted : exists x y, List.length x = 32 /\ List.length y = 32 /\ x <> y /\
  segment x 0 31 x /\ segment y 0 31 y /\ token_string long_token x 0 0 = token_string long_token y 0 0.
Proof.
  exists (chars "abcdefghijklmnopqrstuvwxyz01234{"), (chars "abcdefghijklmnopqrstuvwxyz01234}"). split; [reflexivity|]. split; [reflexivity|]. split; [discriminate|].
  split; [|split]; [exists [], []; rewrite app_nil_r; repeat split|exists [], []; rewrite app_nil_r; repeat split|]. vm_compute. reflexivity.
Qed.
Print Assumptions C113_last_refuted.

(** A node without tokens starts at the next token and ends at the one before; if there is room
    between the two, all the rest of the text is shown. *)
Definition two_tokens : list token := [Token 0 0; Token 2 2].
Theorem C113_empty_refuted : exists content, token_string two_tokens content 1 0 = chars "b and the rest".
Proof. exists (chars "a b and the rest"). vm_compute. reflexivity. Qed.
Print Assumptions C113_empty_refuted.

(** An expression with two children, one of them a list. *)
Definition leaf (n : string) (i : Z) : tree := Tree false (chars n) i i [].
Definition sum : tree := Tree false (chars "sum") 0 1 [(chars "args", chars "number", [leaf "number" 0; leaf "number" 1]); (chars "none", chars "unit", [])].
Example C113_case : named sum /\ map (fun l => (indent l, name l, type_ l, shown l)) (dump two_tokens (fun z => (0, z)%Z) (chars "a b") 0 sum) =
  [(0, [], chars "sum", chars "a b");
   (0, chars "args", chars "number", chars "a"); (0, chars "args", chars "number", chars "b");
   (1, [], chars "number", chars "a"); (1, [], chars "number", chars "b")].
Proof.
  split; [|vm_compute; reflexivity]. constructor.
  - intros m [<- |[<- |[]]]; discriminate.
  - apply Forall_forall. cbn. intros x [<- |[<- |[]]]; constructor; try (intros m []); constructor.
Qed.
Example C113_text_case : segment (chars "a b") (tbegin (token_at two_tokens 0)) (tend (token_at two_tokens 1)) (chars "a b").
Proof. exists [], []. repeat split. Qed.
