(** FOLLOW holds nothing else, where FIRST does not and every rule is used. *)
From Coq Require Import List Bool PeanoNat Lia.
From Verif Require Import Base GrammarModel GrammarSpec GrammarProofs FirstProofs FollowProofs FirstSoundProofs.
Import ListNotations.

Section G.
Variable g : grammar.
Notation kind := (kind g).
Notation derives := (derives g).
Notation met := (met g).
Hypothesis WF : well_formed g = true.
Variable t : table.
Hypothesis OPERANDS : operands_not_empty g.
Hypothesis APART : heads_apart g.
Hypothesis FIRST : sound g t.
Hypothesis PRODUCTIVE : productive g.
(** Every rule can come up in a sentence. *)
Hypothesis LIVE : forall e, In e (grules g) -> exists w, occurs g e w.

(** ** Where the added nodes come up *)
Definition tail_of (x : id) (o : op) (m : id) : Prop :=
  match o with
  | OBin s => is_tok g s = true /\ kind m = NCons s x
  | OTern s u => is_tok g s = true /\ is_tok g u = true /\
      ((exists r2 r3, kind m = NCons s r2 /\ outside g r2 = true /\ kind r2 = NCons x r3 /\ outside g r3 = true /\ kind r3 = NCons u x) \/
       (exists r3, kind m = NCons x r3 /\ outside g r3 = true /\ kind r3 = NCons u x) \/ kind m = NCons u x)
  | OParen s u => is_tok g s = true /\ is_tok g u = true /\ kind m = NCons x u
  | _ => False
  end.
Inductive place : id -> list id -> Prop :=
| pl_in n w : inside g n = true -> occurs g n w -> place n w
| pl_loop p i c a m w : kind p = NStar i c a \/ kind p = NPlus i c a -> occurs g p w -> m = c \/ m = a -> place m w
| pl_chain p b ops x ops' m w : kind p = NOper b ops x -> occurs_op g p b ops w -> incl ops' ops -> chain g x m b ops' = true -> outside g m = true -> place m w
| pl_spell p b ops x o m w : kind p = NOper b ops x -> occurs_op g p b ops w -> In o ops -> spells g x m o = true -> outside g m = true -> place m w
| pl_tail p b ops x o m w : kind p = NOper b ops x -> occurs_op g p b ops w -> In o ops -> tail_of x o m -> outside g m = true -> place m w.

Lemma in_not_out n : inside g n = true -> outside g n = true -> False.
Proof. unfold inside, outside. rewrite andb_true_iff, Nat.ltb_lt, Nat.leb_le. lia. Qed.
Lemma loop_out p i c a : kind p = NStar i c a \/ kind p = NPlus i c a -> outside g c = true /\ outside g a = true.
Proof.
  intros K. assert (H : shape g p = true) by (apply (shaped g WF); destruct K as [-> | ->]; discriminate).
  unfold shape in H. destruct (inside g p); [|destruct K as [K|K]; rewrite K in H; discriminate].
  destruct K as [K|K]; rewrite K in H; repeat rewrite andb_true_iff in H; tauto.
Qed.
Lemma place_in n w : place n w -> inside g n = true -> occurs g n w.
Proof.
  intros P I. destruct P as [n w _ O|p i c a m w K _ E|p b ops x ops' m w _ _ _ _ U|p b ops x o m w _ _ _ _ U|p b ops x o m w _ _ _ _ U]; [exact O| |destruct (in_not_out _ I U)..].
  destruct (loop_out p i c a K) as (U1 & U2). destruct E as [-> | ->]; [destruct (in_not_out _ I U1)|destruct (in_not_out _ I U2)].
Qed.
Lemma base_in p b ops x : kind p = NOper b ops x -> inside g b = true.
Proof. intros K. destruct (oper_shape g WF p b ops x K) as (I & B & _). eapply below_inside; eassumption. Qed.
Lemma place_chain p b ops x ops' m w : kind p = NOper b ops x -> occurs_op g p b ops w -> incl ops' ops -> chain g x m b ops' = true -> place m w.
Proof.
  intros K O I C. destruct ops' as [|o ops'].
  - cbn [chain] in C. apply Nat.eqb_eq in C. subst m. apply pl_in; [eapply base_in; exact K|]. eapply o_base; eassumption.
  - eapply pl_chain; try eassumption. cbn [chain] in C. apply andb_true_iff in C. apply C.
Qed.
Lemma place_top p b ops x w : kind p = NOper b ops x -> occurs_op g p b ops w -> place x w.
Proof. intros K O. destruct (oper_shape g WF p b ops x K) as (_ & _ & C). eapply place_chain; [exact K|exact O|apply incl_refl|exact C]. Qed.
Lemma spells_tail x m o l r : spells g x m o = true -> kind m = NCons l r ->
  match o with OPre s => l = s /\ r = x /\ is_tok g s = true | OPost s => l = x /\ r = s /\ is_tok g s = true | OBin _ | OTern _ _ => l = x /\ tail_of x o r /\ outside g r = true
  | OParen s _ => l = s /\ is_tok g s = true /\ tail_of x o r /\ outside g r = true end.
Proof.
  intros S K. destruct o as [s|s|s|s u|s u].
  - destruct (pre_spelled g _ _ _ S) as (KL & T). rewrite K in KL. injection KL as -> ->. auto.
  - destruct (post_spelled g _ _ _ S) as (KL & T). rewrite K in KL. injection KL as -> ->. auto.
  - destruct (bin_spelled g _ _ _ S) as (q & KL & KR & T). rewrite K in KL. injection KL as -> ->. split; [reflexivity|]. split; [split; assumption|].
    unfold spells in S. rewrite K in S. unfold after in S. repeat rewrite andb_true_iff in S. tauto.
  - destruct (tern_spelled g _ _ _ _ S) as (r1 & r2 & r3 & KL & K1 & K2 & K3 & T1 & T2). rewrite K in KL. injection KL as -> ->. split; [reflexivity|].
    unfold spells in S. rewrite K in S. unfold after in S. rewrite K1, K2 in S. repeat rewrite andb_true_iff in S.
    split; [|tauto]. split; [exact T1|]. split; [exact T2|]. left. exists r2, r3. tauto.
  - destruct (paren_spelled g _ _ _ _ S) as (q & KL & KR & T1 & T2). rewrite K in KL. injection KL as -> ->. split; [reflexivity|]. split; [exact T1|].
    split; [split; [exact T1|]; split; assumption|]. unfold spells in S. rewrite K in S. unfold after in S. repeat rewrite andb_true_iff in S. tauto.
Qed.
Definition thing (m : id) : Prop := kind m <> NTerm /\ kind m <> NZero.
Lemma not_tok m : thing m -> is_tok g m = true -> False.
Proof. intros (H & _) T. apply H. apply (tok_in g WF m T). Qed.
Lemma tok_word s w : is_tok g s = true -> derives s w -> w = [s].
Proof. intros T D. apply (term_word g s w); [apply (tok_in g WF s T)|exact D]. Qed.
Lemma cons_word n l r w : kind n = NCons l r -> derives n w -> exists u v, w = u ++ v /\ derives l u /\ derives r v.
Proof. intros K D. inversion D; subst; try congruence. match goal with H : kind n = NCons _ _ |- _ => rewrite K in H; injection H as <- <- end. eauto. Qed.

Lemma place_cons n w l r : place n w -> kind n = NCons l r -> (thing r -> place r w) /\ (thing l -> forall u, derives r u -> place l (u ++ w)).
Proof.
  intros P K. destruct P as [n w I O|p i c a m w KP O E|p b ops x ops' m w KP O IN C U|p b ops x o m w KP O IN SP U|p b ops x o m w KP O IN TL U].
  - assert (SH : shape g n = true) by (apply (shaped g WF); rewrite K; discriminate). unfold shape in SH. rewrite I, K in SH.
    apply andb_true_iff in SH. destruct SH as [BL BR]. split.
    + intros _. apply pl_in; [eapply below_inside; eassumption|eapply o_consr; eassumption].
    + intros _ u D. apply pl_in; [eapply below_inside; eassumption|eapply o_consl; eassumption].
  - destruct (star_shape g WF p i c a KP) as (Ip & Bi & KC & KA). destruct E as [-> | ->]; [|congruence]. rewrite KC in K. injection K as <- <-. split.
    + intros _. eapply pl_loop; [exact KP|exact O|auto].
    + intros _ u D. apply pl_in; [eapply below_inside; eassumption|]. destruct KP as [KP|KP].
      * eapply o_star; [exact O|exact KP|]. apply (proj1 (star_outer g WF p i c a KP a u D) eq_refl).
      * destruct (proj2 (plus_outer g WF p i c a KP a u D) eq_refl) as [-> | D']; [eapply o_plus; eassumption|eapply o_plus2; eassumption].
  - destruct ops' as [|o ops']; cbn [chain] in C; [|rewrite K, andb_false_r in C; discriminate].
    apply Nat.eqb_eq in C. subst m. destruct (in_not_out b (base_in p b ops x KP) U).
  - pose proof (spells_tail x m o l r SP K) as Q. pose proof (fun w0 => oper_top g WF p b ops x w0 KP) as TOP.
    destruct o as [s|s|s|s u|s u].
    + destruct Q as (-> & -> & T). split; [intros _; eapply place_top; eassumption|]. intros H. destruct (not_tok s H T).
    + destruct Q as (-> & -> & T). split; [intros H; destruct (not_tok s H T)|]. intros _ v D. apply (tok_word s v T) in D. subst v. eapply place_top; [exact KP|]. apply oo_post; assumption.
    + destruct Q as (-> & TL & UR). split; [intros _; eapply pl_tail; eassumption|]. intros _ v D. destruct TL as (T & KR).
      destruct (cons_word r s x v KR D) as (v1 & v2 & -> & D1 & D2). apply (tok_word s v1 T) in D1. subst v1. rewrite <- app_assoc. eapply place_top; [exact KP|].
      apply (oo_bin g p b ops s v2 w); auto.
    + destruct Q as (-> & TL & UR). split; [intros _; eapply pl_tail; eassumption|]. intros _ v D. destruct TL as (T1 & T2 & [(r2 & r3 & K1 & _ & K2 & _ & K3)|[(r3 & K2 & _)|K2]]).
      * destruct (cons_word r s r2 v K1 D) as (v1 & v2 & -> & D1 & D2). apply (tok_word s v1 T1) in D1. subst v1.
        destruct (cons_word r2 x r3 v2 K2 D2) as (v3 & v4 & -> & D3 & D4). destruct (cons_word r3 u x v4 K3 D4) as (v5 & v6 & -> & D5 & D6). apply (tok_word u v5 T2) in D5. subst v5.
        replace (([s] ++ v3 ++ [u] ++ v6) ++ w) with (s :: v3 ++ u :: v6 ++ w) by (cbn; rewrite <- !app_assoc; reflexivity).
        eapply place_top; [exact KP|]. apply (oo_tern1 g p b ops s u v3 v6 w); auto.
      * destruct (tern_spelled g _ _ _ _ SP) as (q1 & q2 & q3 & KL & Q1 & _). rewrite K in KL. injection KL as <-. rewrite K2 in Q1. injection Q1 as Q1 _. subst s.
        exfalso. destruct (oper_shape g WF p b ops x KP) as (_ & _ & CH). destruct ops as [|o1 ops1]; [destruct IN|]. cbn [chain] in CH. apply andb_true_iff in CH. apply (in_not_out x (tok_inside g x T1)). apply CH.
      * destruct (tern_spelled g _ _ _ _ SP) as (q1 & q2 & q3 & KL & Q1 & Q2 & _). rewrite K in KL. injection KL as <-. rewrite K2 in Q1. injection Q1 as <- <-.
        exfalso. destruct (oper_shape g WF p b ops x KP) as (_ & _ & CH). destruct ops as [|o1 ops1]; [destruct IN|]. cbn [chain] in CH. rewrite Q2 in CH. rewrite andb_false_r in CH. discriminate.
    + destruct Q as (-> & T & TL & UR). split; [intros _; eapply pl_tail; eassumption|]. intros H. destruct (not_tok s H T).
  - destruct o as [s|s|s|s u|s u]; cbn [tail_of] in TL; [contradiction..| | |].
    + destruct TL as (T & KM). rewrite K in KM. injection KM as -> ->. split; [intros _; eapply place_top; eassumption|]. intros H. destruct (not_tok s H T).
    + destruct TL as (T1 & T2 & [(r2 & r3 & K1 & U2 & K2 & U3 & K3)|[(r3 & K2 & U3 & K3)|K3]]).
      * rewrite K in K1. injection K1 as -> ->. split; [|intros H; destruct (not_tok s H T1)]. intros _. eapply pl_tail; [exact KP|exact O|exact IN| |exact U2].
        split; [exact T1|]. split; [exact T2|]. right. left. eauto.
      * rewrite K in K2. injection K2 as -> ->. split.
        { intros _. eapply pl_tail; [exact KP|exact O|exact IN| |exact U3]. split; [exact T1|]. split; [exact T2|]. auto. }
        intros _ v D. destruct (cons_word r3 u x v K3 D) as (v5 & v6 & -> & D5 & D6). apply (tok_word u v5 T2) in D5. subst v5. rewrite <- app_assoc.
        eapply place_top; [exact KP|]. apply (oo_tern2 g p b ops s u v6 w); auto. eapply oper_top; eassumption.
      * rewrite K in K3. injection K3 as -> ->. split; [intros _; eapply place_top; eassumption|]. intros H. destruct (not_tok u H T2).
    + destruct TL as (T1 & T2 & KM). rewrite K in KM. injection KM as -> ->. split; [intros H; destruct (not_tok u H T2)|].
      intros _ v D. apply (tok_word u v T2) in D. subst v. eapply place_top; [exact KP|]. apply (oo_paren g p b ops s u w); auto.
Qed.
Lemma place_alt n w l r : place n w -> kind n = NAlt l r -> (thing l -> place l w) /\ (thing r -> place r w).
Proof.
  intros P K. destruct P as [n w I O|p i c a m w KP O E|p b ops x ops' m w KP O IN C U|p b ops x o m w KP O IN SP U|p b ops x o m w KP O IN TL U].
  - assert (SH : shape g n = true) by (apply (shaped g WF); rewrite K; discriminate). unfold shape in SH. rewrite I, K in SH.
    apply andb_true_iff in SH. destruct SH as [BL BR]. split; intros _; (apply pl_in; [eapply below_inside; eassumption|]); [eapply o_altl; eassumption|eapply o_altr; eassumption].
  - destruct (star_shape g WF p i c a KP) as (Ip & Bi & KC & KA). destruct E as [-> | ->]; [congruence|]. rewrite KA in K. injection K as <- <-. split.
    + intros (_ & Z). destruct (Z (zero_kind g WF)).
    + intros _. eapply pl_loop; [exact KP|exact O|auto].
  - destruct ops' as [|o ops']; cbn [chain] in C.
    { apply Nat.eqb_eq in C. subst m. destruct (in_not_out b (base_in p b ops x KP) U). }
    rewrite K in C. repeat rewrite andb_true_iff in C. destruct C as (_ & (((A & _) & SP) & CH)). unfold after in A. apply andb_true_iff in A. destruct A as (_ & UL). split.
    + intros _. eapply pl_spell; [exact KP|exact O|apply IN; left; reflexivity|exact SP|exact UL].
    + intros _. eapply place_chain; [exact KP|exact O| |exact CH]. intros y Y. apply IN. right. exact Y.
  - exfalso. pose proof (spells_opcons g x m o SP) as OC. destruct OC as [m l' r' KM _ _]. congruence.
  - exfalso. destruct o as [s|s|s|s u|s u]; cbn [tail_of] in TL; [contradiction..| | |].
    + destruct TL; congruence.
    + destruct TL as (_ & _ & [(r2 & r3 & K1 & _)|[(r3 & K1 & _)|K1]]); congruence.
    + destruct TL as (_ & _ & TL); congruence.
Qed.
(** An empty right part in a sequence. *)
Lemma head_tok r s q : kind r = NCons s q -> is_tok g s = true -> eps g t r = false.
Proof.
  intros K T. unfold eps. generalize (S (size g)) as k. intros k. destruct (tok_in g WF s T) as (_ & KS).
  cbn [eps_visit mem existsb]. rewrite K. destruct (eps_visit g k t s [r]) as [p|] eqn:E; [|reflexivity].
  apply (tok_eps g WF t k s [r] p T) in E; [subst p; reflexivity|]. unfold mem. cbn [existsb]. destruct (Nat.eqb_spec s r) as [->|N]; [congruence|reflexivity].
Qed.
Lemma follow_eps n w l r : place n w -> kind n = NCons l r -> thing l -> eps g t r = true -> derives r [].
Proof.
  intros P K TH E. destruct P as [n w I O|p i c a m w KP O EQ|p b ops x ops' m w KP O IN C U|p b ops x o m w KP O IN SP U|p b ops x o m w KP O IN TL U].
  - assert (SH : shape g n = true) by (apply (shaped g WF); rewrite K; discriminate). unfold shape in SH. rewrite I, K in SH.
    apply andb_true_iff in SH. destruct SH as [BL BR]. apply (eps_right g WF APART t r FIRST); [eapply below_inside; eassumption|exact E].
  - destruct (star_shape g WF p i c a KP) as (Ip & Bi & KC & KA). destruct EQ as [-> | ->]; [|congruence]. rewrite KC in K. injection K as <- <-.
    eapply d_altl; [exact KA|]. apply d_zero, (zero_kind g WF).
  - destruct ops' as [|o ops']; cbn [chain] in C; [|rewrite K, andb_false_r in C; discriminate].
    apply Nat.eqb_eq in C. subst m. destruct (in_not_out b (base_in p b ops x KP) U).
  - pose proof (spells_tail x m o l r SP K) as Q. destruct o as [s|s|s|s u|s u].
    + destruct Q as (-> & _ & T). destruct (not_tok s TH T).
    + destruct Q as (_ & -> & T). apply (eps_right g WF APART t s FIRST (tok_inside g s T) E).
    + destruct Q as (_ & (T & KR) & _). rewrite (head_tok r s x KR T) in E. discriminate.
    + destruct (tern_spelled g _ _ _ _ SP) as (r1 & r2 & r3 & KL & K1 & K2 & K3 & T1 & T2). rewrite K in KL. injection KL as _ <-. rewrite (head_tok r s r2 K1 T1) in E. discriminate.
    + destruct Q as (-> & T & _). destruct (not_tok s TH T).
  - destruct o as [s|s|s|s u|s u]; cbn [tail_of] in TL; [contradiction..| | |].
    + destruct TL as (T & KM). rewrite K in KM. injection KM as -> ->. destruct (not_tok s TH T).
    + destruct TL as (T1 & T2 & [(r2 & r3 & K1 & _)|[(r3 & K2 & _ & K3)|K3]]).
      * rewrite K in K1. injection K1 as -> ->. destruct (not_tok s TH T1).
      * rewrite K in K2. injection K2 as -> ->. rewrite (head_tok r3 u x K3 T2) in E. discriminate.
      * rewrite K in K3. injection K3 as -> ->. destruct (not_tok u TH T2).
    + destruct TL as (T1 & T2 & KM). rewrite K in KM. injection KM as -> ->. apply (eps_right g WF APART t u FIRST (tok_inside g u T2) E).
Qed.

(** ** The rounds *)
Definition fsound (o : table) : Prop := forall n x, o n x = true -> exists w, place n w /\ next g w = x.
Lemma fsound_merge st d s : fsound (fst st) -> (thing d -> forall x, s x = true -> is_term g x = true -> exists w, place d w /\ next g w = x) -> fsound (fst (omerge g st d s)).
Proof.
  intros F H. unfold omerge. destruct (is_zero g d || is_term g d) eqn:Z; [exact F|]. apply orb_false_iff in Z. destruct Z as (Z1 & Z2).
  assert (TH : thing d) by (split; intros Q; [unfold is_term in Z2|unfold is_zero in Z1]; rewrite Q in *; discriminate).
  unfold add_to. destruct (news g (fst st) d _); [|exact F]. intros n x. cbn [fst]. unfold upd.
  destruct (Nat.eqb_spec n d) as [->|N]; [|apply F]. intros Q. apply orb_true_iff in Q. destruct Q as [Q|Q]; [apply F; exact Q|]. apply andb_true_iff in Q. apply H; tauto.
Qed.
Lemma fsound_down st d n : fsound (fst st) -> (thing d -> forall w, place n w -> place d w) -> fsound (fst (down g st d n)).
Proof. intros F H. apply fsound_merge; [exact F|]. intros TH x X _. destruct (F n x X) as (w & P & E). exists w. split; [apply H; assumption|exact E]. Qed.

(** What is visited comes up somewhere. *)
Lemma kid_thing n m : In m (kids g n) -> kind m <> NOther.
Proof. intros H. apply (kid_item g WF) in H. unfold is_item in H. intros Z. rewrite Z in H. discriminate. Qed.
Lemma sym_kind s : is_sym g s = true -> inside g s = true /\ kind s = NSym.
Proof. unfold is_sym. rewrite andb_true_iff. intros (I & K). split; [exact I|]. destruct (kind s); congruence. Qed.
Lemma place_one n w m : place n w -> (forall l r, kind n <> NCons l r) -> In m (kids g n) -> thing m -> place m w.
Proof.
  intros P NC H TH. pose proof P as P0.
  assert (IO : (exists l r, kind n = NAlt l r) \/ inside g n = true).
  { destruct P as [n w I O|p i c a m' w KP O E|p b ops x ops' m' w KP O IN C U|p b ops x o m' w KP O IN SP U|p b ops x o m' w KP O IN TL U].
    - auto.
    - destruct (star_shape g WF p i c a KP) as (Ip & Bi & KC & KA). destruct E as [-> | ->]; [destruct (NC _ _ KC)|eauto].
    - destruct ops' as [|o ops']; cbn [chain] in C; [apply Nat.eqb_eq in C; subst m'; right; eapply base_in; exact KP|].
      left. destruct (kind m'); try (rewrite andb_false_r in C; discriminate). eauto.
    - destruct (spells_opcons g x m' o SP) as [m' l' r' KM _ _]. destruct (NC _ _ KM).
    - exfalso. destruct o as [s|s|s|s u|s u]; cbn [tail_of] in TL; [contradiction..| | |].
      + destruct TL as (_ & TL); destruct (NC _ _ TL).
      + destruct TL as (_ & _ & [(r2 & r3 & K1 & _)|[(r3 & K1 & _)|K1]]); destruct (NC _ _ K1).
      + destruct TL as (_ & _ & TL); destruct (NC _ _ TL). }
  destruct IO as [(l & r & K)|I].
  { destruct (place_alt n w l r P0 K) as (P1 & P2). unfold kids in H. rewrite K in H. destruct H as [<- | [<- | []]]; auto. }
  pose proof (place_in n w P0 I) as O.
  assert (SH : kind n <> NOther -> shape g n = true) by apply (shaped g WF). unfold shape in SH. rewrite I in SH. unfold kids in H.
  destruct (kind n) as [| | |s|s|i c a|i c a|[i|]|l r|l r|i s|tt [c|]|i|i|bb ops x|] eqn:K; try specialize (SH ltac:(discriminate)); try destruct H as [<- | H]; try contradiction; try (destruct (NC _ _ eq_refl)).
  - eapply pl_loop; [right; exact K|exact O|auto].
  - eapply pl_loop; [left; exact K|exact O|auto].
  - apply pl_in; [eapply below_inside; eassumption|eapply o_act; eassumption].
  - apply andb_true_iff in SH. apply pl_in; [eapply below_inside; [apply SH|exact I]|eapply o_altl; eassumption].
  - destruct H as [<- | []]. apply andb_true_iff in SH. apply pl_in; [eapply below_inside; [apply SH|exact I]|eapply o_altr; eassumption].
  - apply andb_true_iff in SH. apply pl_in; [eapply below_inside; [apply SH|exact I]|eapply o_evolve; eassumption].
  - apply andb_true_iff in SH. apply pl_in; [eapply below_inside; [apply SH|exact I]|eapply o_try; eassumption].
  - destruct H as [<- | []]. apply andb_true_iff in SH. apply pl_in; [eapply below_inside; [apply SH|exact I]|eapply o_catch; eassumption].
  - apply pl_in; [eapply below_inside; eassumption|eapply o_try; eassumption].
  - apply pl_in; [eapply below_inside; eassumption|eapply o_ann; eassumption].
  - apply pl_in; [eapply below_inside; eassumption|eapply o_cond; eassumption].
  - eapply place_top; [exact K|]. eapply oo_top; eassumption.
Qed.
Lemma met_place n : met n -> thing n -> exists w, place n w.
Proof.
  induction 1 as [e He|n m M IH H]; intros TH.
  - destruct (LIVE e He) as (w & O). exists w. apply pl_in; [apply (rule_kind g WF e He)|exact O].
  - assert (TN : thing n) by (split; intros K; unfold kids in H; rewrite K in H; destruct H). destruct (IH TN) as (w & P).
    destruct (kind n) as [| | |s|s|i c a|i c a|[i|]|l r|l r|i s|tt [c|]|i|i|bb ops x|] eqn:K; try (exists w; apply (place_one n w m P); [intros; congruence|exact H|exact TH]).
    destruct (place_cons n w l r P K) as (P1 & P2). assert (Hr : In r (kids g n)) by (unfold kids; rewrite K; right; left; reflexivity).
    unfold kids in H. rewrite K in H. destruct H as [<- | [<- | []]]; [|exists w; auto].
    destruct (PRODUCTIVE r) as (u & D); [apply kind_lt, (kid_thing n r Hr)|apply (kid_thing n r Hr)|]. exists (u ++ w). auto.
Qed.
Lemma follow_node_sound : forall k P n st st', follow_node g k t P n st = Some st' -> met n -> fsound (fst st) -> fsound (fst st').
Proof.
  induction k as [|k IH]; intros P n st st' E M S0; [discriminate|]. cbn [follow_node] in E.
  assert (KID : forall m, In m (kids g n) -> met m) by (intros m Hm; eapply met_kid; eassumption).
  assert (V : forall m st st', In m (kids g n) -> (if mem m P then Some st else follow_node g k t (m :: P) m st) = Some st' -> fsound (fst st) -> fsound (fst st')).
  { intros m s s' Hm H Q. destruct (mem m P); [injection H as <-; exact Q|]. eapply IH; [exact H|apply KID; exact Hm|exact Q]. }
  assert (ONE : forall m st, (forall l r, kind n <> NCons l r) -> In m (kids g n) -> fsound (fst st) -> fsound (fst (down g st m n))).
  { intros m s NC Hm Q. apply fsound_down; [exact Q|]. intros TH w PL. eapply place_one; eassumption. }
  assert (SH : kind n <> NOther -> shape g n = true) by apply (shaped g WF). unfold shape in SH.
  assert (TN : (exists m, In m (kids g n)) -> thing n) by (intros (m & Hm); split; intros Q; unfold kids in Hm; rewrite Q in Hm; destruct Hm).
  pose proof (met_place n M) as MP.
  unfold kids in KID, V, ONE, TN.
  destruct (kind n) as [| | |s|s|i c a|i c a|[i|]|l r|l r|i s|tt [c|]|i|i|bb ops x|] eqn:K;
    try (injection E as <-; exact S0);
    try specialize (SH ltac:(discriminate)).
  1,2: injection E as <-; destruct (inside g n) eqn:I; [|discriminate]; destruct (sym_kind s SH) as (IS & KS);
    assert (OS : forall w, place n w -> occurs g s w) by (intros w PL; pose proof (place_in n w PL I); first [eapply o_non; eassumption|eapply o_inl; eassumption]);
    apply fsound_down; [|intros _ w PL; apply pl_in; auto];
    unfold omerge_opt; destruct (search_rule g s) as [e|] eqn:SR; [|exact S0]; destruct (search_some g s e SR) as (He & i & KE);
    apply fsound_merge; [exact S0|]; intros _ x X _; destruct (S0 n x X) as (w & PL & EQ); exists w; split; [|exact EQ];
    apply pl_in; [apply (rule_kind g WF e He)|eapply o_rule; [apply OS; exact PL|exact KS|exact He|exact KE]].
  - eapply IH; [exact E|apply KID; left; reflexivity|]. apply ONE; [intros; congruence|left; reflexivity|exact S0].
  - eapply IH; [exact E|apply KID; left; reflexivity|]. apply ONE; [intros; congruence|left; reflexivity|exact S0].
  - eapply IH; [exact E|apply KID; left; reflexivity|]. apply ONE; [intros; congruence|left; reflexivity|exact S0].
  - apply obind_inv in E. destruct E as (s1 & E1 & E).
    assert (S1 : fsound (fst s1)) by (eapply V; [left; reflexivity|exact E1|]; apply ONE; [intros; congruence|right; left; reflexivity|]; apply ONE; [intros; congruence|left; reflexivity|exact S0]).
    eapply V; [right; left; reflexivity|exact E|exact S1].
  - apply obind_inv in E. destruct E as (s1 & E1 & E).
    assert (S1 : fsound (fst s1)).
    { eapply V; [left; reflexivity|exact E1|].
      assert (SR : fsound (fst (down g st r n))) by (apply fsound_down; [exact S0|]; intros TH w PL; apply (proj1 (place_cons n w l r PL K) TH)).
      assert (SM : fsound (fst (omerge g (down g st r n) l (t r)))).
      { apply fsound_merge; [exact SR|]. intros TH x X TX. destruct (MP (TN (ex_intro _ l (or_introl eq_refl)))) as (w & PL).
        destruct (FIRST r x X) as [[-> _]|[KX (u & D)]]; [unfold is_term in TX; rewrite (zero_kind g WF) in TX; discriminate|].
        exists ((x :: u) ++ w). split; [apply (proj2 (place_cons n w l r PL K) TH); exact D|reflexivity]. }
      destruct (eps g t r) eqn:ER; [|exact SM]. apply fsound_down; [exact SM|]. intros TH w PL.
      apply (proj2 (place_cons n w l r PL K) TH [] (follow_eps n w l r PL K TH ER)). }
    eapply V; [right; left; reflexivity|exact E|exact S1].
  - eapply V; [left; reflexivity|exact E|]. apply ONE; [intros; congruence|left; reflexivity|]. apply fsound_down; [exact S0|]. intros _ w PL.
    assert (IR : In n (grules g)).
    { destruct M as [e He|p m Hp Hm]; [exact He|]. apply (kid_item g WF) in Hm. unfold is_item in Hm. rewrite K in Hm. discriminate. }
    destruct (inside g n) eqn:I; [|discriminate]. apply andb_true_iff in SH. destruct SH as [_ SY]. destruct (sym_kind s SY) as (IS & KS).
    apply pl_in; [exact I|]. eapply o_rule; [exact (place_in s w PL IS)|exact KS|exact IR|exact K].
  - apply obind_inv in E. destruct E as (s1 & E1 & E).
    assert (S1 : fsound (fst s1)) by (eapply V; [left; reflexivity|exact E1|]; apply ONE; [intros; congruence|right; left; reflexivity|]; apply ONE; [intros; congruence|left; reflexivity|exact S0]).
    eapply V; [right; left; reflexivity|exact E|exact S1].
  - eapply IH; [exact E|apply KID; left; reflexivity|]. apply ONE; [intros; congruence|left; reflexivity|exact S0].
  - eapply V; [left; reflexivity|exact E|]. apply ONE; [intros; congruence|left; reflexivity|exact S0].
  - eapply V; [left; reflexivity|exact E|]. apply ONE; [intros; congruence|left; reflexivity|exact S0].
  - eapply IH; [exact E|apply KID; left; reflexivity|]. apply ONE; [intros; congruence|left; reflexivity|exact S0].
Qed.
Lemma each_rule_fsound k l : (forall e, In e l -> In e (grules g)) -> forall st st', each_rule (follow_rule g k t) l st = Some st' -> fsound (fst st) -> fsound (fst st').
Proof.
  induction l as [|e l IH]; intros H st st' E S0; cbn [each_rule] in E; [injection E as <-; exact S0|].
  apply obind_inv in E. destruct E as (s1 & E1 & E). apply (IH (fun x Hx => H x (or_intror Hx)) _ _ E).
  eapply follow_node_sound; [exact E1|apply met_rule; apply H; left; reflexivity|exact S0].
Qed.
Lemma follow_loop_sound : forall rounds fuel st o, follow_loop g rounds fuel t st = Some o -> fsound (fst st) -> fsound o.
Proof.
  induction rounds as [|k IH]; intros fuel st o E S0; [discriminate|]. cbn [follow_loop] in E.
  apply obind_inv in E. destruct E as (st1 & E1 & E).
  assert (S1 : fsound (fst st1)) by (apply (each_rule_fsound fuel (grules g) (fun e He => He) _ _ E1 S0)).
  destruct (snd st1); [eapply IH; [exact E|exact S1]|injection E as <-; exact S1].
Qed.
Lemma follow_init_sound : fsound (follow_init g).
Proof.
  intros n x H. unfold follow_init in H. apply andb_true_iff in H. destruct H as [H1 H2]. apply Nat.eqb_eq in H1. subst x.
  apply existsb_exists in H2. destruct H2 as (e & He & H2). destruct (rule_kind g WF e He) as (IE & i & s & K). rewrite K in H2.
  apply andb_true_iff in H2. destruct H2 as (HS & H2). apply mem_in in HS.
  assert (SH : shape g e = true) by (apply (shaped g WF); rewrite K; discriminate). unfold shape in SH. rewrite IE, K in SH. apply andb_true_iff in SH. destruct SH as (BI & SY).
  destruct (sym_kind s SY) as (IS & KS). pose proof (o_start g e i s He K HS) as O. pose proof (o_rule g s e i [] O KS He K) as OE.
  exists []. split; [|reflexivity]. repeat rewrite orb_true_iff in H2. repeat rewrite Nat.eqb_eq in H2. destruct H2 as [[-> | ->] | ->].
  - apply pl_in; assumption.
  - apply pl_in; assumption.
  - apply pl_in; [eapply below_inside; eassumption|eapply o_evolve; eassumption].
Qed.
Theorem compute_follow_sound rounds fuel o : compute_follow g rounds fuel t = Some o -> forall n x, o n x = true -> inside g n = true -> exists w, occurs g n w /\ next g w = x.
Proof.
  intros E n x H I. destruct (follow_loop_sound _ _ _ _ E follow_init_sound n x H) as (w & P & EQ). exists w. split; [exact (place_in n w P I)|exact EQ].
Qed.
End G.
