(** C52: function logging stays balanced. *)
From Verif Require Import Base LogModel.
Local Arguments Z.mul : simpl never.
Local Open Scope Z_scope.

(** a call that leaves the depth as it found it, whatever the depth, and never stops the program *)
Definition balanced_in (oo : bool) (p : prog) (oo' : bool) : Prop := forall d out, 0 <= d ->
  exists new, p (mkL true d out oo) = Some (mkL true d (new ++ out) oo') /\ forall i f, In (i, f) new -> 2 * d <= i.
(** which calls are affected: removing edges; setting original owners that are already set (also through repartition and
    balance); balance in serial or with the part weight balancer; balanceWeights in parallel *)
Definition leaks (oo : bool) (c : call) : bool :=
  match c with
  | CRemoveEdges => true
  | CSetOriginalOwners | CRepartition _ => oo
  | CBalance peers _ partw steps => Nat.eqb peers 1 || oo || (partw && negb (Nat.eqb (length steps) 0))
  | CBalanceWeights peers => negb (Nat.eqb peers 1)
  | _ => false
  end.
(** original_owners after the call *)
Definition oo_after (oo : bool) (c : call) : bool :=
  match c with
  | CConstructGraph | CConstructVerts | CDestroyGraph | CLoad _ | CCreate _ => false
  | CSetOriginalOwners | CResetOwnership | CMigrate _ | CRepartition _ => true
  | CBalance peers _ _ _ => if Nat.eqb peers 1 then oo else true
  | _ => oo
  end.

Lemma bal_skip oo : balanced_in oo skip oo.
Proof. intros d out H. exists []. split; [reflexivity|]. intros i f []. Qed.
Lemma bal_seq a b c p q : balanced_in a p b -> balanced_in b q c -> balanced_in a (seqp p q) c.
Proof.
  intros P Q d out H. destruct (P d out H) as (n1 & E1 & I1). destruct (Q d (n1 ++ out) H) as (n2 & E2 & I2). exists (n2 ++ n1).
  unfold seqp. rewrite E1. cbn [obind]. rewrite E2, app_assoc. split; auto. intros i f Hi. apply in_app_iff in Hi as [Hi|Hi]; eauto.
Qed.
Lemma bal_fun a b f p : balanced_in a p b -> balanced_in a (seqp (log_function f) (seqp p end_function)) b.
Proof.
  intros P d out H. unfold seqp, log_function. cbn. destruct (Z.ltb_spec d 0); [lia|]. destruct (P (d + 1) ((2 * d, f) :: out)) as (n & E & I); [lia|].
  cbn in E |- *. rewrite E. cbn. exists (n ++ [(2 * d, f)]). rewrite <- app_assoc. cbn. replace (d + 1 - 1) with d by lia. split; auto.
  intros i g Hi. apply in_app_iff in Hi as [Hi|[Hi|[]]]; [specialize (I i g Hi); lia|inversion Hi; lia].
Qed.
Lemma bal_set a b : balanced_in a (set_oo b) b.
Proof. intros d out H. exists []. split; [reflexivity|]. intros i f []. Qed.
Lemma bal_fun0 a f : balanced_in a (seqp (log_function f) end_function) a.
Proof. intros d out H. destruct (bal_fun a a f skip (bal_skip a) d out H) as (n & E & I). exists n. split; auto. Qed.
Lemma bal_times a n p : balanced_in a p a -> balanced_in a (timesp n p) a.
Proof. intros P. induction n as [|n IH]; [apply bal_skip|]. cbn [timesp]. eapply bal_seq; eauto. Qed.
Lemma bal_on_other a b b' p : balanced_in b p b' -> (forall x, balanced_in x p b') -> balanced_in a (on_other p) a.
Proof. intros _ P d out H. destruct (P a d out H) as (n & E & I). exists n. unfold on_other. rewrite E. cbn. auto. Qed.

Lemma bal_destroyData a : balanced_in a destroyData false.
Proof. apply bal_fun, bal_set. Qed.
Lemma bal_verts a : balanced_in a constructVerts false.
Proof. apply bal_fun, bal_destroyData. Qed.
Lemma bal_edges a : balanced_in a constructEdges a.
Proof. apply bal_fun0. Qed.
Lemma bal_ghosts a : balanced_in a constructGhosts a.
Proof. apply bal_fun0. Qed.
Lemma seq_assoc p q r s : seqp p (seqp q r) s = seqp (seqp p q) r s.
Proof. unfold seqp. destruct (p s); reflexivity. Qed.
Lemma bal_ext a b p q : (forall s, p s = q s) -> balanced_in a p b -> balanced_in a q b.
Proof. intros E P d out H. rewrite <- E. apply P; auto. Qed.
Lemma seq_ext p q q' s : (forall x, q x = q' x) -> seqp p q s = seqp p q' s.
Proof. intros E. unfold seqp. destruct (p s); cbn; auto. Qed.
Lemma bal_set_new : balanced_in false setOriginalOwners true.
Proof.
  unfold setOriginalOwners. intros d out H. unfold seqp, log_function. cbn. destruct (Z.ltb_spec d 0); [lia|]. cbn. replace (d + 1 - 1) with d by lia.
  exists [(2 * d, FsetOriginalOwners)]. split; auto. intros i f [E|[]]. inversion E. lia.
Qed.
Lemma bal_vec : balanced_in false setOriginalOwners_vec true.
Proof. intros d out H. exists []. split; [reflexivity|]. intros i f []. Qed.
Lemma bal_migrate a nt : balanced_in a (migrate nt) true.
Proof. unfold migrate. eapply bal_seq; [apply bal_verts|]. eapply bal_seq; [apply bal_times, bal_edges|]. eapply bal_seq; [apply bal_ghosts|apply bal_vec]. Qed.
Lemma bal_steps nt n : balanced_in true (timesp n (migrate nt)) true.
Proof. apply bal_times, bal_migrate. Qed.
Lemma bal_prio peers nt steps : forall again, balanced_in true (balance_priorities peers nt false again steps) true.
Proof.
  induction steps as [|k r IH]; intros again; [apply bal_skip|]. cbn [balance_priorities]. eapply bal_seq; [|apply IH]. unfold balance_priority.
  eapply bal_seq; [apply bal_skip|apply bal_steps].
Qed.
Lemma bal_call oo c : leaks oo c = false -> balanced_in oo (run c) (oo_after oo c).
Proof.
  destruct c as [| | | | | | | | |nt|nt|nt|nt|peers nt partw steps|peers]; cbn [leaks oo_after run]; intros L.
  - apply (bal_ext oo false (seqp (log_function FconstructGraph) (seqp (seqp constructVerts (seqp constructEdges constructGhosts)) end_function))).
    + intros s. unfold constructGraph. apply seq_ext. intros x. unfold seqp. destruct (constructVerts x); cbn; auto. destruct (constructEdges l); cbn; auto.
    + apply bal_fun. eapply bal_seq; [apply bal_verts|]. eapply bal_seq; [apply bal_edges|apply bal_ghosts].
  - apply bal_verts.
  - apply bal_edges.
  - apply bal_ghosts.
  - discriminate.
  - apply bal_fun, bal_destroyData.
  - subst oo. apply bal_set_new.
  - apply (bal_ext oo true (seqp (log_function FresetOwnership) (seqp (seqp (set_oo false) setOriginalOwners) end_function))).
    + intros s. unfold resetOwnership. apply seq_ext. intros x. unfold seqp at 1 2. cbn. reflexivity.
    + apply bal_fun. eapply bal_seq; [apply bal_set|apply bal_set_new].
  - apply bal_fun0.
  - apply bal_migrate.
  - subst oo. eapply bal_seq; [apply bal_set_new|apply bal_migrate].
  - eapply bal_seq; [apply bal_verts|]. eapply bal_seq; [apply bal_times, bal_edges|apply bal_ghosts].
  - apply (bal_ext oo false (seqp (seqp (log_function Finterface) end_function) (seqp constructVerts (seqp (timesp nt constructEdges) constructGhosts)))).
    + intros s. unfold createGraph. symmetry. apply seq_assoc.
    + eapply bal_seq; [apply bal_fun0|]. eapply bal_seq; [apply bal_verts|]. eapply bal_seq; [apply bal_times, bal_edges|apply bal_ghosts].
  - apply Bool.orb_false_iff in L as (L & L3). apply Bool.orb_false_iff in L as (L1 & ->). rewrite L1.
    assert (B : balanced_in false (balancer_balance peers nt partw steps) true).
    { apply (bal_ext false true (seqp (log_function Fbalance) (seqp (seqp setOriginalOwners (balance_priorities peers nt partw false steps)) end_function))).
      - intros s. unfold balancer_balance. apply seq_ext. intros x. rewrite L1. symmetry. apply seq_assoc.
      - apply bal_fun. eapply bal_seq; [apply bal_set_new|]. destruct partw; [|apply bal_prio]. destruct steps; [apply bal_skip|discriminate]. }
    apply (bal_ext false true (seqp (seqp (log_function FmakeBalancer) end_function) (seqp (balancer_balance peers nt partw steps) skip))).
    + intros s. unfold balance. etransitivity; [|symmetry; apply seq_assoc]. apply seq_ext. intros x. apply seq_ext. intros y. destruct partw; [|reflexivity]. destruct steps; [|discriminate]. rewrite L1. reflexivity.
    + eapply bal_seq; [apply bal_fun0|]. eapply bal_seq; [exact B|apply bal_skip].
  - apply Bool.negb_false_iff in L. apply (bal_ext oo oo (seqp (seqp (log_function FbalanceWeights) end_function) skip)).
    + intros s. unfold balanceWeights. etransitivity; [|symmetry; apply seq_assoc]. apply seq_ext. intros x. unfold weight_balance. now rewrite L.
    + eapply bal_seq; [apply bal_fun0|apply bal_skip].
Qed.

(** the state of original_owners along a history, and the absence of leaking calls in it *)
Fixpoint sound (oo : bool) (cs : list call) : bool := match cs with [] => true | c :: r => negb (leaks oo c) && sound (oo_after oo c) r end.

(** With the log open, every history of calls that are not in the list of [leaks] runs without stopping, ends at the depth at which it began,
    and writes no line indented less than that depth. *)
Theorem C52_balanced_partial : forall cs d out oo, 0 <= d -> sound oo cs = true ->
  exists new oo', history cs (mkL true d out oo) = Some (mkL true d (new ++ out) oo') /\ forall i f, In (i, f) new -> 2 * d <= i.
Proof.
  induction cs as [|c cs IH]; intros d out oo H S; [exists [], oo; cbn; split; auto; intros i f []|]. cbn [sound] in S. apply andb_prop in S as (S1 & S2).
  apply Bool.negb_true_iff in S1. destruct (bal_call oo c S1 d out H) as (n1 & E1 & I1). destruct (IH d (n1 ++ out) _ H S2) as (n2 & oo' & E2 & I2).
  exists (n2 ++ n1), oo'. unfold history in *. cbn [foldM]. rewrite E1. cbn [obind]. rewrite E2, app_assoc. split; auto.
  intros i f Hi. apply in_app_iff in Hi as [Hi|Hi]; eauto.
Qed.
Print Assumptions C52_balanced_partial.

(** With the log closed nothing is written and the depth does not change, whatever is called. *)
Definition quiet (p : prog) : Prop := forall s s', l_open s = false -> p s = Some s' -> l_open s' = false /\ l_depth s' = l_depth s /\ l_out s' = l_out s.
Lemma q_seq p q : quiet p -> quiet q -> quiet (seqp p q).
Proof.
  intros P Q s s' O E. unfold seqp in E. destruct (p s) as [s1|] eqn:E1; [|discriminate]. cbn in E. destruct (P s s1 O E1) as (O1 & D1 & U1).
  destruct (Q s1 s' O1 E) as (O2 & D2 & U2). repeat split; congruence.
Qed.
Lemma q_skip : quiet skip.
Proof. intros s s' O E. inversion E; subst; auto. Qed.
Lemma q_log f : quiet (log_function f).
Proof. intros s s' O E. unfold log_function in E. rewrite O in E. inversion E; subst; auto. Qed.
Lemma q_end : quiet end_function.
Proof. intros s s' O E. unfold end_function in E. rewrite O in E. inversion E; subst; auto. Qed.
Lemma q_set b : quiet (set_oo b).
Proof. intros s s' O E. inversion E; subst; auto. Qed.
Lemma q_times n p : quiet p -> quiet (timesp n p).
Proof. intros P. induction n as [|n IH]; [apply q_skip|apply q_seq; auto]. Qed.
Lemma q_other p : quiet p -> quiet (on_other p).
Proof. intros P s s' O E. unfold on_other in E. destruct (p s) as [s1|] eqn:E1; [|discriminate]. cbn in E. inversion E; subst. destruct (P s s1 O E1) as (A & B & C). cbn. auto. Qed.
Lemma q_soo : quiet setOriginalOwners.
Proof. apply q_seq; [apply q_log|]. intros s s' O E. destruct (l_oo s); [inversion E; subst; auto|]. revert O E. apply (q_seq _ _ (q_set true) q_end). Qed.
Lemma q_vec : quiet setOriginalOwners_vec.
Proof. intros s s' O E. unfold setOriginalOwners_vec in E. destruct (l_oo s); [discriminate|]. revert O E. apply q_set. Qed.
Lemma q_wb peers : quiet (weight_balance peers).
Proof. intros s s' O E. unfold weight_balance in E. destruct (Nat.eqb peers 1); [inversion E; subst; auto|]. revert O E. apply q_end. Qed.
Ltac quietly := repeat (first [apply q_soo | apply q_vec | apply q_wb | apply q_log | apply q_end | apply q_set | apply q_times | apply q_skip | apply q_other | apply q_seq]).
Lemma q_prio peers nt partw steps : forall again, quiet (balance_priorities peers nt partw again steps).
Proof.
  induction steps as [|k r IH]; intros again; [apply q_skip|]. cbn [balance_priorities]. apply q_seq; [|apply IH]. apply q_seq; [|quietly].
  destruct partw; [|apply q_skip]. apply q_other. destruct again; quietly.
Qed.
Lemma q_call c : quiet (run c).
Proof.
  destruct c; cbn [run]; try (quietly; fail).
  apply q_seq; [quietly|]. apply q_seq; [quietly|]. apply q_seq.
  - apply q_seq; [quietly|]. intros s s' O E. destruct (Nat.eqb peers 1); [inversion E; subst; auto|]. revert O E. apply (q_seq setOriginalOwners (seqp (balance_priorities peers nt partw false steps) end_function)); [quietly|]. apply q_seq; [apply q_prio|quietly].
  - destruct (partw && negb (Nat.eqb peers 1) && negb (Nat.eqb (length steps) 0))%bool; quietly.
Qed.
Theorem C52_closed : forall cs s s', l_open s = false -> history cs s = Some s' -> l_depth s' = l_depth s /\ l_out s' = l_out s.
Proof.
  unfold history. induction cs as [|c cs IH]; intros s s' O E; [inversion E; subst; auto|]. cbn [foldM] in E. destruct (run c s) as [s1|] eqn:E1; [|discriminate].
  cbn in E. destruct (q_call c s s1 O E1) as (O1 & D1 & U1). destruct (IH s1 s' O1 E) as (A & B). split; congruence.
Qed.
Print Assumptions C52_closed.

(** The calls in the list do change the depth: each of them, at every depth. *)
Theorem C52_leak_refuted : forall d out, 0 <= d ->
  (forall oo, exists new, run CRemoveEdges (mkL true d out oo) = Some (mkL true (d + 1) (new ++ out) oo)) /\
  (exists new, run CSetOriginalOwners (mkL true d out true) = Some (mkL true (d + 1) (new ++ out) true)) /\
  (forall nt partw steps oo, exists new, run (CBalance 1 nt partw steps) (mkL true d out oo) = Some (mkL true (d + 1) (new ++ out) oo)) /\
  (forall peers oo, (peers <> 1)%nat -> exists new, run (CBalanceWeights peers) (mkL true d out oo) = Some (mkL true (d - 1) (new ++ out) oo)).
Proof.
  intros d out H. assert (HD : (d <? 0) = false) by (apply Z.ltb_ge; lia). repeat split.
  - intros oo. exists [(2 * d, FremoveEdges)]. cbn. unfold removeEdges, log_function. cbn. now rewrite HD.
  - exists [(2 * d, FsetOriginalOwners)]. cbn. unfold setOriginalOwners, seqp, log_function. cbn. now rewrite HD.
  - intros nt partw steps oo. exists [(2 * d, Fbalance); (2 * d, FmakeBalancer)]. cbn. unfold balance, balancer_balance, seqp, log_function. cbn. rewrite HD. cbn.
    replace (d + 1 - 1) with d by lia. rewrite HD. cbn. rewrite Bool.andb_false_r. reflexivity.
  - intros peers oo NP. exists [(2 * d, FbalanceWeights)]. cbn. unfold balanceWeights, weight_balance, seqp, log_function. cbn. rewrite HD. cbn.
    replace (d + 1 - 1) with d by lia. destruct (Nat.eqb_spec peers 1); [contradiction|]. reflexivity.
Qed.
Print Assumptions C52_leak_refuted.

(** Worse: after balanceWeights at the outermost level, in parallel with the log open, the next call that logs fails the
    assertion in EnGPar_Log_Function. *)
Lemma log_neg f p s : l_open s = true -> l_depth s < 0 -> seqp (log_function f) p s = None.
Proof. intros O D. unfold seqp, log_function. rewrite O. destruct (Z.ltb_spec (l_depth s) 0); [reflexivity|lia]. Qed.
Theorem C52_abort_refuted : forall peers out oo c, (peers <> 1)%nat ->
  history [CBalanceWeights peers; c] (mkL true 0 out oo) = None.
Proof.
  intros peers out oo c NP. unfold history. cbn [foldM]. destruct (C52_leak_refuted 0 out) as (_ & _ & _ & L); [lia|].
  destruct (L peers oo NP) as (new & ->). cbn [obind].
  assert (N : forall s, l_open s = true -> l_depth s < 0 -> run c s = None).
  { intros s O D. destruct c; cbn [run]; try (apply log_neg; auto; fail).
    - unfold removeEdges, log_function. rewrite O. destruct (Z.ltb_spec (l_depth s) 0); [reflexivity|lia].
    - unfold migrate, constructVerts. unfold seqp at 1. rewrite (log_neg _ _ s); auto.
    - unfold repartition, setOriginalOwners. unfold seqp at 1. rewrite (log_neg _ _ s); auto.
    - unfold loadFromFile, constructVerts. unfold seqp at 1. rewrite (log_neg _ _ s); auto. }
  rewrite N; auto; cbn; lia.
Qed.
Print Assumptions C52_abort_refuted.

(** a typical program: load, balance on 4 processes for two priorities, ask for the partition, destroy *)
Example C52_example : sound false [CCreate 2; CBalance 4 2 false [3; 0]; CGetPartition; CDestroyGraph]%nat = true /\
  (s <- history [CCreate 2; CBalance 4 2 false [1]; CGetPartition]%nat (mkL true 0 [] false) ;; Some (rev (l_out s))) = Some
   [(0, Finterface); (0, FconstructVerts); (2, FdestroyData); (0, FconstructEdges); (0, FconstructEdges); (0, FconstructGhosts);
    (0, FmakeBalancer); (0, Fbalance); (2, FsetOriginalOwners); (2, FconstructVerts); (4, FdestroyData); (2, FconstructEdges); (2, FconstructEdges); (2, FconstructGhosts); (0, FgetPartition)].
Proof. split; vm_compute; reflexivity. Qed.
(** balancing a second time leaks, because the first migration has set the original owners *)
Example C52_second_balance : sound false [CCreate 2; CBalance 4 2 false [1]; CBalance 4 2 false [1]]%nat = false.
Proof. reflexivity. Qed.
