(** Property C28: after any history of insertions and removals the AA tree is an ordered set. *)
From Verif Require Import Base PcuAAModel PcuAAProofs.
From Coq Require Import Sorted.

(** An operation of a client of pcu_aa.h, and running a history on the code. [None]: the code
    would have modified the shared sentinel or called abort(). *)
Inductive op := Insert (x : node) | Remove (x : node).
Fixpoint run (ops : list op) (t : tree) : option tree :=
  match ops with
  | [] => Some t
  | Insert x :: r => '(t', _) <- insert x t ;; run r t'
  | Remove x :: r => '(t', _) <- remove x t ;; run r t'
  end.

(** The specification: a map from keys to the node stored under that key.  Inserting a key that
    is present keeps the node that is there. *)
Definition kmap := Z -> option node.
Definition kset (m : kmap) (k : Z) (v : option node) : kmap := fun j => if Z.eqb j k then v else m j.
Fixpoint spec (ops : list op) (m : kmap) : kmap :=
  match ops with
  | [] => m
  | Insert x :: r => spec r (match m (fst x) with Some _ => m | None => kset m (fst x) (Some x) end)
  | Remove x :: r => spec r (kset m (fst x) None)
  end.

Definition good (t : tree) (m : kmap) : Prop :=
  inv t /\ sorted (elements t) /\ (forall x, In x (elements t) <-> m (fst x) = Some x).

Lemma good_insert t m x : good t m -> (forall k y, m k = Some y -> fst y = k) -> exists t' res,
  insert x t = Some (t', res) /\
  good t' (match m (fst x) with Some _ => m | None => kset m (fst x) (Some x) end) /\
  res = match m (fst x) with Some y => y | None => x end.
Proof.
  intros (Hi & Hs & Hm) Hk. destruct (insert_spec x t Hi Hs) as (t' & res & E & G & El & R1 & R2 & R3).
  exists t', res. split; [exact E|]. rewrite El in *.
  assert (HI : forall a, In a (ins x (elements t)) <->
     (match m (fst x) with Some _ => m | None => kset m (fst x) (Some x) end) (fst a) = Some a).
  { intros a. rewrite ins_in by auto. destruct (m (fst x)) as [y|] eqn:Ey.
    + rewrite Hm. split; [intros [H|[-> H]]; auto|auto].
      exfalso. apply (H y); [apply Hm|]; [|now apply Hk in Ey].
      pose proof (Hk _ _ Ey) as K. now rewrite K.
    + unfold kset. destruct (Z.eqb_spec (fst a) (fst x)) as [Ea|Na].
      * split; [intros [H|[-> _]]; auto|].
        -- apply Hm in H. congruence.
        -- intros H. inversion H; subst a. right. split; auto. intros b Hb Kb. apply Hm in Hb.
           unfold key in Kb. congruence.
      * rewrite Hm. split; [intros [H|[-> _]]; auto; congruence|auto]. }
  split.
  - split; [apply G|]. rewrite El. split; [now apply ins_sorted|exact HI].
  - apply HI in R1. unfold key in R2. rewrite R2 in R1.
    destruct (m (fst x)) as [y|] eqn:Ey; [congruence|]. unfold kset in R1. rewrite Z.eqb_refl in R1. congruence.
Qed.
Lemma good_remove t m x : good t m -> (forall k y, m k = Some y -> fst y = k) -> exists t' res,
  remove x t = Some (t', res) /\ good t' (kset m (fst x) None) /\ res = m (fst x).
Proof.
  intros (Hi & Hs & Hm) Hk. destruct (remove_spec x t Hi Hs) as [(t' & d & l1 & l2 & E & I & K & E1 & E2)|(Hn & E)].
  - exists t', (Some d). split; [exact E|].
    rewrite E1 in Hs, Hm. apply sorted_app in Hs as (S1 & S2 & S3). apply sorted_cons in S2 as (S2 & S4).
    unfold lt_node, key in *.
    assert (Hd : m (fst d) = Some d) by (apply Hm; apply in_or_app; simpl; auto).
    split; [|congruence].
    split; [exact I|]. rewrite E2. split.
    + apply sorted_app. repeat split; auto. intros a b Ha Hb. apply S3; simpl; auto.
    + intros a. unfold kset. destruct (Z.eqb_spec (fst a) (fst x)) as [Ea|Na].
      * split; [|discriminate]. rewrite in_app_iff. intros [H|H].
        -- specialize (S3 a d H (or_introl eq_refl)). unfold key in S3. lia.
        -- specialize (S4 a H). unfold key in S4. lia.
      * rewrite <- Hm. rewrite !in_app_iff. simpl. split; [tauto|]. intros [H|[->|H]]; auto. congruence.
  - exists t, None. split; [exact E|]. unfold key in *.
    assert (Hx : m (fst x) = None).
    { destruct (m (fst x)) as [y|] eqn:Ey; auto. exfalso. pose proof (Hk _ _ Ey) as Ky.
      apply (Hn y); auto. apply Hm. now rewrite Ky. }
    split; [|auto]. split; [|split]; auto. intros a. unfold kset. rewrite Hm.
    destruct (Z.eqb_spec (fst a) (fst x)) as [Ea|Na]; [|tauto].
    rewrite Ea, Hx. tauto.
Qed.
Lemma keyed_insert (m : kmap) (x : node) : (forall k y, m k = Some y -> fst y = k) -> forall k y,
  (match m (fst x) with Some _ => m | None => kset m (fst x) (Some x) end) k = Some y -> fst y = k.
Proof.
  intros H k y. destruct (m (fst x)) eqn:E; [apply H|]. unfold kset.
  destruct (Z.eqb_spec k (fst x)); [|apply H]. intros F. inversion F; subst; auto.
Qed.
Lemma keyed_remove (m : kmap) (x : node) : (forall k y, m k = Some y -> fst y = k) -> forall k y,
  kset m (fst x) None k = Some y -> fst y = k.
Proof. intros H k y. unfold kset. destruct (Z.eqb_spec k (fst x)); [discriminate|apply H]. Qed.
Lemma run_good ops : forall t m, good t m -> (forall k y, m k = Some y -> fst y = k) ->
  exists t', run ops t = Some t' /\ good t' (spec ops m) /\ (forall k y, spec ops m k = Some y -> fst y = k).
Proof.
  induction ops as [|[x|x] r IH]; intros t m G K; cbn [run spec].
  - eauto.
  - destruct (good_insert t m x G K) as (t' & res & E & G' & _). rewrite E. cbn [obind].
    apply IH; auto. now apply keyed_insert.
  - destruct (good_remove t m x G K) as (t' & res & E & G' & _). rewrite E. cbn [obind].
    apply IH; auto. now apply keyed_remove.
Qed.
Definition empty : kmap := fun _ => None.
Lemma good_empty : good Bot empty.
Proof. split; [exact I|]. split; [constructor|]. intros x; simpl. split; [tauto|discriminate]. Qed.
Lemma history ops : exists t, run ops Bot = Some t /\ good t (spec ops empty) /\
  (forall k y, spec ops empty k = Some y -> fst y = k).
Proof. apply run_good; [apply good_empty|]. discriminate. Qed.

(** Every history runs without touching the sentinel, and the in-order traversal lists exactly
    the nodes of the specification, strictly increasing in the key (hence once each). *)
Theorem C28_contents : forall ops, exists t, run ops Bot = Some t /\
  (forall x, In x (elements t) <-> spec ops empty (fst x) = Some x) /\
  StronglySorted (fun a b => (fst a < fst b)%Z) (elements t).
Proof. intros ops. destruct (history ops) as (t & E & (I & S & H) & K). exists t. auto. Qed.

(** find returns the node stored under the key, and 0 exactly when there is none. *)
Theorem C28_find : forall ops t x, run ops Bot = Some t -> find x t = spec ops empty (fst x).
Proof.
  intros ops t x E. destruct (history ops) as (t' & E' & (I & S & H) & K). rewrite E in E'. inversion E'; subst t'.
  destruct (find x t) as [y|] eqn:F.
  - apply find_spec in F as (F1 & F2); auto. apply H in F1. unfold key in F2. congruence.
  - destruct (spec ops empty (fst x)) as [y|] eqn:G; auto. exfalso.
    pose proof (K _ _ G) as Ky. assert (find x t = Some y); [|congruence].
    apply find_spec; auto. split; auto. apply H. congruence.
Qed.

(** The results of the operations: insert returns the stored node, remove the removed one. *)
Theorem C28_results : forall ops t x, run ops Bot = Some t ->
  (exists t', insert x t = Some (t', match spec ops empty (fst x) with Some y => y | None => x end)) /\
  (exists t', remove x t = Some (t', spec ops empty (fst x))).
Proof.
  intros ops t x E. destruct (history ops) as (t' & E' & G & K). rewrite E in E'. inversion E'; subst t'.
  destruct (good_insert t _ x G K) as (t1 & r1 & E1 & _ & ->).
  destruct (good_remove t _ x G K) as (t2 & r2 & E2 & _ & ->). split; eauto.
Qed.

(** count is the number of nodes and the height is at most 2 log2 (count + 1). *)
Theorem C28_balanced : forall ops t, run ops Bot = Some t ->
  count t = length (elements t) /\ 2 ^ height t <= (count t + 1) * (count t + 1).
Proof.
  intros ops t E. destruct (history ops) as (t' & E' & (I & _) & _). rewrite E in E'. inversion E'; subst t'.
  split; [apply count_spec|now apply height_bound].
Qed.

(** Fifteen increasing insertions, an insertion of a present key, removals of an inner node, a
    leaf and an absent key. *)
Example C28_example :
  let ops := map (fun i => Insert (Z.of_nat i, i)) (seq 0 15) ++
             [Insert (4%Z, 99); Remove (7%Z, 0); Remove (0%Z, 0); Remove (40%Z, 0)] in
  option_map (fun t => (map snd (elements t), height t, count t)) (run ops Bot)
  = Some ([1; 2; 3; 4; 5; 6; 8; 9; 10; 11; 12; 13; 14], 5, 13).
Proof. vm_compute. reflexivity. Qed.

Print Assumptions C28_contents.
Print Assumptions C28_find.
Print Assumptions C28_results.
Print Assumptions C28_balanced.

