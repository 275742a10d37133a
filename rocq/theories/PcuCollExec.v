(** Generic correctness of level-structured collectives under asynchronous execution. *)
From Verif Require Import Base PcuCollModel.

Definition nonidle (a : cact) : bool := match a with Idle => false | _ => true end.
Definition strip (l : list cact) : list cact := filter nonidle l.

Section Levels.
Context {A : Type}.
Variable m : A -> A -> A.
Variable n L : nat.
Variable act : nat -> nat -> cact.
Variable init : nat -> A.
Variable prog : nat -> list cact.

Fixpoint V (r k : nat) : A :=
  match k with
  | 0 => init r
  | S j => match act r j with Recv q kd => do_merge m kd (V r j) (V q j) | _ => V r j end
  end.

Definition levels (r k : nat) : list cact := strip (map (act r) (seq k (L - k))).

Hypothesis Hsend : forall r k q, r < n -> k < L -> act r k = Send q ->
  q < n /\ exists kd, act q k = Recv r kd.
Hypothesis Hrecv : forall r k q kd, r < n -> k < L -> act r k = Recv q kd ->
  q < n /\ act q k = Send r.
Hypothesis Hprog : forall r, r < n -> strip (prog r) = levels r 0.

Lemma levels_idle r k : k < L -> act r k = Idle -> levels r k = levels r (S k).
Proof. intros Hk Hi. unfold levels. replace (L - k) with (S (L - S k)) by lia. simpl. now rewrite Hi. Qed.
Lemma levels_cons r k : k < L -> nonidle (act r k) = true -> levels r k = act r k :: levels r (S k).
Proof. intros Hk Hi. unfold levels. replace (L - k) with (S (L - S k)) by lia. simpl. now rewrite Hi. Qed.
Lemma levels_end r : levels r L = [].
Proof. unfold levels. now rewrite Nat.sub_diag. Qed.

(** the next level >= k at which r does something *)
Definition at_level (r k : nat) : Prop := k <= L /\ (k < L -> nonidle (act r k) = true).

Lemma next_level r k : k <= L -> exists k', k <= k' /\ at_level r k' /\ levels r k = levels r k' /\
  V r k = V r k' /\ (forall j, k <= j -> j < k' -> act r j = Idle).
Proof.
  intros Hk. remember (L - k) as d eqn:Hd. revert k Hk Hd.
  induction d as [|d IH]; intros k Hk Hd.
  - exists k. replace k with L by lia. unfold at_level. repeat split; try lia; auto.
  - destruct (nonidle (act r k)) eqn:E.
    + exists k. repeat split; auto; lia.
    + destruct (IH (S k)) as (k' & H1 & H2 & H3 & H4 & H5); try lia.
      assert (Ei : act r k = Idle) by (destruct (act r k); simpl in E; congruence).
      exists k'. split; [lia|]. split; [auto|]. split; [|split].
      * rewrite (levels_idle r k) by (auto; lia). auto.
      * rewrite <- H4. simpl. now rewrite Ei.
      * intros j Hj1 Hj2. destruct (Nat.eq_dec j k); [subst; auto|apply H5; lia].
Qed.

Record inv (s : @cstate A) (lv : nat -> nat) : Prop := {
  i_lv : forall r, r < n -> at_level r (lv r);
  i_pc : forall r, r < n -> strip (c_pc s r) = levels r (lv r);
  i_val : forall r, r < n -> c_val s r = V r (lv r);
  i_sent : forall r, r < n -> c_sent s r = true -> exists q, lv r < L /\ act r (lv r) = Send q /\
              exists rest, c_pc s r = Send q :: rest;
  i_net1 : forall r q, r < n -> c_sent s r = true -> lv r < L -> act r (lv r) = Send q -> lv q <= lv r ->
              c_net s r q = [V r (lv r)];
  i_net2 : forall r q, r < n -> (c_sent s r = true -> lv r < L -> act r (lv r) = Send q -> lv r < lv q) ->
              c_net s r q = [];
  i_send_done : forall r j q, r < n -> j < lv r -> act r j = Send q -> j < lv q;
  i_recv_done : forall r j q kd, r < n -> j < lv r -> act r j = Recv q kd ->
              j < lv q \/ (lv q = j /\ c_sent s q = true)
}.

Lemma inv_init : exists lv, inv (cinit prog init) lv /\
  forall r, r < n -> forall j, j < lv r -> act r j = Idle.
Proof.
  assert (H : forall N, exists lv : nat -> nat, forall r, r < N ->
     at_level r (lv r) /\ levels r 0 = levels r (lv r) /\ init r = V r (lv r) /\
     (forall j, j < lv r -> act r j = Idle)).
  { induction N as [|N [lv IH]].
    - exists (fun _ => 0). intros; lia.
    - destruct (next_level N 0 (Nat.le_0_l _)) as (k & _ & H2 & H3 & H4 & H5).
      exists (fset lv N k). intros r Hr. unfold fset.
      destruct (Nat.eqb_spec r N); [subst|apply IH; lia].
      split; [|split; [|split]]; auto. intros; apply H5; lia. }
  destruct (H n) as [lv Hlv]. exists lv. split.
  2:{ intros r Hr j Hj. destruct (Hlv r Hr) as (_ & _ & _ & H4). auto. }
  constructor; simpl; intros; try (now apply Hlv); try discriminate; auto.
  - rewrite Hprog by auto. now apply Hlv.
  - destruct (Hlv r H0) as (_ & _ & _ & H4). rewrite H4 in H2 by auto. discriminate.
  - destruct (Hlv r H0) as (_ & _ & _ & H4). rewrite H4 in H2 by auto. discriminate.
Qed.

Lemma head_level s lv r a rest : inv s lv -> r < n -> c_pc s r = a :: rest -> nonidle a = true ->
  lv r < L /\ act r (lv r) = a /\ strip rest = levels r (S (lv r)).
Proof.
  intros I Hr Hpc Ha. pose proof (i_pc _ _ I r Hr) as H. rewrite Hpc in H. simpl in H. rewrite Ha in H.
  destruct (i_lv _ _ I r Hr) as [H1 H2].
  destruct (Nat.eq_dec (lv r) L) as [e|e].
  - rewrite e, levels_end in H. discriminate.
  - assert (lv r < L) by lia. rewrite levels_cons in H by auto. inversion H. auto.
Qed.

Lemma fset_eq B (f : nat -> B) i x : fset f i x i = x.
Proof. unfold fset. now rewrite Nat.eqb_refl. Qed.
Lemma fset_neq B (f : nat -> B) i j x : j <> i -> fset f i x j = f j.
Proof. unfold fset. intros. destruct (Nat.eqb_spec j i); congruence. Qed.
Lemma fset2_eq B (f : nat -> nat -> B) i k x : fset2 f i k x i k = x.
Proof. unfold fset2. now rewrite !Nat.eqb_refl. Qed.
Lemma fset2_neq B (f : nat -> nat -> B) i k a b x : (a <> i \/ b <> k) -> fset2 f i k x a b = f a b.
Proof. unfold fset2. intros. destruct (Nat.eqb_spec a i); destruct (Nat.eqb_spec b k); simpl; auto. lia. Qed.

(** every reachable state satisfies the invariant; levels never go back *)
Lemma inv_step s lv s' : inv s lv -> cstep m n s s' ->
  exists lv', inv s' lv' /\ (forall r, r < n -> lv r <= lv' r).
Proof.
  intros I Hst. destruct Hst as [s r q rest Hr Hpc Hs|s r q rest Hr Hpc Hs Hn|s r q kd rest x l Hr Hpc Hn|s r rest Hr Hpc].
  - (* issue *)
    destruct (head_level s lv r _ _ I Hr Hpc eq_refl) as (Hl & Ha & Hrest).
    destruct (Hsend _ _ _ Hr Hl Ha) as (Hq & kd & Haq).
    assert (Hempty : c_net s r q = []) by (apply (i_net2 _ _ I); auto; congruence).
    assert (Hlq : lv q <= lv r).
    { destruct (le_gt_dec (lv q) (lv r)); auto.
      destruct (i_recv_done _ _ I q (lv r) r kd Hq g Haq) as [H|[_ H]]; [lia|congruence]. }
    exists lv. split; [|auto]. constructor; simpl.
    + apply (i_lv _ _ I).
    + apply (i_pc _ _ I).
    + apply (i_val _ _ I).
    + intros r0 Hr0. destruct (Nat.eq_dec r0 r).
      * subst. intros _. exists q. eauto.
      * rewrite fset_neq by auto. intros. apply (i_sent _ _ I); auto.
    + intros r0 q0 Hr0. destruct (Nat.eq_dec r0 r).
      * subst. rewrite fset_eq. intros _ _ Ha0 _. rewrite Ha in Ha0; inversion Ha0; subst.
        rewrite fset2_eq, Hempty. simpl. now rewrite (i_val _ _ I).
      * rewrite fset_neq by auto. rewrite fset2_neq by auto. intros. now apply (i_net1 _ _ I).
    + intros r0 q0 Hr0. destruct (Nat.eq_dec r0 r).
      * subst. rewrite fset_eq. intros H. destruct (Nat.eq_dec q0 q).
        { subst. specialize (H eq_refl Hl Ha). exfalso; lia. }
        rewrite fset2_neq by auto. apply (i_net2 _ _ I); auto; congruence.
      * rewrite fset_neq by auto. rewrite fset2_neq by auto. intros. now apply (i_net2 _ _ I).
    + apply (i_send_done _ _ I).
    + intros r0 j q0 k0 Hr0 Hj Ha0. destruct (i_recv_done _ _ I _ _ _ _ Hr0 Hj Ha0) as [H|[H1 H2]]; auto.
      right; split; auto. unfold fset. destruct (q0 =? r); auto.
  - (* complete *)
    destruct (head_level s lv r _ _ I Hr Hpc eq_refl) as (Hl & Ha & Hrest).
    destruct (Hsend _ _ _ Hr Hl Ha) as (Hq & kd & Haq).
    assert (Hlq : lv r < lv q).
    { destruct (le_gt_dec (lv q) (lv r)) as [H|H]; auto.
      rewrite (i_net1 _ _ I r q) in Hn by auto. discriminate. }
    destruct (next_level r (S (lv r))) as (k' & K1 & K2 & K3 & K4 & K5); [lia|].
    assert (Hqr : q <> r) by (intros ->; lia).
    exists (fset lv r k'). split; [|intros r0 Hr0; unfold fset; destruct (Nat.eqb_spec r0 r); subst; lia].
    constructor; simpl.
    + intros r0 Hr0. destruct (Nat.eq_dec r0 r); [subst; rewrite fset_eq; auto|rewrite fset_neq by auto; apply (i_lv _ _ I); auto].
    + intros r0 Hr0. destruct (Nat.eq_dec r0 r).
      * subst; rewrite !fset_eq. now rewrite Hrest.
      * rewrite !fset_neq by auto; apply (i_pc _ _ I); auto.
    + intros r0 Hr0. destruct (Nat.eq_dec r0 r).
      * subst; rewrite !fset_eq. rewrite <- K4, (i_val _ _ I) by auto. simpl. now rewrite Ha.
      * rewrite !fset_neq by auto; apply (i_val _ _ I); auto.
    + intros r0 Hr0. destruct (Nat.eq_dec r0 r).
      * subst; rewrite !fset_eq. discriminate.
      * rewrite !fset_neq by auto. intros. apply (i_sent _ _ I); auto.
    + intros r0 q0 Hr0. destruct (Nat.eq_dec r0 r).
      * subst; rewrite !fset_eq. discriminate.
      * rewrite !(fset_neq _ _ _ r0) by auto. intros H1 H2 H3 H4. apply (i_net1 _ _ I); auto.
        destruct (Nat.eq_dec q0 r); [subst; rewrite fset_eq in H4; lia|rewrite fset_neq in H4; auto].
    + intros r0 q0 Hr0. destruct (Nat.eq_dec r0 r).
      * subst; rewrite !fset_eq. intros _. destruct (Nat.eq_dec q0 q); [subst; auto|].
        apply (i_net2 _ _ I); auto. intros; congruence.
      * rewrite !(fset_neq _ _ _ r0) by auto. intros H. destruct (Nat.eq_dec q0 r).
        2:{ rewrite fset_neq in H by auto. apply (i_net2 _ _ I); auto. }
        subst. rewrite fset_eq in H. apply (i_net2 _ _ I); auto. intros H1 H2 H3.
        specialize (H H1 H2 H3). destruct (Hsend _ _ _ Hr0 H2 H3) as (_ & kd' & H4).
        destruct (Nat.lt_trichotomy (lv r0) (lv r)) as [g|[g|g]]; auto.
        { rewrite g, Ha in H4. discriminate. }
        rewrite K5 in H4 by lia. discriminate.
    + intros r0 j q0 Hr0 Hj Ha0. destruct (Nat.eq_dec q0 r).
      * subst. rewrite fset_eq. destruct (Nat.eq_dec r0 r).
        { subst. rewrite fset_eq in Hj. lia. }
        rewrite fset_neq in Hj by auto. pose proof (i_send_done _ _ I _ _ _ Hr0 Hj Ha0). lia.
      * rewrite (fset_neq _ _ _ q0) by auto. destruct (Nat.eq_dec r0 r).
        { subst. rewrite fset_eq in Hj. destruct (Nat.lt_trichotomy j (lv r)) as [g|[g|g]].
          - eapply (i_send_done _ _ I); eauto.
          - rewrite g, Ha in Ha0. inversion Ha0; subst. lia.
          - rewrite K5 in Ha0 by lia. discriminate. }
        rewrite fset_neq in Hj by auto. eapply (i_send_done _ _ I); eauto.
    + intros r0 j q0 k0 Hr0 Hj Ha0. destruct (Nat.eq_dec q0 r).
      * subst. rewrite !fset_eq. left. destruct (Nat.eq_dec r0 r).
        { subst. rewrite fset_eq in Hj. lia. }
        rewrite fset_neq in Hj by auto.
        destruct (i_recv_done _ _ I _ _ _ _ Hr0 Hj Ha0) as [g|[g _]]; lia.
      * rewrite !(fset_neq _ _ _ q0) by auto. destruct (Nat.eq_dec r0 r).
        { subst. rewrite fset_eq in Hj. destruct (Nat.lt_trichotomy j (lv r)) as [g|[g|g]].
          - eapply (i_recv_done _ _ I); eauto.
          - rewrite g, Ha in Ha0. discriminate.
          - rewrite K5 in Ha0 by lia. discriminate. }
        rewrite fset_neq in Hj by auto. eapply (i_recv_done _ _ I); eauto.
  - (* recv *)
    destruct (head_level s lv r _ _ I Hr Hpc eq_refl) as (Hl & Ha & Hrest).
    destruct (Hrecv _ _ _ _ Hr Hl Ha) as (Hq & Haq).
    (* the sender is at the same level *)
    assert (Hsq : c_sent s q = true /\ lv q = lv r /\ x = V q (lv q) /\ l = []).
    { destruct (c_sent s q) eqn:Es.
      2:{ rewrite (i_net2 _ _ I q r) in Hn by (auto; congruence); discriminate. }
      destruct (i_sent _ _ I q Hq Es) as (q' & G1 & G2 & _).
      destruct (Nat.eq_dec q' r).
      2:{ rewrite (i_net2 _ _ I q r) in Hn; auto; [discriminate|]. intros; congruence. }
      subst q'. destruct (le_gt_dec (lv r) (lv q)) as [g|g].
      2:{ rewrite (i_net2 _ _ I q r) in Hn by (auto; intros; lia). discriminate. }
      rewrite (i_net1 _ _ I q r) in Hn by auto. inversion Hn; subst. repeat split; auto.
      destruct (Nat.eq_dec (lv q) (lv r)); auto.
      assert (lv r < lv q) by lia. pose proof (i_send_done _ _ I q (lv r) r Hq H Haq). lia. }
    destruct Hsq as (Hsq & Hlq & -> & ->).
    destruct (next_level r (S (lv r))) as (k' & K1 & K2 & K3 & K4 & K5); [lia|].
    assert (Hqr : q <> r). { intros ->. rewrite Ha in Haq. discriminate. }
    assert (Hsr : c_sent s r = false).
    { destruct (c_sent s r) eqn:Es; auto. destruct (i_sent _ _ I r Hr Es) as (q' & _ & G & _). congruence. }
    exists (fset lv r k'). split; [|intros r0 Hr0; unfold fset; destruct (Nat.eqb_spec r0 r); subst; lia].
    constructor; simpl.
    + intros r0 Hr0. destruct (Nat.eq_dec r0 r); [subst; rewrite fset_eq; auto|rewrite fset_neq by auto; apply (i_lv _ _ I); auto].
    + intros r0 Hr0. destruct (Nat.eq_dec r0 r).
      * subst; rewrite !fset_eq. now rewrite Hrest.
      * rewrite !fset_neq by auto; apply (i_pc _ _ I); auto.
    + intros r0 Hr0. destruct (Nat.eq_dec r0 r).
      * subst; rewrite !fset_eq. rewrite <- K4, (i_val _ _ I) by auto. simpl. rewrite Ha. now rewrite Hlq.
      * rewrite !fset_neq by auto; apply (i_val _ _ I); auto.
    + intros r0 Hr0 Es. destruct (Nat.eq_dec r0 r); [subst; congruence|].
      rewrite !fset_neq by auto. apply (i_sent _ _ I); auto.
    + intros r0 q0 Hr0 Es. destruct (Nat.eq_dec r0 r); [subst; congruence|].
      rewrite !(fset_neq _ _ _ r0) by auto. intros H1 H2 H3.
      destruct (Nat.eq_dec q0 r).
      * subst. rewrite fset_eq in H3. destruct (Nat.eq_dec r0 q); [subst; lia|].
        rewrite fset2_neq by auto. apply (i_net1 _ _ I); auto. lia.
      * rewrite fset_neq in H3 by auto. rewrite fset2_neq by auto. apply (i_net1 _ _ I); auto.
    + intros r0 q0 Hr0. destruct (Nat.eq_dec r0 r).
      * subst; rewrite !fset_eq. intros _. rewrite fset2_neq by auto. apply (i_net2 _ _ I); auto; congruence.
      * rewrite !(fset_neq _ _ _ r0) by auto. intros H. destruct (Nat.eq_dec q0 r).
        { subst. rewrite fset_eq in H. destruct (Nat.eq_dec r0 q).
          - subst. now rewrite fset2_eq.
          - rewrite fset2_neq by auto. apply (i_net2 _ _ I); auto. intros H1 H2 H3.
            specialize (H H1 H2 H3). destruct (Hsend _ _ _ Hr0 H2 H3) as (_ & kd' & H4).
            destruct (Nat.lt_trichotomy (lv r0) (lv r)) as [g|[g|g]]; auto.
            + rewrite g, Ha in H4. inversion H4; congruence.
            + rewrite K5 in H4 by lia. discriminate. }
        rewrite fset_neq in H by auto. rewrite fset2_neq by auto. apply (i_net2 _ _ I); auto.
    + intros r0 j q0 Hr0 Hj Ha0. destruct (Nat.eq_dec q0 r).
      * subst. rewrite fset_eq. destruct (Nat.eq_dec r0 r).
        { subst. rewrite fset_eq in Hj. lia. }
        rewrite fset_neq in Hj by auto. pose proof (i_send_done _ _ I _ _ _ Hr0 Hj Ha0). lia.
      * rewrite (fset_neq _ _ _ q0) by auto. destruct (Nat.eq_dec r0 r).
        { subst. rewrite fset_eq in Hj. destruct (Nat.lt_trichotomy j (lv r)) as [g|[g|g]].
          - eapply (i_send_done _ _ I); eauto.
          - rewrite g, Ha in Ha0. discriminate.
          - rewrite K5 in Ha0 by lia. discriminate. }
        rewrite fset_neq in Hj by auto. eapply (i_send_done _ _ I); eauto.
    + intros r0 j q0 k0 Hr0 Hj Ha0. destruct (Nat.eq_dec q0 r).
      * subst. rewrite !fset_eq. left. destruct (Nat.eq_dec r0 r).
        { subst. rewrite fset_eq in Hj. lia. }
        rewrite fset_neq in Hj by auto.
        destruct (i_recv_done _ _ I _ _ _ _ Hr0 Hj Ha0) as [g|[g _]]; lia.
      * rewrite !(fset_neq _ _ _ q0) by auto. destruct (Nat.eq_dec r0 r).
        { subst. rewrite fset_eq in Hj. destruct (Nat.lt_trichotomy j (lv r)) as [g|[g|g]].
          - eapply (i_recv_done _ _ I); eauto.
          - rewrite g, Ha in Ha0. inversion Ha0; subst. auto.
          - rewrite K5 in Ha0 by lia. discriminate. }
        rewrite fset_neq in Hj by auto. eapply (i_recv_done _ _ I); eauto.
  - (* idle *)
    exists lv. split; [|auto]. constructor; simpl; try apply I.
    + intros r0 Hr0. destruct (Nat.eq_dec r0 r).
      * subst. rewrite fset_eq. rewrite <- (i_pc _ _ I) by auto. now rewrite Hpc.
      * rewrite fset_neq by auto. apply (i_pc _ _ I); auto.
    + intros r0 Hr0 Es. destruct (i_sent _ _ I r0 Hr0 Es) as (q & H1 & H2 & rest' & H3).
      exists q. repeat split; auto. exists rest'. rewrite fset_neq; auto. congruence.
Qed.

Lemma inv_reach i s : csteps m n i (cinit prog init) s ->
  exists lv, inv s lv.
Proof.
  remember (cinit prog init) as s0 eqn:E0. intros H. induction H as [s|i s1 s2 s3 H IH Hst].
  - subst. destruct inv_init as (lv & H & _). eauto.
  - destruct (IH E0) as (lv & I). destruct (inv_step _ _ _ I Hst) as (lv' & I' & _). eauto.
Qed.

(** a rank that has finished holds its final value, and no message addressed by it is left *)
Lemma finished_value i s r : csteps m n i (cinit prog init) s -> r < n -> c_pc s r = [] ->
  c_val s r = V r L.
Proof.
  intros H Hr Hpc. destruct (inv_reach _ _ H) as (lv & I).
  rewrite (i_val _ _ I r Hr). pose proof (i_pc _ _ I r Hr) as Hp. rewrite Hpc in Hp. simpl in Hp.
  destruct (i_lv _ _ I r Hr) as [H1 H2]. destruct (Nat.eq_dec (lv r) L); [congruence|].
  rewrite levels_cons in Hp by (try lia; apply H2; lia). discriminate.
Qed.

Lemma finished_net i s r q : csteps m n i (cinit prog init) s -> r < n -> c_pc s r = [] ->
  c_net s r q = [].
Proof.
  intros H Hr Hpc. destruct (inv_reach _ _ H) as (lv & I).
  apply (i_net2 _ _ I); auto. intros Es. destruct (i_sent _ _ I r Hr Es) as (q' & _ & _ & rest & E). congruence.
Qed.

(** no deadlock *)
Lemma min_rank (f : nat -> nat) : forall N, 0 < N -> exists r, r < N /\ forall q, q < N -> f r <= f q.
Proof.
  induction N as [|N IH]; intros H; [lia|]. destruct (Nat.eq_dec N 0).
  - exists 0. subst. split; [lia|]. intros. replace q with 0 by lia. lia.
  - destruct IH as (r & H1 & H2); [lia|]. destruct (le_gt_dec (f r) (f N)) as [g|g].
    + exists r. split; [lia|]. intros q Hq. destruct (Nat.eq_dec q N); [subst; auto|apply H2; lia].
    + exists N. split; [lia|]. intros q Hq. destruct (Nat.eq_dec q N); [subst; auto|]. specialize (H2 q). lia.
Qed.

Lemma progress i s : csteps m n i (cinit prog init) s -> ~ finished n s -> exists s', cstep m n s s'.
Proof.
  intros H Hnf. destruct (inv_reach _ _ H) as (lv & I).
  (* an idle step somewhere? *)
  assert (Hid : (exists r rest, r < n /\ c_pc s r = Idle :: rest) \/
                (forall r, r < n -> forall rest, c_pc s r <> Idle :: rest)).
  { assert (G : forall N, (exists r rest, r < N /\ c_pc s r = Idle :: rest) \/
                (forall r, r < N -> forall rest, c_pc s r <> Idle :: rest)).
    { induction N as [|N [(r & rest & H1 & H2)|IH]].
      - right. intros; lia.
      - left. exists r, rest. split; auto.
      - destruct (c_pc s N) as [|[| |] rest] eqn:E; try (right; intros r Hr rest'; destruct (Nat.eq_dec r N); [subst; congruence|apply IH; lia]).
        left. exists N, rest. auto. }
    apply G. }
  destruct Hid as [(r & rest & H1 & H2)|Hid].
  { eexists. eapply st_idle; eauto. }
  destruct (Nat.eq_dec n 0) as [e|e].
  { exfalso. apply Hnf. intros r Hr. lia. }
  destruct (min_rank lv n) as (r & Hr & Hmin); [lia|].
  destruct (i_lv _ _ I r Hr) as [H1 H2].
  destruct (Nat.eq_dec (lv r) L) as [eL|eL].
  { exfalso. apply Hnf. intros q Hq. assert (lv q = L).
    { destruct (i_lv _ _ I q Hq). specialize (Hmin q Hq). lia. }
    pose proof (i_pc _ _ I q Hq) as Hp. rewrite H0, levels_end in Hp.
    destruct (c_pc s q) as [|[| |] rest] eqn:E; auto; simpl in Hp; try discriminate.
    exfalso; eapply Hid; eauto. }
  assert (Hl : lv r < L) by lia.
  assert (Hhead : forall q, q < n -> lv q < L -> exists rest, c_pc s q = act q (lv q) :: rest).
  { intros q Hq Hlq. pose proof (i_pc _ _ I q Hq) as Hp.
    rewrite levels_cons in Hp by (auto; apply (i_lv _ _ I q Hq); auto).
    destruct (c_pc s q) as [|a rest] eqn:E; [discriminate|]. exists rest.
    destruct a; simpl in Hp; try (inversion Hp; subst; reflexivity).
    exfalso; eapply Hid; eauto. }
  destruct (Hhead r Hr Hl) as (rest & Hpc).
  destruct (act r (lv r)) as [|q|q kd] eqn:Ha.
  - specialize (H2 Hl). discriminate.
  - destruct (Hsend _ _ _ Hr Hl Ha) as (Hq & kd & Haq).
    destruct (c_sent s r) eqn:Es.
    + destruct (le_gt_dec (lv q) (lv r)) as [g|g].
      * assert (Hlq : lv q = lv r) by (specialize (Hmin q Hq); lia).
        destruct (Hhead q Hq) as (rest' & Hpq); [lia|]. rewrite Hlq, Haq in Hpq.
        eexists. eapply st_recv; eauto. apply (i_net1 _ _ I r q); auto.
      * eexists. apply (st_complete m n s r q rest Hr Hpc Es). apply (i_net2 _ _ I); auto.
    + eexists. apply (st_issue m n s r q rest Hr Hpc Es).
  - destruct (Hrecv _ _ _ _ Hr Hl Ha) as (Hq & Haq).
    assert (Hlq : lv q = lv r).
    { specialize (Hmin q Hq). destruct (Nat.eq_dec (lv q) (lv r)); auto.
      assert (g : lv r < lv q) by lia. pose proof (i_send_done _ _ I q (lv r) r Hq g Haq). lia. }
    destruct (Hhead q Hq) as (rest' & Hpq); [lia|]. rewrite Hlq, Haq in Hpq.
    destruct (c_sent s q) eqn:Es.
    + eexists. eapply (st_recv m n s r q kd rest _ _ Hr Hpc). apply (i_net1 _ _ I q r); auto; try lia; congruence.
    + eexists. apply (st_issue m n s q r rest' Hq Hpq Es).
Qed.

End Levels.

(** whoever contributed to the value of a rank has started *)
Definition started {A} (prog : nat -> list cact) (s : @cstate A) (q : nat) : Prop :=
  c_sent s q = true \/ c_pc s q <> prog q.
Section Started.
Context {A : Type}.
Variable m : A -> A -> A.
Variable n L : nat.
Variable act : nat -> nat -> cact.
Variable init : nat -> A.
Variable prog : nat -> list cact.
Hypothesis Hsend : forall r k q, r < n -> k < L -> act r k = Send q ->
  q < n /\ exists kd, act q k = Recv r kd.
Hypothesis Hrecv : forall r k q kd, r < n -> k < L -> act r k = Recv q kd ->
  q < n /\ act q k = Send r.
Hypothesis Hprog : forall r, r < n -> strip (prog r) = levels L act r 0.

Lemma deps_started s lv : inv m n L act init s lv -> forall k r x, r < n -> k <= lv r ->
  In x (V (@app nat) act (fun r => [r]) r k) -> x = r \/
  (x < n /\ exists j, j < L /\ nonidle (act x j) = true /\ (j < lv x \/ (lv x = j /\ c_sent s x = true))).
Proof.
  intros I. induction k as [|k IH]; intros r x Hr Hk Hin; simpl in Hin.
  - destruct Hin as [<-|[]]; auto.
  - assert (HL : k < L) by (destruct (i_lv _ _ _ _ _ _ _ I r Hr); lia).
    destruct (act r k) as [|q|q kd] eqn:Ea; try (apply IH; auto; lia).
    destruct (Hrecv _ _ _ _ Hr HL Ea) as (Hq & Haq).
    pose proof (i_recv_done _ _ _ _ _ _ _ I r k q kd Hr Hk Ea) as Hd.
    assert (Hc : In x (V (@app nat) act (fun r => [r]) r k) \/ In x (V (@app nat) act (fun r => [r]) q k)).
    { destruct kd; simpl in Hin; auto. apply in_app_or in Hin; auto. }
    destruct Hc as [Hc|Hc]; [apply IH; auto; lia|].
    destruct (IH q x Hq) as [->|H]; auto; [lia|].
    right. split; auto. exists k. rewrite Haq. auto.
Qed.

Lemma levels_len r : forall a b, a <= b -> b <= L -> length (levels L act r b) <= length (levels L act r a).
Proof.
  intros a b Hab Hb. induction Hab as [|b Hab IH]; auto.
  etransitivity; [|apply IH; lia]. destruct (nonidle (act r b)) eqn:E.
  - rewrite (levels_cons L act r b) by (auto; lia). simpl. lia.
  - rewrite (levels_idle L act r b); auto. destruct (act r b); simpl in E; congruence.
Qed.

Lemma finished_all_started i s r q : csteps m n i (cinit prog init) s -> r < n -> c_pc s r = [] ->
  In q (V (@app nat) act (fun r => [r]) r L) -> q <> r -> started prog s q.
Proof.
  intros H Hr Hpc Hin Hne. destruct (inv_reach m n L act init prog Hsend Hrecv Hprog _ _ H) as (lv & I).
  assert (HL : lv r = L).
  { pose proof (i_pc _ _ _ _ _ _ _ I r Hr) as Hp. rewrite Hpc in Hp. simpl in Hp.
    destruct (i_lv _ _ _ _ _ _ _ I r Hr) as [H1 H2]. destruct (Nat.eq_dec (lv r) L); [congruence|].
    rewrite levels_cons in Hp by (try lia; apply H2; lia). discriminate. }
  destruct (deps_started s lv I L r q Hr) as [->|(Hq & j & Hj & Hni & Hd)]; auto; [lia|congruence|].
  unfold started. destruct Hd as [Hd|[_ Hd]]; auto. right. intros Heq.
  pose proof (i_pc _ _ _ _ _ _ _ I q Hq) as Hp. rewrite Heq, Hprog in Hp by auto.
  assert (length (levels L act q (lv q)) < length (levels L act q 0)); [|rewrite Hp in H0; lia].
  destruct (i_lv _ _ _ _ _ _ _ I q Hq) as [H1 _].
  pose proof (levels_len q 0 j). pose proof (levels_len q (S j) (lv q)).
  rewrite (levels_cons L act q j) in H0 by auto. simpl in H0. lia.
Qed.
End Started.

(** termination: every move shrinks this measure *)
Section Measure.
Context {A : Type}.
Variable m : A -> A -> A.
Definition rank_measure (s : @cstate A) (r : nat) : nat :=
  2 * length (c_pc s r) - (if c_sent s r then 1 else 0).
Definition measure (n : nat) (s : @cstate A) : nat := nsum (map (rank_measure s) (seq 0 n)).

Lemma nsum_change (f g : nat -> nat) n r : r < n -> (forall q, q <> r -> f q = g q) -> g r < f r ->
  nsum (map g (seq 0 n)) < nsum (map f (seq 0 n)).
Proof.
  revert r. induction n as [|n IH]; intros r Hr He Hlt; [lia|].
  rewrite seq_snoc, !map_app, !nsum_app. simpl.
  destruct (Nat.eq_dec r n).
  - subst. assert (map g (seq 0 n) = map f (seq 0 n)).
    { apply map_ext_in. intros a Ha. apply in_seq in Ha. symmetry. apply He. lia. }
    rewrite H. lia.
  - specialize (IH r). rewrite He with n by auto. assert (r < n) by lia. specialize (IH H He Hlt). lia.
Qed.

Lemma measure_step n s s' : cstep m n s s' -> measure n s' < measure n s.
Proof.
  intros H. unfold measure. destruct H.
  - apply nsum_change with r; auto.
    + intros. unfold rank_measure; simpl. unfold fset. destruct (Nat.eqb_spec q0 r); congruence.
    + unfold rank_measure; simpl. rewrite fset_eq, H0, H1. simpl. lia.
  - apply nsum_change with r; auto.
    + intros. unfold rank_measure; simpl. unfold fset. destruct (Nat.eqb_spec q0 r); congruence.
    + unfold rank_measure; simpl. rewrite !fset_eq, H0, H1. simpl. lia.
  - apply nsum_change with r; auto.
    + intros. unfold rank_measure; simpl. unfold fset. destruct (Nat.eqb_spec q0 r); congruence.
    + unfold rank_measure; simpl. rewrite !fset_eq, H0. simpl. destruct (c_sent s r); lia.
  - apply nsum_change with r; auto.
    + intros. unfold rank_measure; simpl. unfold fset. destruct (Nat.eqb_spec q r); congruence.
    + unfold rank_measure; simpl. rewrite !fset_eq, H0. simpl. destruct (c_sent s r); lia.
Qed.

Lemma steps_bound n i s s' : csteps m n i s s' -> i + measure n s' <= measure n s.
Proof. induction 1; [lia|]. apply measure_step in H0. lia. Qed.

Lemma measure_init n prog (init : nat -> A) :
  measure n (cinit prog init) = 2 * nsum (map (fun r => length (prog r)) (seq 0 n)).
Proof. unfold measure, rank_measure, cinit; simpl. generalize (seq 0 n). induction l; simpl; lia. Qed.
End Measure.
