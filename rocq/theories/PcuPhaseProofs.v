(** The phase protocol: exactly-once delivery within the phase, no leak, termination. *)
From Verif Require Import Base PcuMsgModel.

Section Proof.
Variable n phases : nat.
Context {M : Type}.
Variable out : nat -> nat -> list (nat * M).
Hypothesis Hout : forall k r d, In d (out k r) -> fst d < n.
Notation psys := (psys M).
Notation pmsg := (pmsg M).
Notation reach := (preach n phases out).
Notation step := (pstep n phases out).

Definition is_sent (st : pstate) : bool := match st with PSendRecv | PRecv => true | _ => false end.
Definition sent (s : psys) (r k : nat) : bool :=
  (k <? s_ph s r) || ((s_ph s r =? k) && is_sent (s_st s r)).
Definition to_in (d k : nat) (m : pmsg) : bool := (m_dst m =? d) && (m_phase m =? k).
Definition sent_msgs (s : psys) (r k : nat) : list pmsg := if sent s r k then outgoing out k r else [].
Definition all_sent (s : psys) (k : nat) : list pmsg := concat (map (fun r => sent_msgs s r k) (seq 0 n)).
Definition log_in (s : psys) (d k : nat) : list pmsg :=
  map snd (filter (fun e : nat * pmsg => fst e =? k) (s_log s d)).

Definition bar_of (st : pstate) : nat := match st with PIdle => 0 | PRecv => 2 | _ => 1 end.
Definition past_barrier (st : pstate) : bool := match st with PIdle | PStart => false | _ => true end.

Record Inv (s : psys) : Prop := {
  i_bar : forall r, r < n -> s_bar s r = 2 * s_ph s r + bar_of (s_st s r);
  i_ph : forall r q, r < n -> q < n -> 2 * s_ph s r <= s_bar s q;
  i_pack : forall r q, r < n -> q < n -> past_barrier (s_st s r) = true -> 2 * s_ph s r + 1 <= s_bar s q;
  i_net : forall m, In m (s_net s) -> m_src m < n /\ m_dst m < n /\ s_st s (m_src m) = PSendRecv /\ m_phase m = s_ph s (m_src m);
  i_log : forall d e, In e (s_log s d) -> fst e = m_phase (snd e) /\ m_dst (snd e) = d;
  i_all : forall k d, Permutation (filter (to_in d k) (s_net s) ++ log_in s d k)
                                  (filter (fun m => m_dst m =? d) (all_sent s k));
}.

Lemma outgoing_fields k r m : In m (outgoing out k r) -> m_src m = r /\ m_phase m = k /\ m_dst m < n.
Proof. unfold outgoing. rewrite in_map_iff. intros (d & <- & H). simpl. repeat split. eapply Hout; eauto. Qed.

Lemma all_sent_ext s s' k : (forall r, r < n -> sent s' r k = sent s r k) -> all_sent s' k = all_sent s k.
Proof.
  intros H. unfold all_sent. f_equal. apply map_ext_in. intros r Hr. apply in_seq in Hr.
  unfold sent_msgs. now rewrite H by lia.
Qed.
Lemma concat_add (B : Type) (f g : nat -> list B) r x a m : (forall q, q <> r -> g q = f q) -> g r = f r ++ x ->
  a <= r < a + m -> Permutation (concat (map g (seq a m))) (concat (map f (seq a m)) ++ x).
Proof.
  intros H1 H2. revert a. induction m as [|m IH]; intros a H; [lia|]. simpl.
  destruct (Nat.eq_dec a r) as [->|Hn].
  - rewrite H2. rewrite <- !app_assoc. apply Permutation_app_head.
    rewrite Permutation_app_comm. apply Permutation_app_tail.
    assert (E : map g (seq (S r) m) = map f (seq (S r) m)).
    { apply map_ext_in. intros q Hq. apply in_seq in Hq. apply H1. lia. }
    now rewrite E.
  - rewrite H1 by auto. rewrite <- app_assoc. apply Permutation_app_head. apply IH. lia.
Qed.

(** a message in flight: everybody is in its phase *)
Lemma net_phase s m q : Inv s -> In m (s_net s) -> q < n -> s_ph s q = m_phase m.
Proof.
  intros I Hm Hq. destruct (i_net s I m Hm) as (H1 & H2 & H3 & H4).
  pose proof (i_bar s I _ H1) as B. rewrite H3 in B. simpl in B.
  pose proof (i_ph s I q _ Hq H1) as P.
  pose proof (i_pack s I _ q H1 Hq) as K. rewrite H3 in K. specialize (K eq_refl).
  pose proof (i_bar s I q Hq) as B2.
  rewrite H4. assert (bar_of (s_st s q) <= 2) by (destruct (s_st s q); simpl; lia).
  pose proof (i_ph s I _ q H1 Hq).
  destruct (Nat.eq_dec (s_ph s q) (s_ph s (m_src m))); [auto|]. exfalso.
  assert (s_ph s q < s_ph s (m_src m)) by lia. lia.
Qed.

Lemma Inv_init : Inv (@pinit M).
Proof.
  constructor; simpl; try lia; try tauto.
  intros k d. unfold log_in, all_sent, sent_msgs, sent. simpl.
  replace (concat (map _ (seq 0 n))) with (@nil pmsg); [constructor|].
  symmetry. apply concat_nil_Forall. apply Forall_forall. intros l Hl. apply in_map_iff in Hl as (r & <- & _).
  rewrite andb_false_r. reflexivity.
Qed.

Ltac psplit q r := destruct (Nat.eqb_spec q r); subst.
Lemma Inv_step s s' : Inv s -> step s s' -> Inv s'.
Proof.
  intros I H. pose proof I as [Ib Ip Ik In_ Il Ia].
  destruct H as [s r Hr Hst Hph|s r Hr Hst Hall|s r Hr Hst|s r m l1 l2 Hr Hst Hnet Hdst|s r Hr Hst Hnone|s r Hr Hst Hall].
  - (* enter *) constructor; cbn [s_st s_ph s_bar s_net s_log]; unfold pset.
    + intros q Hq. psplit q r; [|auto]. rewrite Ib, Hst by auto. simpl. lia.
    + intros a q Ha Hq. specialize (Ip a q Ha Hq). psplit q r; lia.
    + intros a q Ha Hq. specialize (Ik a q Ha Hq). psplit a r; [discriminate|]. intros K; specialize (Ik K). psplit q r; lia.
    + intros m Hm. destruct (In_ m Hm) as (A & B & C & D). psplit (m_src m) r; [congruence|auto].
    + auto.
    + intros k d. specialize (Ia k d). erewrite all_sent_ext; [exact Ia|]. intros q Hq. unfold sent; simpl; unfold pset.
      psplit q r; auto. rewrite Hst. reflexivity.
  - (* leave *) constructor; cbn [s_st s_ph s_bar s_net s_log]; unfold pset.
    + intros q Hq. psplit q r; [|auto]. rewrite Ib, Hst by auto. reflexivity.
    + auto.
    + intros a q Ha Hq. psplit a r; [|auto]. intros _. pose proof (Ib r Hr) as B. rewrite Hst in B. simpl in B.
      specialize (Hall q Hq). lia.
    + intros m Hm. destruct (In_ m Hm) as (A & B & C & D). psplit (m_src m) r; [congruence|auto].
    + auto.
    + intros k d. specialize (Ia k d). erewrite all_sent_ext; [exact Ia|]. intros q Hq. unfold sent; simpl; unfold pset.
      psplit q r; auto. rewrite Hst. reflexivity.
  - (* send *) constructor; cbn [s_st s_ph s_bar s_net s_log]; unfold pset.
    + intros q Hq. psplit q r; [|auto]. rewrite Ib, Hst by auto. reflexivity.
    + auto.
    + intros a q Ha Hq. psplit a r; [|auto]. intros _. apply Ik; auto. now rewrite Hst.
    + intros m Hm. apply in_app_iff in Hm as [Hm|Hm].
      * destruct (In_ m Hm) as (A & B & C & D). psplit (m_src m) r; [congruence|auto].
      * apply outgoing_fields in Hm as (A & B & C). rewrite A, Nat.eqb_refl. auto.
    + auto.
    + intros k d. specialize (Ia k d). unfold log_in in *. simpl in *. rewrite filter_app.
      destruct (Nat.eq_dec (s_ph s r) k) as [E|E].
      * assert (P : Permutation (all_sent {| s_st := pset (s_st s) r PSendRecv; s_ph := s_ph s; s_bar := s_bar s;
                s_net := s_net s ++ outgoing out (s_ph s r) r; s_log := s_log s |} k) (all_sent s k ++ outgoing out k r)).
        { unfold all_sent. apply (concat_add _ _ _ r); [| |lia].
          - intros q Hq. unfold sent_msgs, sent; simpl; unfold pset. destruct (Nat.eqb_spec q r); [congruence|auto].
          - unfold sent_msgs, sent; simpl; unfold pset. rewrite Nat.eqb_refl, Hst, E, Nat.eqb_refl, Nat.ltb_irrefl. reflexivity. }
        assert (F : filter (to_in d k) (outgoing out k r) = filter (fun m => m_dst m =? d) (outgoing out k r)).
        { apply filter_ext_in. intros m Hm. apply outgoing_fields in Hm as (_ & A & _). unfold to_in. rewrite A, Nat.eqb_refl. now rewrite andb_true_r. }
        rewrite E, F.
        assert (P2 : Permutation (filter (fun m => m_dst m =? d) (all_sent s k ++ outgoing out k r))
           (filter (fun m => m_dst m =? d) (all_sent {| s_st := pset (s_st s) r PSendRecv; s_ph := s_ph s; s_bar := s_bar s;
                s_net := s_net s ++ outgoing out (s_ph s r) r; s_log := s_log s |} k))).
        { symmetry in P. revert P. generalize (all_sent s k ++ outgoing out k r).
          match goal with |- forall l, Permutation l ?x -> _ => generalize x end.
          clear. intros x l P. induction P; simpl; auto.
          - destruct (m_dst x =? d); auto.
          - destruct (m_dst x =? d), (m_dst y =? d); auto. apply perm_swap.
          - etransitivity; eauto. }
        unfold pset in *. rewrite E in *. rewrite <- P2. rewrite filter_app, <- Ia.
        rewrite <- !app_assoc. apply Permutation_app_head. apply Permutation_app_comm.
      * assert (F : filter (to_in d k) (outgoing out (s_ph s r) r) = []).
        { assert (G : forall l, (forall m, In m l -> m_phase m <> k) -> filter (to_in d k) l = []).
          { induction l as [|m l IH]; intros G; auto. simpl. unfold to_in at 1.
            destruct (Nat.eqb_spec (m_phase m) k) as [X|X]; [exfalso; apply (G m); simpl; auto|].
            rewrite andb_false_r. apply IH. intros; apply G; simpl; auto. }
          apply G. intros m Hm. apply outgoing_fields in Hm as (_ & A & _). congruence. }
        rewrite F, app_nil_r. erewrite all_sent_ext; [exact Ia|]. intros q Hq. unfold sent; simpl; unfold pset.
        psplit q r; auto. destruct (Nat.eqb_spec (s_ph s r) k); [congruence|]. reflexivity.
  - (* recv *)
    assert (Hm : In m (s_net s)) by (rewrite Hnet; apply in_or_app; simpl; auto).
    assert (Hphase : s_ph s r = m_phase m) by (eapply net_phase; eauto).
    constructor; cbn [s_st s_ph s_bar s_net s_log]; auto.
    + intros x Hx. apply In_. rewrite Hnet. apply in_app_iff in Hx. apply in_or_app. simpl. tauto.
    + intros d e He. unfold pset in He. psplit d r; [|auto].
      apply in_app_iff in He as [He|[<-|[]]]; [auto|]. simpl. auto.
    + intros k d. specialize (Ia k d). change (all_sent _ k) with (all_sent s k) at 1.
      rewrite <- Ia. rewrite Hnet. unfold log_in. simpl. unfold pset. rewrite !filter_app. simpl. rewrite <- Hdst.
      destruct (Nat.eqb_spec d (m_dst m)) as [->|Hne].
      * rewrite filter_app. simpl. unfold to_in at 4. rewrite Nat.eqb_refl. simpl. rewrite Hdst, Hphase.
        destruct (m_phase m =? k); simpl.
        -- rewrite map_app. simpl. rewrite <- !app_assoc. apply Permutation_app_head. simpl.
           rewrite app_assoc. symmetry. apply Permutation_cons_append.
        -- rewrite app_nil_r. apply Permutation_refl.
      * unfold to_in at 4. destruct (Nat.eqb_spec (m_dst m) d); [congruence|]. simpl. apply Permutation_refl.
  - (* sends done *) constructor; cbn [s_st s_ph s_bar s_net s_log]; unfold pset.
    + intros q Hq. psplit q r; [|auto]. rewrite Ib, Hst by auto. simpl. lia.
    + intros a q Ha Hq. specialize (Ip a q Ha Hq). psplit q r; lia.
    + intros a q Ha Hq. specialize (Ik a q Ha Hq). psplit a r; [intros _|intros K].
      * rewrite Hst in Ik. specialize (Ik eq_refl). psplit q r; lia.
      * specialize (Ik K). psplit q r; lia.
    + intros m Hm. destruct (In_ m Hm) as (A & B & C & D). psplit (m_src m) r; [|auto].
      exfalso. eapply Hnone; eauto.
    + auto.
    + intros k d. specialize (Ia k d). erewrite all_sent_ext; [exact Ia|]. intros q Hq. unfold sent; simpl; unfold pset.
      psplit q r; auto. rewrite Hst. reflexivity.
  - (* end *) constructor; cbn [s_st s_ph s_bar s_net s_log]; unfold pset.
    + intros q Hq. psplit q r; [|auto]. rewrite Ib, Hst by auto. simpl. lia.
    + intros a q Ha Hq. psplit a r; [|auto]. pose proof (Ib r Hr) as B. rewrite Hst in B. simpl in B.
      specialize (Hall q Hq). lia.
    + intros a q Ha Hq. psplit a r; [discriminate|auto].
    + intros m Hm. destruct (In_ m Hm) as (A & B & C & D). psplit (m_src m) r; [congruence|auto].
    + auto.
    + intros k d. specialize (Ia k d). erewrite all_sent_ext; [exact Ia|]. intros q Hq. unfold sent; simpl; unfold pset.
      psplit q r; auto. rewrite Hst. simpl. rewrite andb_false_r, orb_false_r, andb_true_r.
      destruct (Nat.ltb_spec k (S (s_ph s r))), (Nat.ltb_spec k (s_ph s r)), (Nat.eqb_spec (s_ph s r) k); simpl; auto; lia.
Qed.
Lemma Inv_reach i s : reach i s -> Inv s.
Proof. induction 1; [apply Inv_init|eapply Inv_step; eauto]. Qed.

Theorem received_in_phase i s d e : reach i s -> In e (s_log s d) -> m_phase (snd e) = fst e /\ m_dst (snd e) = d.
Proof. intros H He. destruct (i_log s (Inv_reach i s H) d e He). auto. Qed.

Theorem phase_delivered i s r k : reach i s -> r < n -> k < s_ph s r ->
  Permutation (log_in s r k) (filter (fun m => m_dst m =? r) (concat (map (outgoing out k) (seq 0 n)))).
Proof.
  intros H Hr Hk. pose proof (Inv_reach i s H) as I. pose proof (i_all s I k r) as P.
  assert (E1 : filter (to_in r k) (s_net s) = []).
  { assert (G : forall l, (forall m, In m l -> m_phase m <> k) -> filter (to_in r k) l = []).
    { induction l as [|m l IH]; intros G; auto. simpl. unfold to_in at 1.
      destruct (Nat.eqb_spec (m_phase m) k) as [X|X]; [exfalso; apply (G m); simpl; auto|].
      rewrite andb_false_r. apply IH. intros; apply G; simpl; auto. }
    apply G. intros m Hm X. pose proof (net_phase s m r I Hm Hr). lia. }
  rewrite E1 in P. simpl in P. rewrite P. unfold all_sent.
  assert (E2 : map (fun q => sent_msgs s q k) (seq 0 n) = map (outgoing out k) (seq 0 n)).
  { apply map_ext_in. intros q Hq. apply in_seq in Hq. unfold sent_msgs.
    replace (sent s q k) with true; auto. symmetry. unfold sent.
    pose proof (i_ph s I r q Hr) as Pq. pose proof (i_bar s I q) as B.
    destruct (Nat.ltb_spec k (s_ph s q)); auto. simpl.
    destruct (s_st s q); simpl in B; try (exfalso; lia).
    destruct (Nat.eqb_spec (s_ph s q) k); auto. exfalso. lia. }
  now rewrite E2.
Qed.

(** nothing else is ever logged for a later phase *)
Theorem log_bounded i s r k : reach i s -> r < n -> s_ph s r < k -> log_in s r k = [].
Proof.
  intros H Hr Hk. pose proof (Inv_reach i s H) as I. destruct (log_in s r k) as [|m l] eqn:E; auto. exfalso.
  pose proof (i_all s I k r) as P. rewrite E in P.
  assert (X : In m (filter (fun m => m_dst m =? r) (all_sent s k))).
  { eapply Permutation_in; [exact P|]. apply in_or_app. simpl; auto. }
  apply filter_In in X as (X & _). unfold all_sent in X. apply in_concat in X as (l0 & X1 & X2).
  apply in_map_iff in X1 as (q & <- & Hq). apply in_seq in Hq. unfold sent_msgs in X2.
  destruct (sent s q k) eqn:S; [|destruct X2]. unfold sent in S.
  pose proof (i_bar s I r Hr) as B. pose proof (i_ph s I q r) as Pq. pose proof (i_pack s I q r) as Kq.
  assert (bar_of (s_st s r) <= 2) by (destruct (s_st s r); simpl; lia).
  apply orb_true_iff in S as [S|S]; [apply Nat.ltb_lt in S; lia|].
  apply andb_true_iff in S as (S1 & S2). apply Nat.eqb_eq in S1.
  assert (past_barrier (s_st s q) = true) by (destruct (s_st s q); simpl in *; congruence). 
  specialize (Kq ltac:(lia) Hr H1). lia.
Qed.

(** ** Deadlock freedom *)
Definition done (s : psys) : Prop := forall r, r < n -> s_st s r = PIdle /\ s_ph s r = phases.

Lemma ph_le i s : reach i s -> forall r, r < n -> s_ph s r <= phases /\ (s_st s r <> PIdle -> s_ph s r < phases).
Proof.
  induction 1 as [|i s s' H IH St]; intros q Hq; [simpl; split; [lia|congruence]|].
  destruct St as [s r Hr Hst Hph|s r Hr Hst Hall|s r Hr Hst|s r m l1 l2 Hr Hst Hnet Hdst|s r Hr Hst Hnone|s r Hr Hst Hall];
    simpl; unfold pset; specialize (IH q Hq); destruct (Nat.eqb_spec q r); subst; try (rewrite Hst in IH); auto;
    destruct IH as (A & B); split; try lia; intros; try (apply B; congruence); try congruence; auto.
Qed.
Lemma min_rank (f : nat -> nat) : 0 < n -> exists q, q < n /\ forall r, r < n -> f q <= f r.
Proof.
  clear Hout. induction n as [|m IH]; [lia|]. intros _. destruct m as [|m].
  - exists 0. split; [lia|]. intros r Hr. replace r with 0 by lia. auto.
  - destruct IH as (q & Hq & H); [lia|]. destruct (le_lt_dec (f q) (f (S m))).
    + exists q. split; [lia|]. intros r Hr. destruct (Nat.eq_dec r (S m)); [subst; auto|]. apply H. lia.
    + exists (S m). split; [lia|]. intros r Hr. destruct (Nat.eq_dec r (S m)); [subst; auto|]. specialize (H r). lia.
Qed.

Theorem progress i s : reach i s -> ~ done s -> exists s', step s s'.
Proof.
  intros H Hd. pose proof (Inv_reach i s H) as I.
  destruct (s_net s) as [|m net] eqn:En.
  2:{ (* a message in flight can be received *)
      assert (Hm : In m (s_net s)) by (rewrite En; simpl; auto).
      pose proof (i_net s I m Hm) as (Hs & Hdst & Hst & Hmp).
      set (d := m_dst m) in *.
      pose proof (net_phase s m d I Hm Hdst) as Hp. pose proof (i_bar s I d Hdst) as B.
      pose proof (i_bar s I _ Hs) as Bs. rewrite Hst in Bs; simpl in Bs.
      pose proof (i_pack s I _ d Hs Hdst) as K. rewrite Hst in K. specialize (K eq_refl).
      destruct (s_st s d) eqn:Ed; simpl in B.
      - lia.
      - (* PStart: everyone has entered *)
        eexists. apply (ps_leave_start n phases out s d); auto.
        intros q Hq. pose proof (i_pack s I _ q Hs Hq) as Kq. rewrite Hst in Kq. specialize (Kq eq_refl). lia.
      - eexists. apply (ps_send n phases out s d); auto.
      - eexists. apply (ps_recv n phases out s d m [] net); auto.
      - eexists. apply (ps_recv n phases out s d m [] net); auto. }
  assert (Hn : 0 < n).
  { destruct (Nat.eq_dec n 0) as [E0|E0]; [|lia]. exfalso; apply Hd; intros r Hr; lia. }
  destruct (min_rank (fun q => 2 * s_bar s q + match s_st s q with PIdle => 1 | _ => 0 end) Hn) as (q & Hq & Hmin0).
  assert (Hmin : forall r, r < n -> s_bar s q <= s_bar s r).
  { intros r Hr. specialize (Hmin0 r Hr). destruct (s_st s q), (s_st s r); lia. }
  destruct (s_st s q) eqn:Eq.
  - destruct (Nat.eq_dec (s_ph s q) phases) as [Ep|Ep].
    + exfalso. apply Hd. intros r Hr. pose proof (ph_le i s H r Hr) as (A & B).
      pose proof (i_bar s I q Hq) as Bq. pose proof (i_bar s I r Hr) as Br. specialize (Hmin0 r Hr).
      rewrite Eq in Bq. simpl in Bq.
      destruct (s_st s r) eqn:Er; simpl in Br; try (specialize (B ltac:(congruence)); lia).
      split; auto. lia.
    + eexists. apply (ps_enter_start n phases out s q); auto. pose proof (ph_le i s H q Hq). lia.
  - eexists. apply (ps_leave_start n phases out s q); auto.
  - eexists. apply (ps_send n phases out s q); auto.
  - eexists. apply (ps_sends_done n phases out s q); auto. rewrite En. simpl; tauto.
  - eexists. apply (ps_end n phases out s q); auto.
Qed.

(** ** Bounded number of moves *)
Definition code (st : pstate) : nat := match st with PIdle => 0 | PStart => 1 | PPack => 2 | PSendRecv => 3 | PRecv => 4 end.
Definition sum_n (f : nat -> nat) : nat := nsum (map f (seq 0 n)).
Lemma sum_upd f g r x : r < n -> (forall q, q <> r -> g q = f q) -> g r = f r + x -> sum_n g = sum_n f + x.
Proof.
  intros Hr H1 H2. unfold sum_n. assert (G : forall a m, a <= r < a + m -> nsum (map g (seq a m)) = nsum (map f (seq a m)) + x).
  { intros a m. revert a. induction m as [|m IH]; intros a H; [lia|]. simpl.
    destruct (Nat.eq_dec a r) as [->|Hn].
    - rewrite H2. assert (E : map g (seq (S r) m) = map f (seq (S r) m)).
      { apply map_ext_in. intros q Hq. apply in_seq in Hq. apply H1. lia. } rewrite E. lia.
    - rewrite (H1 a) by auto. specialize (IH (S a)). unfold nsum in *. rewrite IH by lia. lia. }
  apply G. lia.
Qed.
Definition sent_count (s : psys) (r : nat) : nat := nsum (map (fun k => if sent s r k then length (out k r) else 0) (seq 0 phases)).
Definition pos (s : psys) (r : nat) : nat := 5 * s_ph s r + code (s_st s r).
Lemma sum_ext f g : (forall r, r < n -> f r = g r) -> sum_n f = sum_n g.
Proof. intros H. unfold sum_n. f_equal. apply map_ext_in. intros r Hr. apply in_seq in Hr. apply H. lia. Qed.
Lemma sent_count_ext s s' r : (forall k, sent s' r k = sent s r k) -> sent_count s' r = sent_count s r.
Proof. intros H. unfold sent_count. f_equal. apply map_ext. intros k. now rewrite H. Qed.

Lemma counting i s : reach i s ->
  i = sum_n (pos s) + sum_n (fun r => length (s_log s r)) /\
  sum_n (fun r => length (s_log s r)) + length (s_net s) = sum_n (sent_count s).
Proof.
  induction 1 as [|i s s' H IH St].
  - assert (Z0 : forall f, (forall r, r < n -> f r = 0) -> sum_n f = 0).
    { intros f Hf. rewrite (sum_ext f (fun _ => 0) Hf). unfold sum_n. clear. induction (seq 0 n); simpl; auto. }
    rewrite !Z0; simpl; auto. intros r Hr. unfold sent_count, sent. simpl. clear. induction (seq 0 phases); simpl; auto.
    rewrite andb_false_r. auto.
  - destruct IH as (E1 & E2).
    destruct St as [s r Hr Hst Hph|s r Hr Hst Hall|s r Hr Hst|s r m l1 l2 Hr Hst Hnet Hdst|s r Hr Hst Hnone|s r Hr Hst Hall].
    + split; simpl.
      * rewrite (sum_upd (pos s) _ r 1); try lia; auto; unfold pos; simpl; unfold pset.
        -- intros q Hq. destruct (Nat.eqb_spec q r); [congruence|auto].
        -- rewrite Nat.eqb_refl, Hst. simpl. lia.
      * rewrite E2. apply sum_ext. intros q Hq. symmetry. apply sent_count_ext. intros k. unfold sent; simpl; unfold pset.
        psplit q r; auto. now rewrite Hst.
    + split; simpl.
      * rewrite (sum_upd (pos s) _ r 1); try lia; auto; unfold pos; simpl; unfold pset.
        -- intros q Hq. destruct (Nat.eqb_spec q r); [congruence|auto].
        -- rewrite Nat.eqb_refl, Hst. simpl. lia.
      * rewrite E2. apply sum_ext. intros q Hq. symmetry. apply sent_count_ext. intros k. unfold sent; simpl; unfold pset.
        psplit q r; auto. now rewrite Hst.
    + split; simpl.
      * rewrite (sum_upd (pos s) _ r 1); try lia; auto; unfold pos; simpl; unfold pset.
        -- intros q Hq. destruct (Nat.eqb_spec q r); [congruence|auto].
        -- rewrite Nat.eqb_refl, Hst. simpl. lia.
      * rewrite app_length, Nat.add_assoc, E2.
        assert (Hlt : s_ph s r < phases) by (apply (proj2 (ph_le _ s H r Hr)); congruence).
        symmetry. apply (sum_upd (sent_count s) _ r); auto.
        -- intros q Hq. apply sent_count_ext. intros k. unfold sent; simpl; unfold pset. destruct (Nat.eqb_spec q r); [congruence|auto].
        -- unfold sent_count, outgoing. rewrite map_length.
           assert (G : forall a m, a <= s_ph s r < a + m -> forall g f x,
             (forall k, k <> s_ph s r -> g k = f k) -> g (s_ph s r) = f (s_ph s r) + x ->
              nsum (map g (seq a m)) = nsum (map f (seq a m)) + x).
           { intros a m. revert a. induction m as [|m IHm]; intros a Ha g f x G1 G2; [lia|]. simpl.
             destruct (Nat.eq_dec a (s_ph s r)) as [->|Hn].
             - rewrite G2. assert (E : map g (seq (S (s_ph s r)) m) = map f (seq (S (s_ph s r)) m)).
               { apply map_ext_in. intros q Hq. apply in_seq in Hq. apply G1. lia. } rewrite E. lia.
             - rewrite (G1 a) by auto. specialize (IHm (S a) ltac:(lia) g f x G1 G2). unfold nsum in *. rewrite IHm by lia. lia. }
           apply G; [lia| |].
           ++ intros k Hk. unfold sent; simpl; unfold pset. rewrite Nat.eqb_refl, Hst. simpl.
              destruct (Nat.eqb_spec (s_ph s r) k); [congruence|]. reflexivity.
           ++ unfold sent; simpl; unfold pset. rewrite !Nat.eqb_refl, Hst, Nat.ltb_irrefl. reflexivity.
    + simpl. assert (EL : sum_n (fun q => length (pset (s_log s) r (s_log s r ++ [(s_ph s r, m)]) q)) = sum_n (fun q => length (s_log s q)) + 1).
      { apply (sum_upd _ _ r); auto; unfold pset.
        - intros q Hq. destruct (Nat.eqb_spec q r); [congruence|auto].
        - rewrite Nat.eqb_refl, app_length. reflexivity. }
      rewrite EL. rewrite Hnet, app_length in E2. simpl in E2. rewrite app_length. split.
      * change (pos _) with (pos s). lia.
      * change (sent_count _) with (sent_count s). lia.
    + split; simpl.
      * rewrite (sum_upd (pos s) _ r 1); try lia; auto; unfold pos; simpl; unfold pset.
        -- intros q Hq. destruct (Nat.eqb_spec q r); [congruence|auto].
        -- rewrite Nat.eqb_refl, Hst. simpl. lia.
      * rewrite E2. apply sum_ext. intros q Hq. symmetry. apply sent_count_ext. intros k. unfold sent; simpl; unfold pset.
        psplit q r; auto. now rewrite Hst.
    + split; simpl.
      * rewrite (sum_upd (pos s) _ r 1); try lia; auto; unfold pos; simpl; unfold pset.
        -- intros q Hq. destruct (Nat.eqb_spec q r); [congruence|auto].
        -- rewrite Nat.eqb_refl, Hst. simpl. lia.
      * rewrite E2. apply sum_ext. intros q Hq. symmetry. apply sent_count_ext. intros k. unfold sent; simpl; unfold pset.
        psplit q r; auto. rewrite Hst. simpl. rewrite andb_false_r, orb_false_r, andb_true_r.
        destruct (Nat.ltb_spec k (S (s_ph s r))), (Nat.ltb_spec k (s_ph s r)), (Nat.eqb_spec (s_ph s r) k); simpl; auto; lia.
Qed.

Theorem moves_bounded i s : reach i s ->
  i <= 5 * n * phases + nsum (map (fun r => nsum (map (fun k => length (out k r)) (seq 0 phases))) (seq 0 n)).
Proof.
  intros H. destruct (counting i s H) as (E1 & E2).
  assert (A : sum_n (pos s) <= n * (5 * phases)).
  { unfold sum_n. assert (G : forall l, (forall r, In r l -> r < n) -> nsum (map (pos s) l) <= length l * (5 * phases)).
    { induction l as [|r l IH]; intros Hl; simpl; [lia|]. specialize (IH ltac:(intros; apply Hl; simpl; auto)).
      pose proof (ph_le i s H r (Hl r (or_introl eq_refl))) as (P1 & P2).
      assert (pos s r <= 5 * phases).
      { unfold pos. destruct (s_st s r); simpl; try (specialize (P2 ltac:(congruence))); lia. }
      unfold nsum in *. lia. }
    rewrite <- (seq_length n 0) at 2. apply G. intros r Hr. apply in_seq in Hr. lia. }
  assert (B : sum_n (sent_count s) <= nsum (map (fun r => nsum (map (fun k => length (out k r)) (seq 0 phases))) (seq 0 n))).
  { unfold sum_n. generalize (seq 0 n) as l. induction l as [|r l IH]; simpl; [lia|].
    assert (sent_count s r <= nsum (map (fun k => length (out k r)) (seq 0 phases))).
    { unfold sent_count. generalize (seq 0 phases) as l'. induction l' as [|k l' IH']; simpl; [lia|].
      destruct (sent s r k); unfold nsum in *; lia. }
    unfold nsum in *. lia. }
  lia.
Qed.

Theorem finished_clean i s : reach i s -> done s -> s_net s = [].
Proof.
  intros H Hd. destruct (s_net s) as [|m l] eqn:E; auto. exfalso.
  destruct (i_net s (Inv_reach i s H) m) as (A & _ & B & _); [rewrite E; simpl; auto|].
  destruct (Hd _ A). congruence.
Qed.
End Proof.
