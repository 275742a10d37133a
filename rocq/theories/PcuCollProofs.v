(** The reduce/bcast/scan patterns of pcu_coll.c are level-structured and compute the folds. *)
From Verif Require Import Base PcuCollModel PcuCollExec.

(* ---------------- powers of two and bits ---------------- *)
Lemma pow2_pos j : 0 < 2 ^ j.
Proof. induction j; simpl; lia. Qed.
Lemma pow2_S j : 2 ^ S j = 2 ^ j + 2 ^ j.
Proof. simpl; lia. Qed.
Lemma shl_pow2 j : Nat.shiftl (2 ^ j) 1 = 2 ^ S j.
Proof. rewrite Nat.shiftl_mul_pow2. simpl. lia. Qed.
Lemma shl1_pow2 j : Nat.shiftl 1 j = 2 ^ j.
Proof. rewrite Nat.shiftl_mul_pow2. lia. Qed.
Lemma shr_pow2_S j : Nat.shiftr (2 ^ S j) 1 = 2 ^ j.
Proof. rewrite Nat.shiftr_div_pow2. rewrite pow2_S. change (2 ^ 1) with 2.
  replace (2 ^ j + 2 ^ j) with (2 ^ j * 2) by lia. now rewrite Nat.div_mul. Qed.
Lemma land_pow2 r j : negb (Nat.land (2 ^ j) r =? 0) = Nat.testbit r j.
Proof.
  assert (H : Nat.land (2 ^ j) r = if Nat.testbit r j then 2 ^ j else 0).
  { apply Nat.bits_inj. intros i. rewrite Nat.land_spec, Nat.pow2_bits_eqb.
    destruct (Nat.eqb_spec j i).
    - subst. destruct (Nat.testbit r i) eqn:E; simpl; [now rewrite Nat.pow2_bits_true|now rewrite Nat.bits_0].
    - simpl. destruct (Nat.testbit r j); [now rewrite Nat.pow2_bits_false|now rewrite Nat.bits_0]. }
  rewrite H. pose proof (pow2_pos j). destruct (Nat.testbit r j); [|reflexivity].
  destruct (Nat.eqb_spec (2 ^ j) 0); simpl; auto; lia.
Qed.
Lemma bit_dec r j : Nat.testbit r j = Nat.odd (r / 2 ^ j).
Proof. apply Nat.testbit_odd with (n := j) || (rewrite Nat.testbit_odd, Nat.shiftr_div_pow2; reflexivity). Qed.

Lemma mod_split r j : r mod 2 ^ S j = r mod 2 ^ j + (if Nat.testbit r j then 2 ^ j else 0).
Proof.
  rewrite bit_dec. pose proof (pow2_pos j) as Hp.
  pose proof (Nat.div_mod r (2 ^ j) ltac:(lia)) as H1.
  pose proof (Nat.mod_upper_bound r (2 ^ j) ltac:(lia)) as H2.
  set (q := r / 2 ^ j) in *. set (t := r mod 2 ^ j) in *.
  destruct (Nat.odd q) eqn:E.
  - apply Nat.odd_spec in E as [c Hc]. symmetry. apply Nat.mod_unique with c; rewrite ?pow2_S; nia.
  - assert (Nat.even q = true) by (rewrite <- Nat.negb_odd, E; reflexivity).
    apply Nat.even_spec in H as [c Hc]. symmetry. apply Nat.mod_unique with c; rewrite ?pow2_S; nia.
Qed.
Lemma mod_S_0 r j : r mod 2 ^ S j = 0 <-> r mod 2 ^ j = 0 /\ Nat.testbit r j = false.
Proof. rewrite mod_split. pose proof (pow2_pos j). destruct (Nat.testbit r j); intuition; try discriminate; lia. Qed.
Lemma mod_add_same r j : (r + 2 ^ j) mod 2 ^ j = r mod 2 ^ j.
Proof. pose proof (pow2_pos j). replace (r + 2 ^ j) with (r + 1 * 2 ^ j) by lia. apply Nat.mod_add. lia. Qed.
Lemma mod_sub_same r j : 2 ^ j <= r -> (r - 2 ^ j) mod 2 ^ j = r mod 2 ^ j.
Proof. intros H. rewrite <- (mod_add_same (r - 2 ^ j)). f_equal. lia. Qed.
Lemma testbit_le r j : Nat.testbit r j = true -> 2 ^ j <= r.
Proof. intros H. destruct (le_gt_dec (2 ^ j) r); auto.
  rewrite bit_dec, Nat.div_small in H by auto. discriminate. Qed.
Lemma testbit_add r j : Nat.testbit (r + 2 ^ j) j = negb (Nat.testbit r j).
Proof. rewrite !bit_dec. pose proof (pow2_pos j). replace (r + 2 ^ j) with (r + 1 * 2 ^ j) by lia.
  rewrite Nat.div_add by lia. rewrite Nat.add_1_r, Nat.odd_succ. now rewrite <- Nat.negb_odd. Qed.
Lemma testbit_sub r j : 2 ^ j <= r -> Nat.testbit (r - 2 ^ j) j = negb (Nat.testbit r j).
Proof. intros H. replace r with ((r - 2 ^ j) + 2 ^ j) at 2 by lia. rewrite testbit_add. now rewrite negb_involutive. Qed.
Lemma lxor_clear r j : Nat.testbit r j = false -> Nat.lxor r (2 ^ j) = r + 2 ^ j.
Proof. intros H. symmetry. apply Nat.add_nocarry_lxor. rewrite Nat.land_comm.
  pose proof (land_pow2 r j) as E. rewrite H in E. destruct (Nat.eqb_spec (Nat.land (2 ^ j) r) 0); auto; discriminate. Qed.
Lemma lxor_set r j : Nat.testbit r j = true -> Nat.lxor r (2 ^ j) = r - 2 ^ j.
Proof.
  intros H. set (t := Nat.lxor r (2 ^ j)).
  assert (Ht : Nat.testbit t j = false).
  { unfold t. rewrite Nat.lxor_spec, H, Nat.pow2_bits_true. reflexivity. }
  assert (Hr : Nat.lxor t (2 ^ j) = r).
  { unfold t. now rewrite Nat.lxor_assoc, Nat.lxor_nilpotent, Nat.lxor_0_r. }
  rewrite lxor_clear in Hr by auto. lia.
Qed.
Lemma mod_mono r j k : j <= k -> r mod 2 ^ k = 0 -> r mod 2 ^ j = 0.
Proof. induction 1; auto. intros H1. apply mod_S_0 in H1 as [H1 _]. auto. Qed.
Lemma mod_le r j : r mod 2 ^ j = 0 -> 0 < r -> 2 ^ j <= r.
Proof. intros H H0. destruct (le_gt_dec (2 ^ j) r); auto. rewrite Nat.mod_small in H by auto. lia. Qed.

(* ---------------- logarithms ---------------- *)
Lemma floor_loop : forall fuel n r, n <= fuel -> 0 < n -> floor_log2_loop fuel n r = r + Nat.log2 n.
Proof.
  induction fuel as [|f IH]; intros n r Hf Hn; [lia|]. simpl.
  assert (Hs : Nat.div2 n = n / 2) by (rewrite Nat.div2_div; auto).
  rewrite Hs. destruct (Nat.eqb_spec (n / 2) 0) as [e|e].
  - apply Nat.div_small_iff in e; [|lia]. replace n with 1 by lia. change (Nat.log2 1) with 0. lia.
  - assert (n / 2 < n) by (apply Nat.div_lt; lia). rewrite IH by lia.
    pose proof (Nat.div_mod n 2 ltac:(lia)). pose proof (Nat.mod_upper_bound n 2 ltac:(lia)).
    assert (Nat.log2 n = S (Nat.log2 (n / 2))); [|lia].
    destruct (n mod 2) as [|[|]] eqn:Em; try lia.
    + replace n with (2 * (n / 2)) at 1 by lia. apply Nat.log2_double. lia.
    + replace n with (2 * (n / 2) + 1) at 1 by lia. apply Nat.log2_succ_double. lia.
Qed.
Lemma floor_spec n : 0 < n -> 2 ^ floor_log2 n <= n /\ n < 2 ^ S (floor_log2 n).
Proof. intros H. unfold floor_log2. rewrite floor_loop by lia. simpl (0 + _). apply Nat.log2_spec. auto. Qed.
Lemma ceil_spec n : 0 < n -> n <= 2 ^ ceil_log2 n /\ forall j, j < ceil_log2 n -> 2 ^ j < n.
Proof.
  intros H. pose proof (floor_spec n H) as [H1 H2]. unfold ceil_log2. rewrite shl1_pow2.
  destruct (Nat.ltb_spec (2 ^ floor_log2 n) n).
  - split; [lia|]. intros j Hj. apply Nat.le_lt_trans with (2 ^ floor_log2 n); auto.
    apply Nat.pow_le_mono_r; lia.
  - split; [lia|]. intros j Hj. apply Nat.lt_le_trans with (2 ^ floor_log2 n); auto.
    apply Nat.pow_lt_mono_r; lia.
Qed.
Lemma pow_gt j : j < 2 ^ j.
Proof. apply Nat.pow_gt_lin_r. lia. Qed.
Lemma ceil_le n : 0 < n -> ceil_log2 n <= n.
Proof. intros H. pose proof (ceil_spec n H) as [_ H2]. destruct (ceil_log2 n) as [|k]; [lia|].
  specialize (H2 k ltac:(lia)). pose proof (pow_gt k). lia. Qed.
Lemma floor_le n : 0 < n -> floor_log2 n < n.
Proof. intros H. pose proof (floor_spec n H) as [H2 _]. pose proof (pow_gt (floor_log2 n)). lia. Qed.

(* ---------------- reduce and bcast as levels ---------------- *)
Definition act_red (n r j : nat) : cact :=
  if r mod 2 ^ j =? 0 then
    if Nat.testbit r j then Send (r - 2 ^ j)
    else if r + 2 ^ j <? n then Recv (r + 2 ^ j) Merge else Idle
  else Idle.
Definition act_bc (n r j : nat) : cact :=
  if r mod 2 ^ j =? 0 then
    if Nat.testbit r j then Recv (r - 2 ^ j) Assign
    else if r + 2 ^ j <? n then Send (r + 2 ^ j) else Idle
  else Idle.

Lemma reduce_act_level n r j : r < n -> r mod 2 ^ j = 0 -> reduce_act n r (2 ^ j) = act_red n r j.
Proof.
  intros Hr Hm. unfold reduce_act, act_red. rewrite Hm; simpl. rewrite land_pow2.
  destruct (Nat.testbit r j) eqn:E.
  - rewrite lxor_set by auto. destruct (Nat.leb_spec n (r - 2 ^ j)); auto; lia.
  - rewrite lxor_clear by auto. destruct (Nat.leb_spec n (r + 2 ^ j)); destruct (Nat.ltb_spec (r + 2 ^ j) n); auto; lia.
Qed.
Lemma bcast_act_level n r j : r < n -> r mod 2 ^ j = 0 -> bcast_act n r (2 ^ j) = act_bc n r j.
Proof.
  intros Hr Hm. unfold bcast_act, act_bc. rewrite Hm; simpl. rewrite land_pow2.
  destruct (Nat.testbit r j) eqn:E.
  - rewrite lxor_set by auto. destruct (Nat.leb_spec n (r - 2 ^ j)); auto; lia.
  - rewrite lxor_clear by auto. destruct (Nat.leb_spec n (r + 2 ^ j)); destruct (Nat.ltb_spec (r + 2 ^ j) n); auto; lia.
Qed.

Lemma strip_idle (f : nat -> cact) l : (forall j, In j l -> f j = Idle) -> strip (map f l) = [].
Proof. induction l as [|a l IH]; intros H; simpl; auto. rewrite H by (left; auto). simpl. apply IH. intros; apply H; right; auto. Qed.
Lemma strip_app l1 l2 : strip (l1 ++ l2) = strip l1 ++ strip l2.
Proof. apply filter_app. Qed.

Lemma reduce_end_mod n r j : r mod 2 ^ j = 0 -> 0 < r -> reduce_end n r (2 ^ j) = false.
Proof.
  intros Hm Hr. unfold reduce_end. destruct (Nat.eqb_spec r 0); [lia|].
  destruct j as [|j]; [reflexivity|]. rewrite shr_pow2_S, land_pow2. now apply mod_S_0 in Hm.
Qed.

Lemma reduce_loop n r : r < n -> forall d fuel j, d = ceil_log2 n - j -> d < fuel -> j <= ceil_log2 n -> r mod 2 ^ j = 0 ->
  exists l, coll_loop fuel reduce n r (2 ^ j) = Some l /\
            strip l = strip (map (act_red n r) (seq j d)).
Proof.
  intros Hrn. destruct (ceil_spec n ltac:(lia)) as [Hc1 Hc2].
  induction d as [|d IH]; intros fuel j Hd Hf Hj Hm.
  - destruct (Nat.eq_dec r 0) as [e|e].
    + subst r. exists []. split; auto. assert (j = ceil_log2 n) by lia. subst j.
      assert (He : reduce_end n 0 (2 ^ ceil_log2 n) = true)
        by (unfold reduce_end; simpl; apply Nat.leb_le; auto).
      destruct fuel; simpl; rewrite He; reflexivity.
    + exfalso. pose proof (mod_le r j Hm ltac:(lia)). assert (j = ceil_log2 n) by lia. subst j. lia.
  - assert (He : reduce_end n r (2 ^ j) = false).
    { destruct (Nat.eq_dec r 0); [|apply reduce_end_mod; auto; lia].
      subst; unfold reduce_end; simpl. apply Nat.leb_gt. apply Hc2. lia. }
    destruct fuel as [|fuel]; [lia|]. cbn [coll_loop]. change (p_end reduce) with reduce_end. rewrite He.
    change (p_act reduce) with reduce_act. change (p_shift reduce (2 ^ j)) with (Nat.shiftl (2 ^ j) 1).
    rewrite shl_pow2, reduce_act_level by auto.
    destruct (Nat.testbit r j) eqn:Eb.
    + assert (He' : reduce_end n r (2 ^ S j) = true).
      { unfold reduce_end. pose proof (testbit_le _ _ Eb). pose proof (pow2_pos j).
        destruct (Nat.eqb_spec r 0); [lia|]. rewrite shr_pow2_S, land_pow2. auto. }
      exists [act_red n r j]. split.
      * destruct fuel; cbn [coll_loop]; change (p_end reduce) with reduce_end; rewrite He'; reflexivity.
      * simpl. rewrite (strip_idle _ (seq (S j) d)).
        { destruct (nonidle (act_red n r j)); reflexivity. }
        intros k Hk. apply in_seq in Hk. unfold act_red.
        destruct (Nat.eqb_spec (r mod 2 ^ k) 0) as [e|e]; auto. exfalso.
        apply (mod_mono r (S j) k) in e; [|lia]. apply mod_S_0 in e as [_ e]. congruence.
    + destruct (IH fuel (S j)) as (l & Hl & Hs); try lia.
      { apply mod_S_0; auto. }
      rewrite Hl. simpl. eexists; split; [reflexivity|]. simpl. now rewrite Hs.
Qed.

Lemma reduce_prog n r : r < n -> exists l, coll reduce n r = Some l /\
  strip l = strip (map (act_red n r) (seq 0 (ceil_log2 n))).
Proof.
  intros H. unfold coll. change (p_begin reduce n r) with (2 ^ 0).
  pose proof (ceil_le n ltac:(lia)).
  apply reduce_loop; auto; try lia.
Qed.

Lemma bcast_loop n r : forall j fuel, S j <= fuel ->
  coll_loop fuel bcast n r (2 ^ j) = Some (map (fun i => bcast_act n r (2 ^ i)) (rev (seq 0 (S j)))).
Proof.
  induction j as [|j IH]; intros fuel Hf; (destruct fuel as [|fuel]; [lia|]).
  - cbn [coll_loop]. change (p_end bcast n r (2 ^ 0)) with false. cbn [coll_loop].
    change (p_shift bcast (2 ^ 0)) with 0. destruct fuel; reflexivity.
  - cbn [coll_loop]. change (p_end bcast n r (2 ^ S j)) with (2 ^ S j =? 0).
    pose proof (pow2_pos (S j)). destruct (Nat.eqb_spec (2 ^ S j) 0); [lia|].
    change (p_shift bcast (2 ^ S j)) with (Nat.shiftr (2 ^ S j) 1). rewrite shr_pow2_S, IH by lia.
    rewrite (seq_snoc 0 (S j)), rev_app_distr. reflexivity.
Qed.

Lemma low_bit r : 0 < r -> forall fuel j, r < j + fuel + 1 -> r mod 2 ^ j = 0 ->
  exists j0, low_bit_loop fuel (2 ^ j) r = Some (2 ^ j0) /\ r mod 2 ^ j0 = 0 /\ Nat.testbit r j0 = true.
Proof.
  intros Hr. induction fuel as [|f IH]; intros j Hj Hm; cbn [low_bit_loop]; rewrite land_pow2; destruct (Nat.testbit r j) eqn:E; eauto.
  - exfalso. assert (r mod 2 ^ S j = 0) by (apply mod_S_0; auto).
    apply mod_le in H; auto. pose proof (pow_gt (S j)). lia.
  - rewrite shl_pow2. apply IH; [lia|]. apply mod_S_0; auto.
Qed.

Lemma bcast_prog n r : r < n -> exists l, coll bcast n r = Some l /\
  strip l = strip (map (act_bc n r) (rev (seq 0 (ceil_log2 n)))).
Proof.
  intros Hr. destruct (ceil_spec n ltac:(lia)) as [Hc1 Hc2]. pose proof (ceil_le n ltac:(lia)).
  unfold coll. change (p_begin bcast n r) with (bcast_begin n r). unfold bcast_begin.
  destruct (Nat.eqb_spec r 0) as [e|e].
  - subst. rewrite shl1_pow2, bcast_loop by lia. eexists; split; [reflexivity|].
    rewrite seq_snoc, rev_app_distr. simpl.
    assert (E : bcast_act n 0 (2 ^ ceil_log2 n) = Idle).
    { unfold bcast_act. rewrite Nat.lxor_0_l. destruct (Nat.leb_spec n (2 ^ ceil_log2 n)); auto; lia. }
    rewrite E. simpl. f_equal. apply map_ext. intros j. apply bcast_act_level; auto.
    pose proof (pow2_pos j). apply Nat.mod_0_l. lia.
  - destruct (low_bit r ltac:(lia) r 0) as (j0 & H1 & H2 & H3); [lia|apply Nat.mod_1_r|].
    change (low_bit_loop r 1 r) with (low_bit_loop r (2 ^ 0) r). rewrite H1.
    pose proof (testbit_le _ _ H3). assert (Hj0 : j0 < ceil_log2 n).
    { apply (Nat.pow_lt_mono_r_iff 2); lia. }
    rewrite bcast_loop by lia. eexists; split; [reflexivity|].
    replace (ceil_log2 n) with (S j0 + (ceil_log2 n - S j0)) by lia.
    rewrite (seq_app (S j0)), rev_app_distr, map_app, strip_app.
    rewrite (strip_idle _ (rev (seq (0 + S j0) _))).
    2:{ intros k Hk. rewrite <- in_rev in Hk; apply in_seq in Hk. unfold act_bc.
        destruct (Nat.eqb_spec (r mod 2 ^ k) 0) as [e'|e']; auto. exfalso.
        apply (mod_mono r (S j0) k) in e'; [|lia]. apply mod_S_0 in e' as [_ e']. congruence. }
    cbn [app]. f_equal. apply map_ext_in. intros k Hk. rewrite <- in_rev in Hk; apply in_seq in Hk.
    apply bcast_act_level; auto. apply (mod_mono r k j0); auto. lia.
Qed.

Definition act_all (n r k : nat) : cact :=
  let K := ceil_log2 n in if k <? K then act_red n r k else act_bc n r (K + K - 1 - k).

Lemma rev_seq_levels (f : nat -> cact) K : map f (rev (seq 0 K)) = map (fun k => f (K + K - 1 - k)) (seq K K).
Proof.
  assert (H : forall d a c, c + 1 = a + d + d -> True) by auto. clear H.
  assert (G : forall d b c, b + d = S c -> map f (rev (seq 0 d)) = map (fun k => f (c - k)) (seq b d)).
  { induction d as [|d IH]; intros b c Hb; [reflexivity|].
    rewrite seq_snoc, rev_app_distr. cbn [rev app map seq]. f_equal; [f_equal; lia|].
    apply IH. lia. }
  destruct K; [reflexivity|]. apply G. lia.
Qed.

Lemma allreduce_prog_levels n r : r < n -> exists l, allreduce_prog n r = Some l /\
  strip l = levels (ceil_log2 n + ceil_log2 n) (act_all n) r 0.
Proof.
  intros Hr. destruct (reduce_prog n r Hr) as (a & Ha & Hsa). destruct (bcast_prog n r Hr) as (b & Hb & Hsb).
  unfold allreduce_prog. rewrite Ha, Hb. simpl. eexists; split; [reflexivity|].
  rewrite strip_app, Hsa, Hsb. unfold levels. rewrite Nat.sub_0_r, seq_app, map_app, strip_app. f_equal.
  - f_equal. apply map_ext_in. intros k Hk. apply in_seq in Hk. unfold act_all.
    destruct (Nat.ltb_spec k (ceil_log2 n)); auto; lia.
  - f_equal. rewrite rev_seq_levels. apply map_ext_in. intros k Hk. apply in_seq in Hk. unfold act_all.
    destruct (Nat.ltb_spec k (ceil_log2 n)); auto; lia.
Qed.

Lemma act_red_send n r j q : r < n -> act_red n r j = Send q -> q < n /\ exists kd, act_red n q j = Recv r kd.
Proof.
  intros Hr. unfold act_red. destruct (Nat.eqb_spec (r mod 2 ^ j) 0) as [e|e]; [|discriminate].
  destruct (Nat.testbit r j) eqn:E.
  - intros H. inversion H; subst. pose proof (testbit_le _ _ E). split; [lia|].
    rewrite mod_sub_same, e by auto. simpl. rewrite testbit_sub, E by auto. simpl.
    replace (r - 2 ^ j + 2 ^ j) with r by lia. destruct (Nat.ltb_spec r n); [eauto|lia].
  - destruct (r + 2 ^ j <? n); discriminate.
Qed.
Lemma act_red_recv n r j q kd : r < n -> act_red n r j = Recv q kd -> q < n /\ act_red n q j = Send r.
Proof.
  intros Hr. unfold act_red. destruct (Nat.eqb_spec (r mod 2 ^ j) 0) as [e|e]; [|discriminate].
  destruct (Nat.testbit r j) eqn:E; [discriminate|].
  destruct (Nat.ltb_spec (r + 2 ^ j) n); [|discriminate]. intros H'. inversion H'; subst.
  split; auto. rewrite mod_add_same, e. simpl. rewrite testbit_add, E. simpl. f_equal. lia.
Qed.
Lemma act_bc_recv n r j q kd : r < n -> act_bc n r j = Recv q kd -> q < n /\ act_bc n q j = Send r.
Proof.
  intros Hr. unfold act_bc. destruct (Nat.eqb_spec (r mod 2 ^ j) 0) as [e|e]; [|discriminate].
  destruct (Nat.testbit r j) eqn:E.
  - intros H. inversion H; subst. pose proof (testbit_le _ _ E). split; [lia|].
    rewrite mod_sub_same, e by auto. simpl. rewrite testbit_sub, E by auto. simpl.
    replace (r - 2 ^ j + 2 ^ j) with r by lia. destruct (Nat.ltb_spec r n); [eauto|lia].
  - destruct (r + 2 ^ j <? n); discriminate.
Qed.
Lemma act_bc_send n r j q : r < n -> act_bc n r j = Send q -> q < n /\ exists kd, act_bc n q j = Recv r kd.
Proof.
  intros Hr. unfold act_bc. destruct (Nat.eqb_spec (r mod 2 ^ j) 0) as [e|e]; [|discriminate].
  destruct (Nat.testbit r j) eqn:E; [discriminate|].
  destruct (Nat.ltb_spec (r + 2 ^ j) n); [|discriminate]. intros H'. inversion H'; subst.
  split; auto. rewrite mod_add_same, e. simpl. rewrite testbit_add, E. simpl. exists Assign. f_equal. lia.
Qed.

Lemma all_send n r k q : r < n -> k < ceil_log2 n + ceil_log2 n -> act_all n r k = Send q ->
  q < n /\ exists kd, act_all n q k = Recv r kd.
Proof. intros Hr _. unfold act_all. destruct (k <? ceil_log2 n); [apply act_red_send|apply act_bc_send]; auto. Qed.
Lemma all_recv n r k q kd : r < n -> k < ceil_log2 n + ceil_log2 n -> act_all n r k = Recv q kd ->
  q < n /\ act_all n q k = Send r.
Proof. intros Hr _. unfold act_all. destruct (k <? ceil_log2 n); [apply act_red_recv|apply act_bc_recv]; auto. Qed.

(* ---------------- folds ---------------- *)
Section Fold.
Context {A : Type}.
Variable m : A -> A -> A.
Hypothesis assoc : forall a b c, m (m a b) c = m a (m b c).

Definition cmb (l : list A) : option A :=
  match l with [] => None | x :: t => Some (fold_left m t x) end.
Lemma fold_assoc l a b : fold_left m l (m a b) = m a (fold_left m l b).
Proof. revert b; induction l as [|x l IH]; intros b; simpl; auto. rewrite assoc. apply IH. Qed.
Lemma cmb_app l1 l2 a b : cmb l1 = Some a -> cmb l2 = Some b -> cmb (l1 ++ l2) = Some (m a b).
Proof.
  destruct l1 as [|x l1]; [discriminate|]. destruct l2 as [|y l2]; [discriminate|]. simpl. intros H1 H2.
  inversion H1; inversion H2; subst. f_equal. rewrite fold_left_app. simpl. apply fold_assoc.
Qed.

Variable n : nat.
Variable init : nat -> A.
Hypothesis Hn : 0 < n.
Notation K := (ceil_log2 n).
Notation W := (V m (act_all n) init).

Lemma V_red k r : k <= K -> r < n -> r mod 2 ^ k = 0 ->
  cmb (map init (seq r (Nat.min (2 ^ k) (n - r)))) = Some (W r k).
Proof.
  revert r. induction k as [|k IH]; intros r Hk Hr Hm.
  - simpl. destruct (n - r) eqn:E; [lia|]. reflexivity.
  - apply mod_S_0 in Hm as [Hm Hb]. cbn [V]. unfold act_all.
    destruct (Nat.ltb_spec k K); [|lia]. unfold act_red. rewrite Hm, Hb. simpl (0 =? 0). cbv iota.
    destruct (Nat.ltb_spec (r + 2 ^ k) n).
    + replace (Nat.min (2 ^ S k) (n - r)) with (Nat.min (2 ^ k) (n - r) + Nat.min (2 ^ k) (n - (r + 2 ^ k)))
        by (rewrite pow2_S; lia).
      rewrite seq_app, map_app. apply cmb_app; [apply IH; auto; lia|].
      replace (r + Nat.min (2 ^ k) (n - r)) with (r + 2 ^ k) by lia.
      apply IH; [lia|auto|]. now rewrite mod_add_same.
    + replace (Nat.min (2 ^ S k) (n - r)) with (Nat.min (2 ^ k) (n - r)) by (rewrite pow2_S; lia).
      apply IH; auto; lia.
Qed.

(** the total, in rank order *)
Definition total : A := fold_left m (map init (seq 1 (n - 1))) (init 0).
Lemma V_red_root : W 0 K = total.
Proof.
  pose proof (V_red K 0 (le_n _) Hn) as H. rewrite Nat.mod_0_l in H by (pose proof (pow2_pos K); lia).
  specialize (H eq_refl). destruct (ceil_spec n Hn) as [H1 _].
  rewrite Nat.min_r in H by lia. rewrite Nat.sub_0_r in H.
  replace n with (S (n - 1)) in H by lia. cbn [seq map cmb] in H.
  replace (S (n - 1)) with n in H by lia. inversion H. reflexivity.
Qed.
End Fold.

(** broadcast: everybody ends with the root's reduced value, for any merge *)
Lemma V_bc {A} (m : A -> A -> A) n init i r : i <= ceil_log2 n -> r < n -> r mod 2 ^ (ceil_log2 n - i) = 0 ->
  V m (act_all n) init r (ceil_log2 n + i) = V m (act_all n) init 0 (ceil_log2 n).
Proof.
  revert r. set (K := ceil_log2 n). induction i as [|i IH]; intros r Hi Hr Hm.
  - rewrite Nat.add_0_r. rewrite Nat.sub_0_r in Hm.
    destruct (Nat.eq_dec r 0); [subst; auto|]. exfalso. apply mod_le in Hm; [|lia].
    destruct (ceil_spec n ltac:(lia)) as [H _]. fold K in H. lia.
  - rewrite Nat.add_succ_r. cbn [V]. unfold act_all at 1. fold K.
    destruct (Nat.ltb_spec (K + i) K); [lia|].
    replace (K + K - 1 - (K + i)) with (K - S i) by lia. set (j := K - S i) in *.
    assert (Hj : K - i = S j) by lia. unfold act_bc. rewrite Hm. simpl (0 =? 0). cbv iota.
    destruct (Nat.testbit r j) eqn:E.
    + simpl. pose proof (testbit_le _ _ E). apply IH; try lia.
      rewrite Hj. apply mod_S_0. rewrite mod_sub_same, testbit_sub, E by auto. auto.
    + assert (V m (act_all n) init r (K + i) = V m (act_all n) init 0 K).
      { apply IH; try lia. rewrite Hj. apply mod_S_0. auto. }
      destruct (r + 2 ^ j <? n); auto.
Qed.
Lemma V_all_final {A} (m : A -> A -> A) n init r : r < n ->
  V m (act_all n) init r (ceil_log2 n + ceil_log2 n) = V m (act_all n) init 0 (ceil_log2 n).
Proof. intros H. apply V_bc; auto. rewrite Nat.sub_diag. apply Nat.mod_1_r. Qed.

(* ---------------- scan ---------------- *)
Lemma ones_mask r k : (Nat.land r (2 ^ k - 1) =? 2 ^ k - 1) = ((r + 1) mod 2 ^ k =? 0).
Proof.
  assert (E : Nat.land r (2 ^ k - 1) = r mod 2 ^ k).
  { rewrite <- Nat.land_ones. f_equal. rewrite Nat.ones_equiv. lia. }
  rewrite E. pose proof (pow2_pos k) as Hp.
  pose proof (Nat.div_mod r (2 ^ k) ltac:(lia)). pose proof (Nat.mod_upper_bound r (2 ^ k) ltac:(lia)).
  destruct (Nat.eqb_spec (r mod 2 ^ k) (2 ^ k - 1)).
  - symmetry. apply Nat.eqb_eq. symmetry. apply Nat.mod_unique with (r / 2 ^ k + 1); nia.
  - symmetry. apply Nat.eqb_neq. intros H1.
    assert ((r + 1) mod 2 ^ k = r mod 2 ^ k + 1); [|lia].
    symmetry. apply Nat.mod_unique with (r / 2 ^ k); nia.
Qed.
Lemma up_could r k : up_could_receive r (2 ^ k) = ((r + 1) mod 2 ^ S k =? 0).
Proof. unfold up_could_receive. rewrite shl_pow2. apply ones_mask. Qed.
Lemma down_could r k : down_could_send r (2 ^ k) = ((r + 1) mod 2 ^ k =? 0).
Proof. unfold down_could_send. apply ones_mask. Qed.

Definition act_scan (n r k : nat) : cact :=
  let F := floor_log2 n in
  if k <? F then up_act n r (2 ^ k) else down_act n r (2 ^ (F + F - k)).

Lemma up_loop n r : forall d fuel j, d = floor_log2 n - j -> j <= floor_log2 n -> d < fuel ->
  coll_loop fuel scan_up n r (2 ^ j) = Some (map (fun k => up_act n r (2 ^ k)) (seq j d)).
Proof.
  induction d as [|d IH]; intros fuel j Hd Hj Hf; (destruct fuel as [|fuel]; [lia|]); cbn [coll_loop];
    change (p_end scan_up n r (2 ^ j)) with (2 ^ j =? Nat.shiftl 1 (floor_log2 n)); rewrite shl1_pow2.
  - replace j with (floor_log2 n) by lia. rewrite Nat.eqb_refl. reflexivity.
  - assert (2 ^ j < 2 ^ floor_log2 n) by (apply Nat.pow_lt_mono_r; lia).
    destruct (Nat.eqb_spec (2 ^ j) (2 ^ floor_log2 n)); [lia|].
    change (p_shift scan_up (2 ^ j)) with (Nat.shiftl (2 ^ j) 1). rewrite shl_pow2, IH by lia. reflexivity.
Qed.
Lemma down_loop n r : forall j fuel, j < fuel ->
  coll_loop fuel scan_down n r (2 ^ j) = Some (map (fun i => down_act n r (2 ^ (j - i))) (seq 0 j)).
Proof.
  induction j as [|j IH]; intros fuel Hf; (destruct fuel as [|fuel]; [lia|]); cbn [coll_loop].
  - reflexivity.
  - change (p_end scan_down n r (2 ^ S j)) with (2 ^ S j =? 1).
    pose proof (pow2_pos j). destruct (Nat.eqb_spec (2 ^ S j) 1); [rewrite pow2_S in *; lia|].
    change (p_shift scan_down (2 ^ S j)) with (Nat.shiftr (2 ^ S j) 1). rewrite shr_pow2_S, IH by lia.
    cbn [obind seq map]. f_equal. f_equal. rewrite <- seq_shift, map_map. reflexivity.
Qed.
Lemma map_add_seq c d : forall b, map (fun i => c + i) (seq b d) = seq (c + b) d.
Proof. induction d as [|d IH]; intros b; simpl; auto. f_equal. rewrite IH. f_equal. lia. Qed.
Lemma scan_prog_levels n r : r < n -> exists l, scan_prog n r = Some l /\
  strip l = levels (floor_log2 n + floor_log2 n) (act_scan n) r 0.
Proof.
  intros Hr. pose proof (floor_le n ltac:(lia)). unfold scan_prog, coll.
  change (p_begin scan_up n r) with (2 ^ 0).
  change (p_begin scan_down n r) with (Nat.shiftl 1 (floor_log2 n)). rewrite shl1_pow2.
  rewrite (up_loop n r (floor_log2 n)) by lia. rewrite down_loop by lia. simpl obind.
  eexists; split; [reflexivity|]. unfold levels. f_equal. rewrite Nat.sub_0_r, seq_app, map_app. f_equal.
  - apply map_ext_in. intros k Hk. apply in_seq in Hk. unfold act_scan.
    destruct (Nat.ltb_spec k (floor_log2 n)); auto; lia.
  - replace (seq (0 + floor_log2 n) (floor_log2 n)) with (map (fun i => floor_log2 n + i) (seq 0 (floor_log2 n))).
    2:{ rewrite map_add_seq. f_equal; lia. }
    rewrite map_map. apply map_ext_in. intros k Hk. apply in_seq in Hk. unfold act_scan.
    destruct (Nat.ltb_spec (floor_log2 n + k) (floor_log2 n)); [lia|]. f_equal. f_equal. lia.
Qed.

Lemma half_not x k : x mod 2 ^ S k = 0 -> (x + 2 ^ k) mod 2 ^ S k <> 0.
Proof. intros H1 H2. apply mod_S_0 in H1 as [_ H1]. apply mod_S_0 in H2 as [_ H2].
  rewrite testbit_add, H1 in H2. discriminate. Qed.

Lemma up_send n r k q : r < n -> up_act n r (2 ^ k) = Send q -> q < n /\ exists kd, up_act n q (2 ^ k) = Recv r kd.
Proof.
  intros Hr. unfold up_act. rewrite !up_could. destruct (_ && (2 ^ k <=? r)); [discriminate|].
  destruct (Nat.ltb_spec (r + 2 ^ k) n) as [H|H]; cbn [andb]; [|discriminate].
  destruct (Nat.eqb_spec ((r + 2 ^ k + 1) mod 2 ^ S k) 0) as [e|e]; [|discriminate].
  intros H'. inversion H'; subst. split; auto. rewrite e. simpl (0 =? 0).
  destruct (Nat.leb_spec (2 ^ k) (r + 2 ^ k)); [|lia]. simpl. exists Merge. f_equal. lia.
Qed.
Lemma up_recv n r k q kd : r < n -> up_act n r (2 ^ k) = Recv q kd -> q < n /\ up_act n q (2 ^ k) = Send r.
Proof.
  intros Hr. unfold up_act. rewrite !up_could.
  destruct (Nat.eqb_spec ((r + 1) mod 2 ^ S k) 0) as [e|e]; cbn [andb].
  - destruct (Nat.leb_spec (2 ^ k) r) as [H|H].
    + intros H'. inversion H'; subst. split; [lia|].
      replace (r - 2 ^ k + 2 ^ k) with r by lia. rewrite e. simpl (0 =? 0).
      destruct (Nat.eqb_spec ((r - 2 ^ k + 1) mod 2 ^ S k) 0) as [e'|e'].
      { exfalso. apply half_not in e'. apply e'. replace (r - 2 ^ k + 1 + 2 ^ k) with (r + 1) by lia. auto. }
      cbn [andb]. destruct (Nat.ltb_spec r n); [auto|lia].
    + destruct (_ && _); discriminate.
  - destruct (_ && _); discriminate.
Qed.
Lemma down_act_S n r j : down_act n r (2 ^ S j) =
  if ((r + 1) mod 2 ^ S j =? 0) && (r + 2 ^ j <? n) then Send (r + 2 ^ j)
  else if (2 ^ j <=? r) && ((r - 2 ^ j + 1) mod 2 ^ S j =? 0) then Recv (r - 2 ^ j) Merge else Idle.
Proof. unfold down_act. rewrite shr_pow2_S, !down_could. reflexivity. Qed.
Lemma down_send n r j q : r < n -> down_act n r (2 ^ S j) = Send q -> q < n /\ exists kd, down_act n q (2 ^ S j) = Recv r kd.
Proof.
  intros Hr. rewrite down_act_S.
  destruct (Nat.eqb_spec ((r + 1) mod 2 ^ S j) 0) as [e|e]; cbn [andb].
  - destruct (Nat.ltb_spec (r + 2 ^ j) n) as [H|H].
    + intros H'. inversion H'; subst. split; auto. rewrite down_act_S.
      replace (r + 2 ^ j + 1) with (r + 1 + 2 ^ j) by lia.
      destruct (Nat.eqb_spec ((r + 1 + 2 ^ j) mod 2 ^ S j) 0) as [e'|e']; [exfalso; revert e'; apply half_not; auto|].
      cbn [andb]. destruct (Nat.leb_spec (2 ^ j) (r + 2 ^ j)); [|lia].
      replace (r + 2 ^ j - 2 ^ j) with r by lia. rewrite e. simpl (0 =? 0). cbn [andb]. eauto.
    + destruct (_ && _); discriminate.
  - destruct (_ && _); discriminate.
Qed.
Lemma down_recv n r j q kd : r < n -> down_act n r (2 ^ S j) = Recv q kd -> q < n /\ down_act n q (2 ^ S j) = Send r.
Proof.
  intros Hr. rewrite down_act_S. destruct (_ && (r + 2 ^ j <? n)); [discriminate|].
  destruct (Nat.leb_spec (2 ^ j) r) as [H|H]; [|discriminate].
  destruct (Nat.eqb_spec ((r - 2 ^ j + 1) mod 2 ^ S j) 0) as [e|e]; [|discriminate].
  cbv [andb]. intros H'. inversion H'; subst. split; [lia|]. rewrite down_act_S.
  rewrite e. simpl (0 =? 0). replace (r - 2 ^ j + 2 ^ j) with r by lia.
  destruct (Nat.ltb_spec r n); [auto|lia].
Qed.
Lemma scan_send n r k q : r < n -> k < floor_log2 n + floor_log2 n -> act_scan n r k = Send q ->
  q < n /\ exists kd, act_scan n q k = Recv r kd.
Proof.
  intros Hr Hk. unfold act_scan. destruct (k <? floor_log2 n); [apply up_send; auto|].
  replace (floor_log2 n + floor_log2 n - k) with (S (floor_log2 n + floor_log2 n - k - 1)) by lia.
  apply down_send; auto.
Qed.
Lemma scan_recv n r k q kd : r < n -> k < floor_log2 n + floor_log2 n -> act_scan n r k = Recv q kd ->
  q < n /\ act_scan n q k = Send r.
Proof.
  intros Hr Hk. unfold act_scan. destruct (k <? floor_log2 n); [apply up_recv; auto|].
  replace (floor_log2 n + floor_log2 n - k) with (S (floor_log2 n + floor_log2 n - k - 1)) by lia.
  apply down_recv; auto.
Qed.

Section Scan.
Context {A : Type}.
Variable m : A -> A -> A.
Hypothesis assoc : forall a b c, m (m a b) c = m a (m b c).
Variable n : nat.
Variable init : nat -> A.
Hypothesis Hn : 0 < n.
Notation F := (floor_log2 n).
Notation W := (V m (act_scan n) init).

Definition desc (a c : nat) : list nat := rev (seq a c).
Lemma desc_split a c d : desc a (c + d) = desc (a + c) d ++ desc a c.
Proof. unfold desc. now rewrite seq_app, rev_app_distr. Qed.

Lemma W_up_step r k : k < F -> W r (S k) =
  if ((r + 1) mod 2 ^ S k =? 0) && (2 ^ k <=? r) then m (W r k) (W (r - 2 ^ k) k) else W r k.
Proof.
  intros Hk. cbn [V]. unfold act_scan at 1. destruct (Nat.ltb_spec k F); [|lia].
  unfold up_act. rewrite !up_could. destruct (_ && (2 ^ k <=? r)); auto. destruct (_ && _); auto.
Qed.
Lemma V_up k r : k <= F -> r < n -> (r + 1) mod 2 ^ k = 0 ->
  cmb m (map init (desc (r + 1 - 2 ^ k) (2 ^ k))) = Some (W r k).
Proof.
  revert r. induction k as [|k IH]; intros r Hk Hr Hm.
  - simpl. replace (r + 1 - 1) with r by lia. reflexivity.
  - rewrite W_up_step by lia. rewrite Hm. simpl (0 =? 0).
    pose proof (mod_le (r + 1) (S k) Hm ltac:(lia)) as Hle. rewrite pow2_S in Hle. pose proof (pow2_pos k).
    destruct (Nat.leb_spec (2 ^ k) r); [|lia]. cbv [andb].
    replace (2 ^ S k) with (2 ^ k + 2 ^ k) by (rewrite pow2_S; auto).
    rewrite desc_split, map_app. apply mod_S_0 in Hm as [Hm _]. apply cmb_app; auto.
    + replace (r + 1 - (2 ^ k + 2 ^ k) + 2 ^ k) with (r + 1 - 2 ^ k) by lia. apply IH; auto; lia.
    + replace (r + 1 - (2 ^ k + 2 ^ k)) with (r - 2 ^ k + 1 - 2 ^ k) by lia. apply IH; try lia.
      replace (r - 2 ^ k + 1) with (r + 1 - 2 ^ k) by lia. rewrite mod_sub_same; auto; lia.
Qed.
Lemma V_up_stable k d r : k + d <= F -> (r + 1) mod 2 ^ S k <> 0 -> W r (k + d) = W r k.
Proof.
  intros Hd Hm. induction d as [|d IH]; [f_equal; lia|].
  rewrite Nat.add_succ_r, W_up_step by lia.
  destruct (Nat.eqb_spec ((r + 1) mod 2 ^ S (k + d)) 0) as [e|e]; simpl.
  - exfalso. apply Hm. apply (mod_mono _ (S k) (S (k + d))); auto. lia.
  - apply IH. lia.
Qed.
Lemma W_down_step r i j : i < F -> F = i + S j -> W r (F + S i) =
  if ((r + 1) mod 2 ^ S j =? 0) && (r + 2 ^ j <? n) then W r (F + i)
  else if (2 ^ j <=? r) && ((r - 2 ^ j + 1) mod 2 ^ S j =? 0) then m (W r (F + i)) (W (r - 2 ^ j) (F + i)) else W r (F + i).
Proof.
  intros Hi Hj. rewrite Nat.add_succ_r. cbn [V]. unfold act_scan at 1.
  destruct (Nat.ltb_spec (F + i) F); [lia|]. replace (F + F - (F + i)) with (S j) by lia.
  rewrite down_act_S. destruct (_ && (r + 2 ^ j <? n)); auto. destruct (_ && _); auto.
Qed.
Lemma V_down i : i <= F -> forall j, j = F - i -> forall r, r < n ->
  ((r + 1) mod 2 ^ j = 0 -> cmb m (map init (desc 0 (r + 1))) = Some (W r (F + i))) /\
  ((r + 1) mod 2 ^ j <> 0 -> W r (F + i) = W r F).
Proof.
  induction i as [|i IH]; intros Hi j Hj r Hr.
  - rewrite Nat.add_0_r. split; auto. intros Hm. replace j with F in * by lia.
    pose proof (mod_le _ _ Hm ltac:(lia)). destruct (floor_spec n Hn) as [H1 H2].
    assert (r + 1 = 2 ^ F).
    { destruct (Nat.eq_dec (r + 1) (2 ^ F)); auto. exfalso. pose proof (pow2_pos F).
      pose proof (Nat.div_mod (r + 1) (2 ^ F) ltac:(lia)). rewrite Hm in H3. rewrite pow2_S in H2.
      assert ((r + 1) / 2 ^ F = 1 \/ 2 <= (r + 1) / 2 ^ F) as [g|g] by nia; nia. }
    rewrite <- (V_up F r); auto. f_equal. f_equal. f_equal; lia.
  - specialize (IH ltac:(lia) (S j) ltac:(lia)).
    rewrite (W_down_step r i j) by lia. destruct (IH r Hr) as [IH1 IH2].
    destruct (Nat.eqb_spec ((r + 1) mod 2 ^ S j) 0) as [e|e].
    + assert (Hnr : (2 ^ j <=? r) && ((r - 2 ^ j + 1) mod 2 ^ S j =? 0) = false).
      { destruct (Nat.leb_spec (2 ^ j) r); auto. destruct (Nat.eqb_spec ((r - 2 ^ j + 1) mod 2 ^ S j) 0) as [e'|e']; auto.
        exfalso. apply half_not in e'. apply e'. replace (r - 2 ^ j + 1 + 2 ^ j) with (r + 1) by lia. auto. }
      rewrite Hnr. split.
      * intros _. rewrite IH1 by auto. destruct (true && _); auto.
      * intros Hx. apply mod_S_0 in e as [e _]. contradiction.
    + cbn [andb]. cbv iota. split.
      * intros Hm. assert (Hb : Nat.testbit (r + 1) j = true).
        { destruct (Nat.testbit (r + 1) j) eqn:Eb; auto. exfalso. apply e. apply mod_S_0. auto. }
        rewrite IH2 by auto. replace (W r F) with (W r j).
        2:{ replace F with (j + (F - j)) by lia. symmetry. apply V_up_stable; auto. lia. }
        pose proof (V_up j r ltac:(lia) Hr Hm) as Hup.
        destruct (Nat.leb_spec (2 ^ j) r) as [g|g].
        -- assert (Hs : (r - 2 ^ j + 1) mod 2 ^ S j = 0).
           { replace (r - 2 ^ j + 1) with (r + 1 - 2 ^ j) by lia. apply mod_S_0.
             rewrite mod_sub_same, testbit_sub, Hb by lia. auto. }
           rewrite Hs. cbn [andb]. cbv iota.
           destruct (IH (r - 2 ^ j) ltac:(lia)) as [G _]. specialize (G Hs).
           replace (r + 1) with ((r - 2 ^ j + 1) + 2 ^ j) by lia. rewrite desc_split, map_app.
           apply cmb_app; auto. rewrite <- Hup. f_equal. f_equal. f_equal. lia.
        -- cbn [andb]. cbv iota. rewrite <- Hup. pose proof (mod_le _ _ Hm ltac:(lia)).
           f_equal. f_equal. f_equal; lia.
      * intros Hm. destruct ((2 ^ j <=? r) && ((r - 2 ^ j + 1) mod 2 ^ S j =? 0)) eqn:E; [|auto].
        exfalso. apply andb_true_iff in E as [E1 E2]. apply Nat.leb_le in E1. apply Nat.eqb_eq in E2.
        apply mod_S_0 in E2 as [E2 _]. replace (r - 2 ^ j + 1) with (r + 1 - 2 ^ j) in E2 by lia.
        rewrite mod_sub_same in E2 by lia. contradiction.
Qed.
(** rank r ends with the combination of ranks r, r-1, ..., 0 *)
Lemma V_scan_final r : r < n -> cmb m (map init (rev (seq 0 (r + 1)))) = Some (W r (F + F)).
Proof. intros Hr. destruct (V_down F (le_n _) 0 ltac:(lia) r Hr) as [H _]. apply H. apply Nat.mod_1_r. Qed.
End Scan.
