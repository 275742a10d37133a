(** The plan of one part in weight diffusion. *)
From Verif Require Import Base GraphModel Comm TagModel MetricsModel SdModel QueueModel QueueProps MigrateModel SelectorModel SelectorProofs SidesProofs WeightMigModel WeightMigProps WBalModel.
From Coq Require Import Lqa.
Local Open Scope nat_scope.

Lemma qless_true a b : qless a b = true -> (a < b)%Q.
Proof. unfold qless. rewrite negb_true_iff. intros H. apply Qnot_le_lt. intros L. apply Qle_bool_iff in L. congruence. Qed.
Lemma qless_false a b : qless a b = false -> (b <= a)%Q.
Proof. unfold qless. rewrite negb_false_iff. apply Qle_bool_iff. Qed.
Lemma trunc_le q : (0 <= q)%Q -> (inject_Z (trunc q) <= q)%Q.
Proof. unfold trunc, Qle, inject_Z. destruct q as [a b]. cbn [Qnum Qden]. intros H. rewrite Z.mul_1_r in *. rewrite Z.quot_div_nonneg by lia. rewrite Z.mul_comm. apply Z.mul_div_le. lia. Qed.
Lemma nfind_nput m k x j : nfind (nput m k x) j = if j =? k then Some x else nfind m j.
Proof.
  induction m as [|[a y] m IH]; cbn [nput nfind]; [rewrite (Nat.eqb_sym k j); reflexivity|]. destruct (Nat.eqb_spec a k) as [->|N]; cbn [nfind].
  - rewrite (Nat.eqb_sym k j). destruct (Nat.eqb_spec j k); auto. 
  - rewrite IH. destruct (Nat.eqb_spec a j) as [->|]; auto. destruct (Nat.eqb_spec j k); [congruence|auto].
Qed.
Lemma nat_whole_nput m k x j : nat_whole (nput m k x) j = if j =? k then x else nat_whole m j.
Proof. unfold nat_whole. rewrite nfind_nput. destruct (j =? k); auto. Qed.
Lemma wm_made_snoc cs c : wm_made (cs ++ [c]) = wm_insert (wm_made cs) (fst (fst c)) (snd (fst c)) (snd c).
Proof. unfold wm_made. rewrite fold_left_app. reflexivity. Qed.

Section Part.
Variables (D : positive) (ord : list nat -> list nat) (g : graph) (fuel n tot : nat) (ow : nat -> Z) (wt : nat -> Z) (pins : nat -> list nat) (targets : cont Q).
Hypothesis Hord : forall c, Permutation (ord c) c.
Hypothesis Hnlv : nlv g = n.
Hypothesis How : forall l, l < tot -> owner g (S l) = Some (ow l) /\ (ow l = self g <-> l < n).
Hypothesis Hnt : n <= tot.
Hypothesis Hwt : forall l, l < n -> vweight g (S l) = Some (wt l) /\ (0 <= wt l)%Z.

Definition sent_by (cs : list wcall) (l : nat) : Z := sumf (fun c => if Nat.eqb (fst (fst c)) l then snd c else 0%Z) cs.
Definition sent_to (cs : list wcall) (o : Z) : Z := sumf (fun c => if Z.eqb (ow (snd (fst c))) o then snd c else 0%Z) cs.
(** one planned transfer *)
Definition call_ok (c : wcall) : Prop :=
  fst (fst c) < n /\ n <= snd (fst c) < tot /\ chas targets (ow (snd (fst c))) = true /\ exists x, (0 <= x)%Z /\ snd c = (x * Zpos D)%Z.
(** what the selector maintains; [B] bounds what each vertex has given away *)
Record Inv (B : nat -> Q) (cs : list wcall) (st : wsel) : Prop := mkInv {
  i_plan : ws_plan st = wm_made (map hcall cs);
  i_calls : forall c, In c cs -> call_ok c;
  i_to : forall o, sent_to cs o = (at_whole (ws_sending st) o * Zpos D)%Z;
  i_tgt : forall o, (0 <= at_whole (ws_sending st) o)%Z /\ (at_whole (ws_sending st) o = 0%Z \/ (inject_Z (at_whole (ws_sending st) o) <= cget 0%Q targets o)%Q);
  i_by : forall l, l < n -> sent_by cs l = (nat_whole (ws_vsend st) (S l) * Zpos D)%Z;
  i_bound : forall l, l < n -> (inject_Z (nat_whole (ws_vsend st) (S l)) <= B l)%Q;
  i_sum : sumf snd cs = (ws_w st * Zpos D)%Z }.

Lemma Inv_weaken (B B' : nat -> Q) cs st : (forall l, l < n -> (B l <= B' l)%Q) -> Inv B cs st -> Inv B' cs st.
Proof. intros H []. constructor; auto. intros l L. eapply Qle_trans; [apply i_bound0; auto|auto]. Qed.

Lemma send_ok (B : nat -> Q) cs st m w k v : m < n -> n <= v < tot -> (0 <= w)%Q -> 0 < k -> Inv B cs st ->
  exists st' cs', send_to D g targets (S m) w k st (S v) = Some st' /\ ws_q st' = ws_q st /\ length cs' <= length cs + 1 /\
    Inv (fun l => (B l + if Nat.eqb l m then w * (1 # 10) / inject_Z (Z.of_nat k) else 0)%Q) cs' st'.
Proof.
  intros Lm Lv Hw Hk I. unfold send_to. destruct (How v) as (Ho & Hs); [lia|]. rewrite Ho. cbn [obind].
  assert (Y0 : (0 <= w * (1 # 10) / inject_Z (Z.of_nat k))%Q).
  { apply Qle_shift_div_l; [rewrite <- (Zlt_Qlt 0); lia|]. lra. }
  set (y := (w * (1 # 10) / inject_Z (Z.of_nat k))%Q) in *. set (s := at_whole (ws_sending st) (ow v)).
  destruct (chas targets (ow v)) eqn:Hc; cbn [andb]; [destruct (qless (inject_Z s) (cget 0%Q targets (ow v))) eqn:Hq|].
  2:{ exists st, cs. split; [reflexivity|]. split; auto. split; [lia|]. eapply Inv_weaken; [|exact I]. intros l _. cbv beta. destruct (l =? m); lra. }
  2:{ exists st, cs. split; [reflexivity|]. split; auto. split; [lia|]. eapply Inv_weaken; [|exact I]. intros l _. cbv beta. destruct (l =? m); lra. }
  apply qless_true in Hq. set (t := cget 0%Q targets (ow v)) in *. set (x0 := trunc y).
  set (x := if qless (t - inject_Z s) (inject_Z x0) then trunc (t - inject_Z s) else x0).
  assert (X : (0 <= x)%Z /\ (inject_Z x <= y)%Q /\ (inject_Z x <= t - inject_Z s)%Q).
  { assert (T0 : (0 <= t - inject_Z s)%Q) by lra. pose proof (trunc_le _ T0) as A1. pose proof (trunc_nonneg _ T0) as A2. pose proof (trunc_le _ Y0) as A3. pose proof (trunc_nonneg _ Y0) as A4. fold x0 in A3, A4.
    unfold x. destruct (qless (t - inject_Z s) (inject_Z x0)) eqn:E.
    - apply qless_true in E. split; auto. split; [|auto]. apply Qle_trans with (t - inject_Z s)%Q; auto. lra.
    - apply qless_false in E. split; auto. }
  destruct X as (X1 & X2 & X3). eexists _, (cs ++ [(m, v, (x * Zpos D)%Z)]). split; [reflexivity|]. split; auto. split; [rewrite app_length; cbn; lia|].
  destruct I as [I1 I2 I3 I4 I5 I6 I7]. constructor; cbn [ws_plan ws_sending ws_vsend ws_w ws_q].
  - rewrite map_app. cbn [map]. rewrite wm_made_snoc, I1. unfold hcall, getVertex. cbn [fst snd]. now rewrite !Nat.add_1_r.
  - intros c Hin. apply in_app_iff in Hin as [H|[<-|[]]]; auto. unfold call_ok. cbn [fst snd]. split; auto. split; auto. split; auto. exists x. auto.
  - intros o. unfold sent_to. rewrite sumf_snoc. cbn [fst snd]. fold (sent_to cs o). rewrite I3. unfold at_whole at 2. rewrite zfind_zput. destruct (Z.eqb_spec (ow v) o) as [<-|N].
    + fold s. lia.
    + unfold at_whole. lia.
  - intros o. unfold at_whole. rewrite zfind_zput. destruct (Z.eqb_spec (ow v) o) as [<-|N].
    + destruct (I4 (ow v)) as (P & _). fold s in P. split; [lia|]. right. rewrite inject_Z_plus. fold t. lra.
    + apply I4.
  - intros l Ll. unfold sent_by. rewrite sumf_snoc. cbn [fst snd]. fold (sent_by cs l). rewrite I5, nat_whole_nput by auto. cbn [Nat.eqb]. rewrite (Nat.eqb_sym l m). destruct (Nat.eqb_spec m l) as [->|]; [rewrite ?Nat.eqb_refl|]; lia.
  - intros l Ll. rewrite nat_whole_nput. cbn [Nat.eqb]. specialize (I6 l Ll). destruct (Nat.eqb_spec l m) as [->|]; [|lra]. rewrite inject_Z_plus. lra.
  - rewrite sumf_snoc, I7. cbn [snd]. lia.
Qed.

Lemma sends_ok m w k : m < n -> (0 <= w)%Q -> 0 < k -> forall xs (B : nat -> Q) cs st, (forall h, In h xs -> exists v, h = S v /\ n <= v < tot) -> Inv B cs st ->
  exists st' cs', foldM (send_to D g targets (S m) w k) xs st = Some st' /\ ws_q st' = ws_q st /\ length cs' <= length cs + length xs /\
    Inv (fun l => (B l + if Nat.eqb l m then inject_Z (Z.of_nat (length xs)) * (w * (1 # 10) / inject_Z (Z.of_nat k)) else 0)%Q) cs' st'.
Proof.
  intros Lm Hw Hk. induction xs as [|h xs IH]; intros B cs st HX I; cbn [foldM length].
  - exists st, cs. split; auto. split; auto. split; [lia|]. eapply Inv_weaken; [|exact I]. intros l _. cbv beta. destruct (l =? m); [change (Z.of_nat 0) with 0%Z; change (inject_Z 0) with 0%Q|]; lra.
  - destruct (HX h (or_introl eq_refl)) as (v & -> & Lv). destruct (send_ok B cs st m w k v Lm Lv Hw Hk I) as (st1 & cs1 & -> & Q1 & L1 & I1). cbn [obind].
    destruct (IH _ cs1 st1 ltac:(intros h Hh; apply HX; right; auto) I1) as (st2 & cs2 & -> & Q2 & L2 & I2). exists st2, cs2. split; auto. split; [congruence|]. split; [lia|].
    eapply Inv_weaken; [|exact I2]. intros l _. cbv beta. destruct (l =? m); [|lra]. rewrite Nat2Z.inj_succ, <- Z.add_1_l, inject_Z_plus. change (inject_Z 1) with 1%Q. lra.
Qed.

Definition good_edge (e : nat) : Prop := edge_pins g e fuel = Some (map S (pins e)) /\ (forall l, In l (pins e) -> l < tot) /\ exists l, In l (pins e) /\ l < n.
Lemma cavity_ok e : good_edge e -> exists m cav, weight_cavity g fuel e = Some (Some (S m), cav) /\ m < n /\ NoDup cav /\ length cav <= length (pins e) /\ forall h, In h cav -> exists v, h = S v /\ n <= v < tot.
Proof.
  intros (E & HT & (l0 & Hl0 & Ll0)). unfold weight_cavity. rewrite E. cbn [obind].
  assert (G : forall ls mine others, (forall l, In l ls -> l < tot) -> NoDup others -> (forall h, In h others -> exists v, h = S v /\ n <= v < tot) -> (mine = None \/ exists m, mine = Some (S m) /\ m < n) ->
    exists mine' cav, foldM (fun '(mine, others) v => o <- owner g v ;; Some (if Z.eqb o (self g) then (Some v, others) else (mine, sadd others v))) (map S ls) (mine, others) = Some (mine', cav) /\
      NoDup cav /\ length cav <= length others + length ls /\ (forall h, In h cav -> exists v, h = S v /\ n <= v < tot) /\ ((mine <> None \/ exists l, In l ls /\ l < n) -> exists m, mine' = Some (S m) /\ m < n) ).
  { clear E HT Hl0 l0 Ll0. induction ls as [|l ls IH]; intros mine others HT ND HO HM; cbn [map foldM].
    - exists mine, others. split; auto. split; auto. split; [lia|]. split; [exact HO|]. intros [N|(l & [] & _)]. destruct HM as [->|HM]; [congruence|auto].
    - destruct (How l) as (-> & Hs); [apply HT; left; auto|]. cbn [obind]. destruct (Z.eqb_spec (ow l) (self g)) as [Q|Q].
      + destruct (IH (Some (S l)) others) as (m' & cav & -> & A & B & C & F); auto; [intros x Hx; apply HT; right; auto|right; exists l; split; auto; apply Hs; auto|].
        exists m', cav. split; auto. split; auto. split; [cbn [length]; lia|]. split; auto. intros _. apply F. left. discriminate.
      + destruct (IH mine (sadd others (S l))) as (m' & cav & -> & A & B & C & F); auto; [intros x Hx; apply HT; right; auto|now apply sadd_nodup| |].
        { intros h Hh. apply sadd_in in Hh as [Hh| ->]; auto. exists l. split; auto. assert (l < tot) by (apply HT; left; auto). destruct (Nat.lt_ge_cases l n); [exfalso; apply Q, Hs; auto|lia]. }
        exists m', cav. split; auto. split; auto. split; [unfold sadd in B; destruct (smem others (S l)); [|rewrite app_length in B]; cbn [length] in *; lia|]. split; auto.
        intros [N|(x & [<-|Hx] & Lx)]; [apply F; left; auto|exfalso; apply Q, Hs; auto|apply F; right; exists x; auto]. }
  destruct (G (pins e) None []) as (m' & cav & -> & A & B & C & F); auto; [constructor|intros h []|]. destruct F as (m & -> & Lm); [right; exists l0; auto|]. exists m, cav. auto.
Qed.

Definition has_enough (cs : list wcall) (st : wsel) : Prop := Inv (fun l => units D (wt l)) cs st.
Lemma edge_ok cs st e l : good_edge e -> has_enough cs st -> waiting (ws_q st) l -> length l < capacity (ws_q st) ->
  exists st' cs', weigh_edge D ord g fuel targets st e = Some st' /\ has_enough cs' st' /\ length cs' <= length cs + length (pins e) /\
    waiting (ws_q st') (l ++ [e]) /\ capacity (ws_q st') = capacity (ws_q st) /\ sa_cur (ws_q st') = sa_cur (ws_q st) /\ sa_size (ws_q st') = sa_size (ws_q st).
Proof.
  intros GE I WQ LC. unfold weigh_edge. destruct (cavity_ok e GE) as (m & cav & -> & Lm & ND & LL & HC). cbn [obind].
  destruct (Hwt m Lm) as (Hw & Hw0). unfold weight_of. cbn [vlid obind]. rewrite Hnlv. destruct (Nat.ltb_spec m n); [|lia]. rewrite Hw. cbn [obind].
  assert (W0 : (0 <= units D (wt m) - inject_Z (nat_whole (ws_vsend st) (S m)))%Q) by (pose proof (i_bound _ _ _ I m Lm) as X; cbv beta in X; lra).
  set (w := (units D (wt m) - inject_Z (nat_whole (ws_vsend st) (S m)))%Q) in *.
  assert (S1 : exists st' cs', foldM (send_to D g targets (S m) w (length cav)) (ord cav) st = Some st' /\ ws_q st' = ws_q st /\ length cs' <= length cs + length (pins e) /\ has_enough cs' st').
  { pose proof (Permutation_length (Hord cav)) as LO. destruct cav as [|h cav'] eqn:Ec.
    - assert (E0 : ord [] = []) by (apply Permutation_nil, Permutation_sym, Hord). rewrite E0. cbn [foldM]. exists st, cs. repeat (split; auto). lia.
    - rewrite <- Ec in *. assert (K : 0 < length cav) by (rewrite Ec; cbn; lia).
      assert (I' : Inv (fun l => if Nat.eqb l m then inject_Z (nat_whole (ws_vsend st) (S m)) else units D (wt l)) cs st).
      { destruct I; constructor; auto. intros l' L'. cbv beta. destruct (Nat.eqb_spec l' m) as [->|]; [lra|apply i_bound0; auto]. }
      assert (HC' : forall h, In h (ord cav) -> exists v, h = S v /\ n <= v < tot) by (intros x Hx; apply HC; now apply (Permutation_in _ (Hord cav))).
      destruct (sends_ok m w (length cav) Lm W0 K (ord cav) _ cs st HC' I') as (st' & cs' & -> & Q1 & L1 & I1).
      exists st', cs'. split; auto. split; auto. split; [lia|]. eapply Inv_weaken; [|exact I1]. intros l' L'. cbv beta. destruct (Nat.eqb_spec l' m) as [->|]; [|lra]. rewrite LO.
      assert (KQ : (0 < inject_Z (Z.of_nat (length cav)))%Q) by (rewrite <- (Zlt_Qlt 0); lia).
      assert (E1 : (inject_Z (Z.of_nat (length cav)) * (w * (1 # 10) / inject_Z (Z.of_nat (length cav))) == w * (1 # 10))%Q) by (field; lra). rewrite E1. unfold w in *. lra. }
  destruct S1 as (st1 & cs1 & -> & Q1 & L1 & I1). cbn [obind]. rewrite Q1. destruct (sa_add_ok (ws_q st) l e WQ LC) as (q' & -> & A & B & C & F). cbn [obind].
  eexists _, cs1. split; [reflexivity|]. cbn [ws_q]. split; [|auto 10]. destruct I1; constructor; auto.
Qed.

Definition pin_total (l : list nat) : nat := nsum (map (fun e => length (pins e)) l).
Lemma pin_total_app l1 l2 : pin_total (l1 ++ l2) = pin_total l1 + pin_total l2.
Proof. unfold pin_total, nsum. rewrite map_app. induction (map (fun e => length (pins e)) l1) as [|x l IH]; cbn; [auto|]. lia. Qed.
Lemma loop_ok C l : (forall i, i < length l -> exists e, nth_error l i = Some e) -> (forall e, In e l -> good_edge e) -> length l <= C ->
  forall r l0 cs st, l = l0 ++ r -> (forall i, i < length l -> aget (sa_cur (ws_q st)) i = nth_error l i) -> waiting (ws_q st) l0 -> capacity (ws_q st) = C -> length (sa_cur (ws_q st)) = C -> has_enough cs st ->
  exists st' cs' l', weigh_loop D ord g fuel targets (seq (length l0) (length r)) st = Some st' /\ has_enough cs' st' /\ length cs' <= length cs + pin_total r /\
    waiting (ws_q st') l' /\ incl l' l /\ length l' <= C /\ pin_total l' <= pin_total l /\ capacity (ws_q st') = C /\ length (sa_cur (ws_q st')) = C.
Proof.
  intros _ GE LC. induction r as [|e r IH]; intros l0 cs st EL CU WQ CQ CC I; cbn [length seq weigh_loop].
  - exists st, cs, l0. rewrite app_nil_r in EL. subst l0. split; auto. split; auto. split; [lia|]. split; auto. split; [apply incl_refl|]. auto.
  - destruct (qless (c_total targets) (inject_Z (ws_w st))).
    + exists st, cs, l0. split; auto. split; auto. split; [lia|]. split; auto. split; [intros x Hx; rewrite EL; apply in_or_app; auto|]. split; [rewrite EL, app_length in LC; lia|]. split; [rewrite EL, pin_total_app; lia|]. auto.
    + assert (Ll : length l0 < length l) by (rewrite EL, app_length; cbn; lia). unfold sa_get. rewrite CU by auto.
      assert (Ne : nth_error l (length l0) = Some e) by (rewrite EL, nth_error_app2, Nat.sub_diag by lia; reflexivity). rewrite Ne. cbn [obind].
      destruct (edge_ok cs st e l0) as (st1 & cs1 & -> & I1 & L1 & W1 & C1 & U1 & _); auto; [apply GE; eapply nth_error_In; eauto|lia|]. cbn [obind].
      destruct (IH (l0 ++ [e]) cs1 st1) as (st2 & cs2 & l' & E2 & I2 & L2 & W2 & A & B & F & G1 & G2); try congruence; auto.
      { rewrite <- app_assoc. exact EL. }
      { intros i Li. rewrite U1. auto. }
      rewrite app_length in E2. cbn [length] in E2. rewrite Nat.add_1_r in E2. rewrite E2. exists st2, cs2, l'. split; auto. split; auto. split; [unfold pin_total, nsum in *; cbn [map fold_right] in *; lia|]. auto 10.
Qed.
Lemma weigh_ok C l cs st : (forall e, In e l -> good_edge e) -> length l <= C -> waiting (ws_q st) l -> capacity (ws_q st) = C -> length (sa_cur (ws_q st)) = C -> has_enough cs st ->
  exists st' cs' l', weigh D ord g fuel targets st = Some st' /\ has_enough cs' st' /\ length cs' <= length cs + pin_total l /\
    waiting (ws_q st') l' /\ incl l' l /\ length l' <= C /\ pin_total l' <= pin_total l /\ capacity (ws_q st') = C /\ length (sa_cur (ws_q st')) = C.
Proof.
  intros GE LC (WA & WB) CQ CC I. unfold weigh. cbn [sa_start sa_size]. rewrite WA.
  apply (loop_ok C l) with (l0 := []) (r := l); auto; cbn [ws_q sa_start sa_cur sa_nsize].
  - intros i Li. destruct (nth_error l i) as [e|] eqn:E; eauto. apply nth_error_None in E. lia.
  - split; [reflexivity|]. cbn. lia.
  - destruct I; constructor; auto.
Qed.
Lemma times_ok C : forall k l cs st, (forall e, In e l -> good_edge e) -> length l <= C -> waiting (ws_q st) l -> capacity (ws_q st) = C -> length (sa_cur (ws_q st)) = C -> has_enough cs st ->
  exists st' cs', weigh_times D ord k g fuel targets st = Some st' /\ has_enough cs' st' /\ length cs' <= length cs + k * pin_total l.
Proof.
  induction k as [|k IH]; intros l cs st GE LC WQ CQ CC I; cbn [weigh_times]; [exists st, cs; split; auto; split; auto; lia|].
  destruct (weigh_ok C l cs st GE LC WQ CQ CC I) as (st1 & cs1 & l1 & -> & I1 & L1 & W1 & N1 & LC1 & P1 & C1 & C1'). cbn [obind].
  destruct (ws_w st1 - ws_w st <=? 0)%Z; [exists st1, cs1; split; auto; split; auto; lia|].
  destruct (IH l1 cs1 st1) as (st2 & cs2 & -> & I2 & L2); auto. exists st2, cs2. split; auto. split; auto.
  assert (k * pin_total l1 <= k * pin_total l) by (apply Nat.mul_le_mono_l; auto). lia.
Qed.
Lemma plan_ok l q : createIterationQueue g fuel = Some q -> length (sa_cur q) = capacity q -> waiting q l -> length l <= capacity q -> (forall e, In e l -> good_edge e) ->
  exists plan cs, weight_plan D ord g fuel targets = Some plan /\ plan = wm_made (map hcall cs) /\ (forall c, In c cs -> call_ok c) /\
    (forall m, m < n -> (sent_by cs m <= wt m)%Z) /\ (forall o, (0 <= sent_to cs o)%Z /\ (sent_to cs o = 0%Z \/ (units D (sent_to cs o) <= cget 0%Q targets o)%Q)) /\ length cs <= 10 * pin_total l.
Proof.
  intros EQ CC WQ LC GE. unfold weight_plan. rewrite EQ. cbn [obind].
  destruct (times_ok (capacity q) 10 l [] (mkWS q [] [] wm_new 0%Z)) as (st & cs & -> & I & L); cbn [ws_q]; auto.
  { constructor; cbn; auto; try (intros; contradiction).
    - intros o. unfold at_whole. cbn. split; [lia|auto].
    - intros m Lm. unfold nat_whole. cbn [nfind]. destruct (Hwt m Lm) as (_ & X). unfold units, Qle, inject_Z. cbn [Qnum Qden]. lia. }
  cbn [obind]. exists (ws_plan st), cs. split; auto. destruct I as [I1 I2 I3 I4 I5 I6 I7]. split; auto. split; auto. split.
  - intros m Lm. rewrite I5 by auto. specialize (I6 m Lm). unfold units, Qle, inject_Z in I6. cbn [Qnum Qden] in I6. lia.
  - split; [|cbn [length] in L; lia]. intros o. rewrite I3. destruct (I4 o) as (P & [->|Q]); [split; [lia|left; reflexivity]|]. split; [lia|]. right.
    assert (E : (units D (at_whole (ws_sending st) o * Zpos D) == inject_Z (at_whole (ws_sending st) o))%Q) by (unfold units, Qeq, inject_Z; cbn [Qnum Qden]; lia). now rewrite E.
Qed.
End Part.
