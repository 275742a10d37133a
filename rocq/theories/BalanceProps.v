(** C45: the balancers stop, within known numbers of migrations, and treat the criteria in priority order. *)
From Verif Require Import Base SdModel SdProps BalanceModel.
Local Open Scope nat_scope.

Section B.
Context {W : Type}.
Variables (imbalance : W -> Z -> Q) (planned : W -> Z -> list Z -> list Q -> nat * W) (max_weight avg_weight : W -> Z -> Q) (prepare : W -> Z -> Q -> W).
Notation runStep := (runStep imbalance planned). Notation diffuse := (diffuse imbalance planned).
Notation phase := (phase imbalance planned max_weight avg_weight prepare). Notation phases := (phases imbalance planned max_weight avg_weight prepare).
Notation balance := (balance imbalance planned max_weight avg_weight prepare). Notation balance_weights := (balance_weights imbalance planned).

Definition sd_reach (s : sd) : Prop := exists h, recorded h = Some s.
Lemma push_reach s x : sd_reach s -> exists s', sd_push s x = Some s' /\ sd_reach s' /\ (sd_full s' = true -> exists m, sd_slope s' = Some m).
Proof.
  intros (h & E). destruct (C46_available (h ++ [x])) as (s' & E' & A & B). exists s'. split; [|split].
  - unfold recorded in *. rewrite foldM_app, E in E'. cbn [obind foldM] in E'. destruct (sd_push s x); cbn in E'; congruence.
  - exists (h ++ [x]). auto.
  - intros F. apply B, A, F.
Qed.
(** one step: succeeds, and migrates exactly when it returns 0 *)
Lemma step_ok dim tol b : sd_reach (b_sd b) -> exists rc b', runStep dim tol b = Some (rc, b') /\ sd_reach (b_sd b') /\ b_dims b' = b_dims b /\ b_ws b' = b_ws b /\
  b_moves b' = b_moves b ++ (if Z.eqb rc 0 then [dim] else []).
Proof.
  intros R. unfold BalanceModel.runStep. destruct (qlt (imbalance (b_world b) dim) tol).
  { exists 1%Z, b. cbn. rewrite app_nil_r. auto. }
  destruct (push_reach (b_sd b) (imbalance (b_world b) dim) R) as (s & -> & RS & SL). cbn [obind].
  assert (E : exists stop, (if sd_full s then m <- sd_slope s ;; Some (qlt 0%Q m) else Some false) = Some stop) by (destruct (sd_full s); [destruct (SL eq_refl) as (m & ->); cbn; eauto|eauto]). destruct E as (stop & ->). cbn [obind].
  destruct stop; [eexists 2%Z, _; cbn; rewrite app_nil_r; eauto 8|]. destruct (planned (b_world b) dim (b_dims b) (b_ws b)) as [n w']. destruct (0 <? n); [eexists 0%Z, _|eexists 3%Z, _]; cbn; rewrite ?app_nil_r; eauto 8.
Qed.
(** one criterion: k migrations *)
Lemma diffuse_ok cfg dim tol : forall fuel inner step b, sd_reach (b_sd b) -> (0 <= inner)%Z -> Z.to_nat (c_per cfg - inner) < fuel ->
  exists rc i' st' b' k, diffuse fuel cfg dim tol inner step b = Some (rc, i', st', b') /\ sd_reach (b_sd b') /\ b_dims b' = b_dims b /\ b_ws b' = b_ws b /\ b_moves b' = b_moves b ++ repeat dim k /\
    (Z.of_nat k <= Z.max 0 (c_per cfg - inner) + 1)%Z /\ (step <= st')%Z /\ (Z.of_nat k <= st' - step + 1)%Z /\ (step + Z.of_nat k <= Z.max step (c_max cfg) + 1)%Z /\ (st' <= step + Z.of_nat k)%Z.
Proof.
  induction fuel as [|f IH]; intros inner step b R I F; [lia|]. cbn [BalanceModel.diffuse]. destruct (step_ok dim tol b R) as (rc & b1 & E & R1 & D1 & W1 & M1). rewrite E. cbn [obind].
  destruct (Z.eqb_spec rc 0) as [->|N].
  - destruct (Z.ltb_spec inner (c_per cfg)) as [P|P]; [destruct (Z.ltb_spec step (c_max cfg)) as [Q|Q]|].
    + destruct (IH (inner + 1)%Z (step + 1)%Z b1 R1) as (rc & i' & st' & b' & k & E' & R' & D' & W' & M' & B1 & B2 & B3 & B4 & B5); [lia|lia|].
      exists rc, i', st', b', (S k). rewrite E'. split; auto. split; auto. split; [congruence|]. split; [congruence|]. split; [rewrite M', M1, <- app_assoc; reflexivity|]. repeat split; lia.
    + eexists 0%Z, _, _, b1, 1. split; [reflexivity|]. rewrite M1. cbn [repeat]. repeat split; auto; try lia.
    + eexists 0%Z, _, _, b1, 1. split; [reflexivity|]. rewrite M1. cbn [repeat]. repeat split; auto; try lia.
  - exists rc, inner, step, b1, 0. split; auto. rewrite M1. cbn [repeat]. repeat split; auto; try lia.
Qed.
Lemma phase_ok cfg ifuel index step b dim : nth_error (c_prio cfg) index = Some dim -> Z.to_nat (c_per cfg) < ifuel ->
  exists st' b' k w, phase ifuel cfg index step b = Some (st', b') /\ b_dims b' = b_dims b ++ [dim] /\ b_ws b' = b_ws b ++ [w] /\ b_moves b' = b_moves b ++ repeat dim k /\
    (Z.of_nat k <= Z.max 0 (c_per cfg) + 1)%Z /\ (step <= st')%Z /\ (Z.of_nat k <= st' - step + 1)%Z /\ (step + Z.of_nat k <= Z.max step (c_max cfg) + 1)%Z /\ (st' <= step + Z.of_nat k)%Z.
Proof.
  intros E F. unfold BalanceModel.phase. rewrite E. cbn [obind].
  destruct (diffuse_ok cfg dim (match nth_error (c_tols cfg) index with Some t => t | None => (11 # 10)%Q end) ifuel 0%Z step
    (mkB (if c_pwb cfg then prepare (b_world b) dim (match nth_error (c_tols cfg) index with Some t => t | None => (11 # 10)%Q end) else b_world b) sd_new (b_dims b) (b_ws b) (b_moves b)))
    as (rc & i' & st' & b' & k & E' & R' & D' & W' & M' & B1 & B2 & B3 & B4 & B5); [exists []; reflexivity|lia|rewrite Z.sub_0_r; auto|].
  rewrite E'. cbn [obind]. eexists st', _, k, _. split; [reflexivity|]. cbn [b_dims b_ws b_moves]. rewrite D', W', M'. cbn [b_dims b_ws b_moves]. rewrite Z.sub_0_r in B1. repeat split; auto.
Qed.
(** the criteria treated, each with its number of migrations *)
Definition moves_of (l : list (Z * nat)) : list Z := flat_map (fun p => repeat (fst p) (snd p)) l.
Definition nmoves (l : list (Z * nat)) : Z := Z.of_nat (length (moves_of l)).
Lemma phases_ok cfg ifuel : Z.to_nat (c_per cfg) < ifuel -> forall fuel index step b, index < length (c_prio cfg) -> length (c_prio cfg) <= index + fuel ->
  exists st' b' l ws, phases fuel ifuel cfg index step b = Some (st', b') /\ l <> [] /\ b_moves b' = b_moves b ++ moves_of l /\ b_dims b' = b_dims b ++ map fst l /\ b_ws b' = b_ws b ++ ws /\ length ws = length l /\
    map fst l = firstn (length l) (skipn index (c_prio cfg)) /\ (forall d k, In (d, k) l -> (Z.of_nat k <= Z.max 0 (c_per cfg) + 1)%Z) /\
    (step + nmoves l <= Z.max step (c_max cfg) + Z.of_nat (length l))%Z /\
    ((index + length l < length (c_prio cfg)) -> (c_max cfg <= st')%Z) /\ (st' <= step + nmoves l)%Z.
Proof.
  intros IF. induction fuel as [|f IH]; intros index step b LI LF; [lia|]. cbn [BalanceModel.phases].
  destruct (nth_error (c_prio cfg) index) as [dim|] eqn:ED; [|apply nth_error_None in ED; lia].
  destruct (phase_ok cfg ifuel index step b dim ED IF) as (st1 & b1 & k & w & E & D & Wt & M & B1 & B2 & B3 & B4 & B5). rewrite E. cbn [obind].
  assert (SK : skipn index (c_prio cfg) = dim :: skipn (S index) (c_prio cfg)). { clear - ED. revert index ED. generalize (c_prio cfg). induction l as [|x l IH]; intros [|i] H; cbn in *; try discriminate; [congruence|auto]. }
  destruct (Nat.ltb_spec (S index) (length (c_prio cfg))) as [LS|GS]; cbn [andb].
  - destruct (Z.ltb_spec st1 (c_max cfg)) as [LM|GM].
    + destruct (IH (S index) st1 b1 LS) as (st' & b' & l & ws & E' & NE & M' & D' & W' & LW & PF & PB & TB & LEFT & CT); [lia|].
      exists st', b', ((dim, k) :: l), (w :: ws). rewrite E'. split; auto. split; [discriminate|]. split; [rewrite M', M, <- app_assoc; reflexivity|]. split; [rewrite D', D, <- app_assoc; reflexivity|]. split; [rewrite W', Wt, <- app_assoc; reflexivity|].
      split; [cbn [length]; lia|]. split; [cbn [map fst length]; rewrite SK; cbn [firstn]; congruence|]. split; [intros d n [H|H]; [inversion H; subst; auto|eauto]|].
      assert (NM : nmoves ((dim, k) :: l) = (Z.of_nat k + nmoves l)%Z) by (unfold nmoves; cbn [moves_of flat_map fst snd]; rewrite app_length, repeat_length; unfold moves_of; lia).
      rewrite NM. cbn [length]. split; [lia|]. split; [intros H; apply LEFT; lia|lia].
    + exists st1, b1, [(dim, k)], [w]. split; auto. split; [discriminate|]. cbn [moves_of flat_map fst snd map length]. rewrite app_nil_r, SK. repeat split; auto; [intros d n [H|[]]; inversion H; subst; auto| |]; unfold nmoves; cbn [moves_of flat_map fst snd]; rewrite app_nil_r, repeat_length; lia.
  - exists st1, b1, [(dim, k)], [w]. split; auto. split; [discriminate|]. cbn [moves_of flat_map fst snd map length]. rewrite app_nil_r, SK. repeat split; auto; [intros d n [H|[]]; inversion H; subst; auto| |lia|]; unfold nmoves; cbn [moves_of flat_map fst snd]; rewrite app_nil_r, repeat_length; lia.
Qed.
Lemma weight_ok maxit tol : forall fuel step b, sd_reach (b_sd b) -> Z.to_nat (maxit - step) < fuel ->
  exists st' b' k, weight_loop imbalance planned fuel maxit tol step b = Some (st', b') /\ b_moves b' = b_moves b ++ repeat (-1)%Z k /\ (Z.of_nat k <= Z.max 0 (maxit - step))%Z.
Proof.
  induction fuel as [|f IH]; intros step b R F; [lia|]. cbn [BalanceModel.weight_loop]. destruct (Z.ltb_spec step maxit) as [L|G].
  - destruct (step_ok (-1)%Z tol b R) as (rc & b1 & E & R1 & D1 & W1 & M1). rewrite E. cbn [obind]. destruct (Z.eqb_spec rc 0) as [->|N].
    + destruct (IH (step + 1)%Z b1 R1) as (st' & b' & k & E' & M' & B); [lia|]. exists st', b', (S k). rewrite E'. split; auto. split; [rewrite M', M1, <- app_assoc; reflexivity|lia].
    + eexists _, b1, 0. split; [reflexivity|]. rewrite M1. split; auto. lia.
  - eexists _, b, 0. split; [reflexivity|]. rewrite app_nil_r. split; auto. lia.
Qed.
End B.

(** ** C45 *)
(** [treated] lists the criteria that were worked on with the number of migrations each took.
    For every behaviour of the steps and every configuration with at least one criterion, balance ends; the criteria are a prefix of the
    priority list, in order; each takes at most max_iterations_per_type + 1 migrations, all of them together at most max_iterations plus
    one per criterion; and a criterion is skipped only when max_iterations migrations have been made. *)
Theorem C45_balance : forall W (imbalance : W -> Z -> Q) (planned : W -> Z -> list Z -> list Q -> nat * W) (max_weight avg_weight : W -> Z -> Q) (prepare : W -> Z -> Q -> W) cfg peers w fuel,
  peers <> 1%Z -> c_prio cfg <> [] -> Z.to_nat (c_per cfg) < fuel -> length (c_prio cfg) <= fuel ->
  exists steps b treated, balance imbalance planned max_weight avg_weight prepare fuel peers cfg w = Some (steps, b) /\
    b_moves b = flat_map (fun p => repeat (fst p) (snd p)) treated /\ b_dims b = map fst treated /\ length (b_ws b) = length treated /\
    map fst treated = firstn (length treated) (c_prio cfg) /\ treated <> [] /\
    (forall d k, In (d, k) treated -> (Z.of_nat k <= Z.max 0 (c_per cfg) + 1)%Z) /\
    (Z.of_nat (length (b_moves b)) <= Z.max 0 (c_max cfg) + Z.of_nat (length treated))%Z /\
    (length treated < length (c_prio cfg) -> (c_max cfg <= Z.of_nat (length (b_moves b)))%Z).
Proof.
  intros W imb pl mw aw pre cfg peers w fuel P NE F1 F2. unfold balance. destruct (Z.eqb_spec peers 1); [contradiction|].
  destruct (phases_ok imb pl mw aw pre cfg fuel F1 fuel 0 0%Z (mkB w sd_new [] [] [])) as (st & b & l & ws & E & NL & M & D & Ws & LW & PF & PB & TB & LEFT & CT); [destruct (c_prio cfg); [congruence|cbn; lia]|lia|].
  exists st, b, l. cbn [b_moves b_dims b_ws app] in *. split; auto. split; auto. split; auto. split; [congruence|]. split; auto. split; auto. split; auto. rewrite M. unfold nmoves in *. split; [lia|]. intros H. specialize (LEFT H). lia.
Qed.
Print Assumptions C45_balance.
(** The limit recorded for each treated criterion is the larger of the largest part weight reached and the target weight (tolerance times average):
    a criterion balanced earlier is never asked to be better than it was left, nor better than its tolerance. *)
Theorem C45_limits : forall W (imbalance : W -> Z -> Q) (planned : W -> Z -> list Z -> list Q -> nat * W) (max_weight avg_weight : W -> Z -> Q) (prepare : W -> Z -> Q -> W) cfg peers w fuel steps b,
  balance imbalance planned max_weight avg_weight prepare fuel peers cfg w = Some (steps, b) ->
  forall i x, nth_error (b_ws b) i = Some x -> exists w' d, nth_error (c_prio cfg) i = Some d /\
    let tol := match nth_error (c_tols cfg) i with Some t => t | None => (11 # 10)%Q end in
    (max_weight w' d <= x)%Q /\ (avg_weight w' d * tol <= x)%Q /\ (x = max_weight w' d \/ x = (avg_weight w' d * tol)%Q) /\ (S i = length (b_ws b) -> w' = b_world b).
Proof.
  intros W imb pl mw aw pre cfg peers w fuel steps b H. unfold balance in H. destruct (Z.eqb peers 1); [inversion H; subst; cbn; intros [|i] x N; discriminate|].
  set (ok := fun (b : bstate W) i x => exists w' d, nth_error (c_prio cfg) i = Some d /\
    let tol := match nth_error (c_tols cfg) i with Some t => t | None => (11 # 10)%Q end in
    (mw w' d <= x)%Q /\ (aw w' d * tol <= x)%Q /\ (x = mw w' d \/ x = (aw w' d * tol)%Q) /\ (S i = length (b_ws b) -> w' = b_world b)).
  assert (DF : forall n dim tol inner step (b0 : bstate W) r1 r2 r3 b1, diffuse imb pl n cfg dim tol inner step b0 = Some (r1, r2, r3, b1) -> b_ws b1 = b_ws b0).
  { clear. induction n as [|n IH]; intros dim tol inner step b0 r1 r2 r3 b1 H; cbn [diffuse] in H; [discriminate|].
    destruct (runStep imb pl dim tol b0) as [[rc b']|] eqn:E; [|discriminate]. cbn [obind] in H.
    assert (W1 : b_ws b' = b_ws b0).
    { unfold runStep in E. destruct (qlt _ _); [inversion E; reflexivity|]. destruct (sd_push _ _); [|discriminate]. cbn [obind] in E. destruct (if sd_full s then _ else _) as [[|]|]; cbn [obind] in E; try discriminate; [inversion E; reflexivity|].
      destruct (pl _ _ _ _) as [k w']. destruct (0 <? k); inversion E; reflexivity. }
    destruct (Z.eqb rc 0); [|inversion H; subst; auto]. destruct (inner <? c_per cfg)%Z; [|inversion H; subst; auto]. destruct (step <? c_max cfg)%Z; [|inversion H; subst; auto]. rewrite <- W1. eapply IH; eauto. }
  assert (G : forall n index step (b0 : bstate W) st b1, length (b_ws b0) = index -> (forall i x, nth_error (b_ws b0) i = Some x -> ok b0 i x) -> phases imb pl mw aw pre n fuel cfg index step b0 = Some (st, b1) ->
     forall i x, nth_error (b_ws b1) i = Some x -> ok b1 i x).
  { induction n as [|n IH]; intros index step b0 st b1 L K E; cbn [phases] in E; [discriminate|].
    destruct (phase imb pl mw aw pre fuel cfg index step b0) as [[step' b']|] eqn:P; [|discriminate]. cbn [obind] in E.
    assert (X : length (b_ws b') = S index /\ forall i x, nth_error (b_ws b') i = Some x -> ok b' i x).
    { unfold phase in P. destruct (nth_error (c_prio cfg) index) as [d|] eqn:Ed; [|discriminate]. cbn [obind] in P. destruct (diffuse _ _ _ _ _ _ _ _ _) as [[[[r1 r2] r3] b2]|] eqn:D; [|discriminate]. cbn [obind] in P. apply DF in D. cbn [b_ws] in D.
      inversion P; subst; clear P. cbn [b_ws]. rewrite app_length, D. cbn [length]. split; [lia|]. intros i x N. destruct (Nat.lt_ge_cases i (length (b_ws b0))) as [Lt|Ge].
      - rewrite nth_error_app1 in N by auto. destruct (K i x N) as (w' & d' & A & B1 & B2 & B3 & _). exists w', d'. split; auto. split; auto. split; auto. split; auto. cbn [b_ws]. rewrite app_length. cbn [length]. lia.
      - rewrite nth_error_app2 in N by auto. destruct (i - length (b_ws b0)) as [|k] eqn:Ei; [|destruct k; discriminate]. cbn in N. assert (i = length (b_ws b0)) by lia. subst i. exists (b_world b2), d. split; auto. cbv zeta.
        set (t := match nth_error (c_tols cfg) (length (b_ws b0)) with Some t => t | None => (11 # 10)%Q end) in *. inversion N; subst x. unfold qlt. destruct (Qcompare_spec (mw (b_world b2) d) (aw (b_world b2) d * t)) as [Q|Q|Q].
        + split; [apply Qle_refl|]. split; [rewrite Q; apply Qle_refl|]. split; auto.
        + split; [now apply Qlt_le_weak|]. split; [apply Qle_refl|]. split; auto.
        + split; [apply Qle_refl|]. split; [now apply Qlt_le_weak|]. split; auto. }
    destruct X as (LX & X). destruct (_ && _); [eapply IH; eauto|inversion E; subst; auto]. }
  intros i x N. eapply (G fuel 0 0%Z (mkB w sd_new [] [] [])); eauto. cbn. intros [|k] y M; discriminate.
Qed.
Print Assumptions C45_limits.
(** The weight balancer makes at most max_iterations migrations. *)
Theorem C45_weight_balance : forall W (imbalance : W -> Z -> Q) (planned : W -> Z -> list Z -> list Q -> nat * W) peers maxit tol w fuel, Z.to_nat maxit < fuel ->
  exists steps b, balance_weights imbalance planned fuel peers maxit tol w = Some (steps, b) /\ (Z.of_nat (length (b_moves b)) <= Z.max 0 maxit)%Z.
Proof.
  intros W imb pl peers maxit tol w fuel F. unfold balance_weights. destruct (Z.eqb peers 1); [eexists _, _; split; [reflexivity|cbn; lia]|].
  destruct (weight_ok imb pl maxit tol fuel 0%Z (mkB w sd_new [] [] [])) as (st & b & k & E & M & B); [exists []; reflexivity|rewrite Z.sub_0_r; auto|].
  exists st, b. split; auto. rewrite M. cbn [b_moves app]. rewrite repeat_length. lia.
Qed.
Print Assumptions C45_weight_balance.
(** In serial nothing happens. *)
Theorem C45_serial : forall W (imbalance : W -> Z -> Q) (planned : W -> Z -> list Z -> list Q -> nat * W) (max_weight avg_weight : W -> Z -> Q) (prepare : W -> Z -> Q -> W) cfg w fuel,
  exists b, balance imbalance planned max_weight avg_weight prepare fuel 1 cfg w = Some (0%Z, b) /\ b_world b = w /\ b_moves b = [].
Proof. intros. eexists. split; [reflexivity|]. auto. Qed.
Print Assumptions C45_serial.

(** The documented limits are not limits: a step is run before the counters are looked at.  A world whose imbalance falls by one with every
    migration and never comes within the tolerance: with max_iterations = 4 and max_iterations_per_type = 2, two criteria, 6 migrations are made, 3 for each criterion. *)
Definition sink_imb (n : nat) (_ : Z) : Q := inject_Z (100 - Z.of_nat n).
Definition sink_plan (n : nat) (_ : Z) (_ : list Z) (_ : list Q) : nat * nat := (1, S n).
Definition sink_cfg : config := mkCfg [-1; 0]%Z [] 4 2 false.
Theorem C45_limit_refuted : exists steps b, balance sink_imb sink_plan (fun _ _ => 0%Q) (fun _ _ => 0%Q) (fun w _ _ => w) 20 2 sink_cfg 0 = Some (steps, b) /\
  b_moves b = [-1; -1; -1; 0; 0; 0]%Z /\ (Z.of_nat (length (b_moves b)) > c_max sink_cfg)%Z /\ (c_per sink_cfg < 3)%Z.
Proof. eexists _, _. split; [vm_compute; reflexivity|]. vm_compute. auto. Qed.
Print Assumptions C45_limit_refuted.
(** With max_iterations = 0 a migration is made all the same. *)
Theorem C45_zero_refuted : exists steps b, balance sink_imb sink_plan (fun _ _ => 0%Q) (fun _ _ => 0%Q) (fun w _ _ => w) 20 2 (mkCfg [0]%Z [] 0 0 false) 0 = Some (steps, b) /\ b_moves b = [0]%Z.
Proof. eexists _, _. split; [vm_compute; reflexivity|]. reflexivity. Qed.
Print Assumptions C45_zero_refuted.
(** An empty list of priorities is read out of bounds. *)
Theorem C45_no_priorities_refuted : forall W (imbalance : W -> Z -> Q) (planned : W -> Z -> list Z -> list Q -> nat * W) (max_weight avg_weight : W -> Z -> Q) (prepare : W -> Z -> Q -> W) tols mx per pwb peers w fuel,
  peers <> 1%Z -> balance imbalance planned max_weight avg_weight prepare fuel peers (mkCfg [] tols mx per pwb) w = None.
Proof. intros. unfold balance. destruct (Z.eqb_spec peers 1); [contradiction|]. destruct fuel; reflexivity. Qed.
Print Assumptions C45_no_priorities_refuted.
