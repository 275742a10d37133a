(** C73: the weights EnGPar adds, compares and grants, in machine doubles. *)
From Coq Require Import Reals Lra Psatz Qreals.
From Flocq Require Import Core BinarySingleNaN.
From Verif Require Import Base GraphModel Comm TagModel ConnModel MetricsModel GraphSpec.
From Verif Require Import FloatModel FloatSpec FloatProofs FloatProofs2 FloatProofs3 FloatProofs4.
Local Open Scope R_scope.

(** ** The weight of a part *)
Lemma rsum_fv g gw dim cg fuel ns (fv : Z -> b64) (val : Z -> Q) : wnames g gw dim cg fuel = Some ns -> (forall x, stored_weight g gw x -> value (fv x) = Q2R (val x)) ->
  rsum (vals (map fv ns)) = Q2R (fold_left Qplus (map val ns) 0%Q).
Proof.
  intros W H. rewrite qfold. replace (Q2R 0) with 0 by (unfold Q2R; cbn; lra). rewrite Rplus_0_l. f_equal. unfold vals. rewrite !map_map. apply map_ext_in. intros x I. apply H. eapply wnames_stored; eauto.
Qed.
(** whole-number weights of total below 2^53: the machine computes the exact weight *)
Theorem C73_weight_whole : forall fv n g gw dim cg fuel w,
  (forall x, stored_weight g gw x -> (0 <= n x)%Z /\ whole (fv x) (n x)) ->
  getWeight (fun x => inject_Z (n x)) g gw dim cg fuel = Some w -> Q2R w < IZR (2 ^ 53) ->
  exists f, getWeight_f fv g gw dim cg fuel = Some f /\ fin f = true /\ value f = Q2R w.
Proof.
  intros fv n g gw dim cg fuel w HW HG HT. rewrite getWeight_names in HG. rewrite getWeight_f_names. destruct (wnames g gw dim cg fuel) as [ns|] eqn:E; cbn [option_map] in *; [|discriminate]. inversion HG; subst w. clear HG.
  assert (S0 : Q2R (fold_left Qplus (map (fun x => inject_Z (n x)) ns) 0%Q) = IZR (zsum (map n ns))).
  { rewrite qfold. replace (Q2R 0) with 0 by (unfold Q2R; cbn; lra). rewrite Rplus_0_l, map_map, <- rsum_z, map_map. f_equal. apply map_ext. intros x. apply Q2R_Z. }
  rewrite S0 in *. eexists. split; [reflexivity|]. assert (N : Forall2 whole (map fv ns) (map n ns) /\ map Z.abs (map n ns) = map n ns).
  { assert (G : forall x, In x ns -> stored_weight g gw x) by (intros x I; eapply wnames_stored; eauto). clear E S0 HT. induction ns as [|x ns IH]; cbn [map]; [split; constructor|]. destruct (HW x (G x (or_introl eq_refl))) as (P & Wx). destruct IH as (I1 & I2); [intros y I; apply G; now right|].
    split; [constructor; auto|]. f_equal; auto. now apply Z.abs_eq. }
  destruct N as (N1 & N2). apply fsum_whole; auto. rewrite N2. now apply lt_IZR.
Qed.
Print Assumptions C73_weight_whole.

(** any non-negative weights: the relative error after k additions is at most (1+2^-53)^k - 1, and there is no overflow when the weight leaves that much room *)
Theorem C73_weight_error : forall fv val g gw dim cg fuel w k,
  (forall x, stored_weight g gw x -> ok (fv x) /\ value (fv x) = Q2R (val x)) ->
  getWeight val g gw dim cg fuel = Some w -> weight_count g dim cg fuel = Some k ->
  exists f, getWeight_f fv g gw dim cg fuel = Some f /\ ((1 + u) ^ k * Q2R w < top -> fin f = true) /\
    (fin f = true -> (1 - u) ^ k * Q2R w <= value f <= (1 + u) ^ k * Q2R w).
Proof.
  intros fv val g gw dim cg fuel w k HW HG HK. rewrite getWeight_names in HG. rewrite getWeight_f_names. destruct (wnames g gw dim cg fuel) as [ns|] eqn:E; cbn [option_map] in *; [|discriminate]. inversion HG; subst w.
  rewrite (wnames_count _ _ _ _ _ _ E) in HK. inversion HK; subst k. rewrite <- (rsum_fv _ _ _ _ _ _ fv val E) by apply HW. eexists. split; [reflexivity|].
  assert (O : Forall ok (map fv ns)) by (apply Forall_forall; intros y I; apply in_map_iff in I; destruct I as (x & <- & I); apply HW; eapply wnames_stored; eauto).
  assert (O1 : Forall (fun x => fin x = true) (map fv ns)) by (eapply Forall_impl; [|exact O]; intros y Y; apply Y).
  assert (O2 : Forall (fun x => 0 <= x) (vals (map fv ns))) by (unfold vals; rewrite Forall_map; eapply Forall_impl; [|exact O]; intros y Y; apply Y).
  split; intros H; [apply fsum_finite; auto; now rewrite map_length|]. pose proof (fsum_bound _ O2 H) as B. now rewrite map_length in B.
Qed.
Print Assumptions C73_weight_error.

(** ** Sums over the processes: every order and bracketing *)
Theorem C73_reduce_whole : forall xs ns t, Forall2 whole xs ns -> (zsum (map Z.abs ns) < 2 ^ 53)%Z -> Permutation (leaves t) xs -> whole (reduced t) (zsum ns).
Proof.
  intros xs ns t HW HS HP. assert (X : exists ns', Forall2 whole (leaves t) ns' /\ Permutation ns' ns).
  { clear HS. apply Permutation_sym in HP. revert ns HW. induction HP as [|x a b P IH|x y a|a b c P1 IH1 P2 IH2]; intros ns HW.
    - inversion HW; subst. exists []. split; constructor.
    - inversion HW as [|? n ? ns0 W W2]; subst. destruct (IH _ W2) as (m & M1 & M2). exists (n :: m). split; [constructor; auto|now apply perm_skip].
    - inversion HW as [|? n ? ns0 W W2]; subst. inversion W2 as [|? n' ? ns1 W' W3]; subst. exists (n' :: n :: ns1). split; [constructor; [exact W'|constructor; [exact W|exact W3]]|apply perm_swap].
    - destruct (IH1 _ HW) as (m & M1 & M2). destruct (IH2 _ M1) as (m' & M1' & M2'). exists m'. split; auto. etransitivity; eauto. }
  destruct X as (ns' & W & P). assert (Z1 : zsum ns' = zsum ns) by (unfold zsum; clear - P; induction P; cbn [fold_right]; lia).
  assert (Z2 : zsum (map Z.abs ns') = zsum (map Z.abs ns)) by (apply (Permutation_map Z.abs) in P; unfold zsum; clear - P; induction P; cbn [fold_right]; lia).
  rewrite <- Z1. apply reduced_whole; auto. now rewrite Z2.
Qed.
Print Assumptions C73_reduce_whole.
Theorem C73_reduce_error : forall xs t, Forall ok xs -> Permutation (leaves t) xs -> let k := (length xs - 1)%nat in
  ((1 + u) ^ k * rsum (vals xs) < top -> fin (reduced t) = true) /\
  (fin (reduced t) = true -> (1 - u) ^ k * rsum (vals xs) <= value (reduced t) <= (1 + u) ^ k * rsum (vals xs)).
Proof.
  intros xs t HO HP. cbv zeta. assert (E : rsum (vals (leaves t)) = rsum (vals xs)) by (apply rsum_perm, Permutation_map, HP). rewrite <- (Permutation_length HP), <- E.
  assert (O : Forall ok (leaves t)) by (eapply Permutation_Forall; [apply Permutation_sym; exact HP|exact HO]).
  assert (O1 : Forall (fun x => fin x = true) (leaves t)) by (eapply Forall_impl; [|exact O]; intros y Y; apply Y).
  assert (O2 : Forall (fun x => 0 <= x) (vals (leaves t))) by (unfold vals; rewrite Forall_map; eapply Forall_impl; [|exact O]; intros y Y; apply Y).
  split; intros H; [now apply reduced_finite|]. now apply reduced_bound.
Qed.
Print Assumptions C73_reduce_error.
(** 0.1, 0.2 and 0.3, the doubles nearest to them *)
Definition dbl (m e : Z) : b64 := @binary_normalize 53 1024 hprec hmax mode_NE m e false.
Definition tenth : b64 := dbl 3602879701896397 (-55).
Definition fifth : b64 := dbl 3602879701896397 (-54).
Definition three_tenths : b64 := dbl 5404319552844595 (-54).
(** in general the sum depends on the order: the processes may not agree with a later run on the total of the same weights *)
Theorem C73_order_refuted : exists xs t t', Forall ok xs /\ leaves t = xs /\ Permutation (leaves t') xs /\ flt (reduced t') (reduced t) = true.
Proof.
  exists [tenth; fifth; three_tenths], (Add (Add (Val tenth) (Val fifth)) (Val three_tenths)), (Add (Add (Val three_tenths) (Val fifth)) (Val tenth)).
  assert (O : forall m e, (0 <= m)%Z -> fin (dbl m e) = true -> flt (dbl m e) f0 = false -> ok (dbl m e)).
  { intros m e H F L. split; auto. rewrite (flt_ok _ f0 F (eq_refl : fin f0 = true)), value_f0 in L. destruct (Rlt_bool_spec (value (dbl m e)) 0); [discriminate|lra]. }
  split; [repeat (apply Forall_cons; [apply O; [lia|vm_compute; reflexivity|vm_compute; reflexivity]|]); apply Forall_nil|]. split; [reflexivity|]. split; [|vm_compute; reflexivity].
  cbn [leaves app]. eapply perm_trans; [apply perm_swap|]. eapply perm_trans; [apply perm_skip, perm_swap|]. apply perm_swap.
Qed.
Print Assumptions C73_order_refuted.

Lemma zsum_ge0 l : Forall (fun n => 0 <= n)%Z l -> (0 <= zsum l)%Z.
Proof. unfold zsum. induction 1; cbn [fold_right]; lia. Qed.
(** ** The imbalance: max / (total / processes) *)
Theorem C73_imbalance_whole : forall xs ns t, Forall2 whole xs ns -> Forall (fun n => 0 <= n)%Z ns -> (0 < zsum ns < 2 ^ 53)%Z -> (Z.of_nat (length xs) < 2 ^ 53)%Z -> Permutation (leaves t) xs ->
  exists m, In m ns /\ (forall n, In n ns -> (n <= m)%Z) /\
    let exact := IZR m * INR (length xs) / IZR (zsum ns) in
    fin (imbalance_f xs t) = true /\ 1 <= value (imbalance_f xs t) /\ exact * ((1 - u) / (1 + u)) <= value (imbalance_f xs t) <= exact * ((1 + u) / (1 - u)).
Proof.
  intros xs ns t HW HN HT HL HP. assert (Ab : map Z.abs ns = ns) by (clear - HN; induction HN; cbn [map]; auto; f_equal; auto; now apply Z.abs_eq).
  destruct (C73_reduce_whole xs ns t HW) as (FR & VR); [rewrite Ab; lia|auto|].
  assert (NE : xs <> []) by (intros ->; inversion HW; subst; cbn in HT; lia). assert (FX : Forall (fun y => fin y = true) xs) by (clear - HW; induction HW as [|x n xs ns (F & _) _ IH]; constructor; auto).
  destruct (all_max_ok_f xs NE FX) as (IM & LM). set (mx := all_max_f xs) in *.
  assert (IN : forall y, In y xs -> exists n, In n ns /\ value y = IZR n /\ fin y = true).
  { clear - HW. induction HW as [|x n xs ns (F & V) _ IH]; [intros ? []|]. intros y [<-|I]; [exists n; cbn; auto|]. destruct (IH y I) as (k & K & E). exists k. cbn. auto. }
  assert (NI : forall n, In n ns -> exists y, In y xs /\ value y = IZR n).
  { clear - HW. induction HW as [|x n xs ns (F & V) _ IH]; [intros ? []|]. intros k [<-|I]; [exists x; cbn; auto|]. destruct (IH k I) as (y & K & E). exists y. cbn. auto. }
  destruct (IN mx IM) as (m & Im & Vm & Fm). exists m. split; auto. split; [intros n I; destruct (NI n I) as (y & Iy & Vy); apply le_IZR; rewrite <- Vy, <- Vm; auto|].
  set (P := length xs) in *. assert (LP : (0 < Z.of_nat P)%Z) by (unfold P; destruct xs; [congruence|cbn; lia]). assert (LN : length ns = P) by (unfold P; clear - HW; induction HW; cbn; auto).
  assert (MT : (zsum ns <= m * Z.of_nat P)%Z).
  { rewrite <- LN. assert (G : forall n, In n ns -> (n <= m)%Z) by (intros n I; destruct (NI n I) as (y & Iy & Vy); apply le_IZR; rewrite <- Vy, <- Vm; auto). clear - G. unfold zsum. induction ns as [|n ns IH]; cbn [fold_right length]; [lia|]. pose proof (G n (or_introl eq_refl)). assert (fold_right Z.add 0%Z ns <= m * Z.of_nat (length ns))%Z by (apply IH; intros k I; apply G; now right). lia. }
  assert (M0 : (0 < m)%Z) by nia.
  destruct (of_int_ok (Z.of_nat P)) as (VP & FP); [lia|]. rewrite <- INR_IZR_INZ in VP. set (RP := INR P) in *. assert (RP0 : 0 < RP) by (unfold RP; rewrite INR_IZR_INZ; apply IZR_lt; lia).
  set (T := IZR (zsum ns)) in *. assert (T0 : 1 <= T) by (unfold T; apply IZR_le; lia). set (M := IZR m) in *. assert (M1 : 1 <= M) by (unfold M; apply IZR_le; lia).
  assert (TM : T / RP <= M). { unfold T, M, RP. apply Rmult_le_reg_r with RP; auto. unfold Rdiv. rewrite Rmult_assoc, Rinv_l, Rmult_1_r by (unfold RP in *; lra). unfold RP. rewrite INR_IZR_INZ, <- mult_IZR. apply IZR_le. lia. }
  assert (RPb : RP < IZR (2 ^ 53)) by (unfold RP; rewrite INR_IZR_INZ; apply IZR_lt; lia). assert (Tb : T < IZR (2 ^ 53)) by (unfold T; apply IZR_lt; lia).
  assert (Q0 : / IZR (2 ^ 53) <= T / RP). { unfold Rdiv. rewrite <- (Rmult_1_l (/ IZR (2 ^ 53))). apply Rmult_le_compat; [lra|left; apply Rinv_0_lt_compat; apply IZR_lt; reflexivity|auto|]. apply Rinv_le; lra. }
  fold u in Q0. pose proof u_pos as U0. pose proof u_small as U1. assert (Qp : 0 < T / RP) by lra.
  assert (Nm : bpow radix2 (-1022) <= u) by (unfold u; change (/ IZR (2^53)) with (bpow radix2 (-53)); apply bpow_le; lia).
  (* the average *)
  destruct (fmul_1 (reduced t) FR) as (V1 & F1). destruct (rel_err (T / RP)) as (e1 & B1 & E1); [rewrite Rabs_pos_eq by lra; lra|].
  assert (A1 : rnd (T / RP) <= M) by (apply rnd_le_fmt; [rewrite <- Vm; apply fmt_value|auto]). assert (A0 : u <= rnd (T / RP)) by (apply rnd_ge_fmt; [change u with (bpow radix2 (-53)); apply generic_format_bpow; cbn; lia|auto]).
  assert (VA : value (avg_f P t) = rnd (T / RP) /\ fin (avg_f P t) = true).
  { unfold avg_f. assert (X : value (fmul (reduced t) (of_int 1)) / value (of_int (Z.of_nat P)) = T / RP) by now rewrite V1, VR, VP. destruct (fdiv_ok (fmul (reduced t) (of_int 1)) (of_int (Z.of_nat P)) F1) as (V & F).
    - rewrite VP. lra.
    - rewrite X, Rabs_pos_eq by lra. eapply Rle_lt_trans; [exact A1|]. rewrite <- Vm. eapply Rle_lt_trans; [apply Rle_abs|apply value_lt_top].
    - rewrite X in V. auto. }
  destruct VA as (VA & FA). destruct (fmul_1 mx Fm) as (V2 & F2). rewrite Vm in V2. set (A := rnd (T / RP)) in *. assert (Ap : 0 < A) by lra.
  assert (G1 : 1 <= M / A). { apply Rmult_le_reg_r with A; auto. unfold Rdiv. rewrite Rmult_assoc, Rinv_l by lra. lra. }
  assert (Nm1 : bpow radix2 (-1022) <= 1) by (change 1 with (bpow radix2 0); apply bpow_le; lia).
  destruct (rel_err (M / A)) as (e2 & B2 & E2); [rewrite Rabs_pos_eq by lra; lra|].
  assert (X : value (fmul mx (of_int 1)) / value (avg_f P t) = M / A) by now rewrite V2, VA. destruct (fdiv_ok (fmul mx (of_int 1)) (avg_f P t) F2) as (V & F).
  { rewrite VA. lra. }
  { rewrite X, E2. assert (MA : M / A <= IZR (2 ^ 53) * IZR (2 ^ 53)).
    { unfold Rdiv. apply Rmult_le_compat; [lra|left; now apply Rinv_0_lt_compat| |].
      - apply Rle_trans with T; [|lra]. unfold M, T. apply IZR_le. clear - Im HN. unfold zsum. induction HN as [|n ns H HH IH]; [destruct Im|]. cbn [fold_right]. pose proof (zsum_ge0 ns HH) as Z0. unfold zsum in Z0. destruct Im as [->|I]; [lia|]. specialize (IH I). lia.
      - replace (IZR (2 ^ 53)) with (/ u) by (unfold u; apply Rinv_inv). apply Rinv_le; auto. }
    apply Rabs_le_inv in B2. rewrite Rabs_pos_eq by nra. apply Rle_lt_trans with (IZR (2 ^ 53) * IZR (2 ^ 53) * 2); [nra|]. change (IZR (2 ^ 53) * IZR (2 ^ 53) * 2) with (bpow radix2 53 * bpow radix2 53 * bpow radix2 1). rewrite <- !bpow_plus. apply bpow_lt. lia. }
  rewrite X in V. cbv zeta. unfold imbalance_f. fold mx P. split; auto. rewrite V. split; [apply rnd_ge_fmt; [change 1 with (IZR 1); apply fmt_int; reflexivity|auto]|].
  rewrite E2. assert (EM : M / A = M * RP / T * / (1 + e1)).
  { rewrite E1. apply Rabs_le_inv in B1. field. repeat split; lra. }
  rewrite EM. apply Rabs_le_inv in B1. apply Rabs_le_inv in B2. assert (K0 : 0 <= M * RP / T) by (unfold Rdiv; apply Rmult_le_pos; [nra|left; apply Rinv_0_lt_compat; lra]).
  rewrite !Rmult_assoc. assert (I1 : / (1 + u) <= / (1 + e1) <= / (1 - u)) by (split; apply Rinv_le; lra). assert (I0 : 0 < / (1 + u)) by (apply Rinv_0_lt_compat; lra).
  split; apply Rmult_le_compat_l; auto; unfold Rdiv; rewrite (Rmult_comm (/ (1 + e1))); apply Rmult_le_compat; lra.
Qed.
Print Assumptions C73_imbalance_whole.

(** three processes with the double nearest to 0.1 each are reported with an imbalance below 1 *)
Theorem C73_imbalance_refuted : exists xs t, Forall ok xs /\ leaves t = xs /\ fin (imbalance_f xs t) = true /\ flt (imbalance_f xs t) (of_int 1) = true.
Proof.
  exists [tenth; tenth; tenth], (Add (Add (Val tenth) (Val tenth)) (Val tenth)). split; [|split; [reflexivity|split; vm_compute; reflexivity]].
  assert (O : ok tenth). { split; [vm_compute; reflexivity|]. assert (L : flt tenth f0 = false) by (vm_compute; reflexivity). rewrite (flt_ok tenth f0 eq_refl eq_refl), value_f0 in L. destruct (Rlt_bool_spec (value tenth) 0); [discriminate|lra]. }
  repeat (apply Forall_cons; [exact O|]); apply Forall_nil.
Qed.
Print Assumptions C73_imbalance_refuted.

(** ** The limit of a completed dimension is never below the weight of a part: trim starts with room everywhere *)
Theorem C73_limit : forall xs t tol, xs <> [] -> Forall ok xs -> fin (limit_f xs t tol) = true -> forall x, In x xs ->
  value x <= value (limit_f xs t tol) /\ fst (availability_f [limit_f xs t tol] [x]) = true.
Proof.
  intros xs t tol NE HO HF x Hx. assert (FX : Forall (fun y => fin y = true) xs) by (eapply Forall_impl; [|exact HO]; intros y Y; apply Y). destruct (all_max_ok_f xs NE FX) as (IM & LM).
  assert (Fm : fin (all_max_f xs) = true) by (eapply Forall_forall in FX; [exact FX|exact IM]).
  assert (L : value x <= value (limit_f xs t tol)).
  { eapply Rle_trans; [apply LM, Hx|]. unfold limit_f in *. cbv zeta in *. destruct (flt (all_max_f xs) _) eqn:E; [|lra]. rewrite (flt_ok _ _ Fm HF) in E. destruct (Rlt_bool_spec (value (all_max_f xs)) (value (fmul (fdiv (reduced t) (of_int (Z.of_nat (length xs)))) tol))); [lra|discriminate]. }
  split; auto. unfold availability_f. cbn [fst combine map snd forallb]. pose proof (proj1 (Forall_forall _ _) HO x Hx) as (Fx & Px). destruct (fsub_between (limit_f xs t tol) x HF Fx) as (F & _ & B); [lra|].
  rewrite (flt_ok _ f0 F (eq_refl : fin f0 = true)), value_f0. destruct (Rlt_bool_spec (value (fsub (limit_f xs t tol) x)) 0); [lra|reflexivity].
Qed.
Print Assumptions C73_limit.

(** ** acceptWeight: a part never grants more than its room in any completed dimension, up to one rounding per request; exactly, for whole numbers *)
Definition requests_ok (n : nat) (inc : list (Z * list b64)) : Prop := Forall (fun m => length (snd m) = n /\ Forall ok (snd m)) inc.
Theorem C73_accept : forall lims ws inc, length lims = length ws -> Forall ok lims -> Forall ok ws -> requests_ok (length lims) inc ->
  let answers := accept_f (availability_f lims ws) inc in
  map fst answers = map fst inc /\ requests_ok (length lims) answers /\
  forall i lim w, nth_error lims i = Some lim -> nth_error ws i = Some w ->
    granted answers i <= Rmax 0 (value lim - value w) * (1 + u) * (1 + INR (length inc) * u).
Proof.
  intros lims ws inc LL OL OW HI. cbv zeta.
  set (P := fun (j i : nat) (t a : R) => exists x0, nth_error (snd (availability_f lims ws)) i = Some x0 /\ 0 <= value x0 /\ a <= value x0 /\ t + a <= value x0 * (1 + INR j * u)).
  pose proof u_pos as U0. destruct (accept_inv P lims ws inc LL OL OW HI) as (A1 & A2 & A3).
  - intros j i t a w (x0 & E & P0 & La & Lt) (Fa & Pa) (Fw & Pw) Hwa _. exists x0. split; auto. split; auto. destruct (fsub_between a w Fa Fw) as (F & V & B); [lra|]. split; [lra|].
    destruct (fsub_err a w) as (e & Be & Ee). assert (S0 : 0 <= value a - value w) by lra. pose proof (err_mul _ _ S0 Be) as M. rewrite S_INR, V, Ee. nra.
  - intros j i t a (x0 & E & P0 & La & Lt). exists x0. split; auto. split; auto. split; auto. rewrite S_INR. eapply Rle_trans; [exact Lt|]. nra.
  - intros i a E Pa. exists a. split; auto. split; auto. cbn [INR]. split; lra.
  - split; auto. split; auto. intros i lim w E1 E2. assert (R0 : 0 <= Rmax 0 (value lim - value w)) by apply Rmax_l. assert (N0 : 0 <= INR (length inc)) by apply pos_INR.
    assert (Li : (i < length lims)%nat) by (apply nth_error_Some; congruence). destruct (A3 i Li) as [->|(a & b & Ea & Pa & Pb & (x0 & Ex & _ & _ & Lt))]; [apply Rmult_le_pos; [apply Rmult_le_pos; lra|nra]|].
    assert (x0 = a) by congruence. subst x0. rewrite (availability_nth _ _ _ _ _ E1 E2) in Ea. inversion Ea; subst a. clear Ea Ex.
    eapply Rle_trans; [|apply Rmult_le_compat_r with (r1 := value (fsub lim w)); [nra|]]; [lra|].
    destruct (fsub_fin lim w) as (F & V); [eapply Forall_forall; [exact OL|eapply nth_error_In; eauto]|eapply Forall_forall; [exact OW|eapply nth_error_In; eauto]|].
    destruct (fsub_err lim w) as (e & Be & Ee). rewrite V, Ee in Pa |- *. apply Rabs_le_inv in Be. pose proof u_small. assert (0 <= value lim - value w) by (destruct (Rle_lt_dec 0 (value lim - value w)); auto; exfalso; nra). rewrite Rmax_right by auto. nra.
Qed.
Print Assumptions C73_accept.

Definition whole_requests (n : nat) (inc : list (Z * list b64)) : Prop := Forall (fun m => length (snd m) = n /\ Forall (fun x => exists k, (0 <= k)%Z /\ whole x k) (snd m)) inc.
Lemma whole_ok x k : (0 <= k)%Z -> whole x k -> ok x.
Proof. intros H (F & V). split; auto. rewrite V. now apply IZR_le. Qed.
(** whole-number weights and requests; the limit itself need not be a whole number *)
Theorem C73_accept_whole : forall lims ws inc, length lims = length ws -> Forall (fun x => ok x /\ value x < IZR (2 ^ 53)) lims ->
  Forall (fun x => exists k, (0 <= k)%Z /\ whole x k) ws -> whole_requests (length lims) inc ->
  let answers := accept_f (availability_f lims ws) inc in
  map fst answers = map fst inc /\ requests_ok (length lims) answers /\
  forall i lim w, nth_error lims i = Some lim -> nth_error ws i = Some w -> granted answers i <= Rmax 0 (value lim - value w).
Proof.
  intros lims ws inc LL OL0 OW0 HI0. cbv zeta. assert (OL : Forall ok lims) by (eapply Forall_impl; [|exact OL0]; intros x X; apply X). assert (OW : Forall ok ws) by (eapply Forall_impl; [|exact OW0]; intros x (k & K & W); eapply whole_ok; eauto).
  assert (HI : requests_ok (length lims) inc). { eapply Forall_impl; [|exact HI0]. intros m (L & F). split; auto. eapply Forall_impl; [|exact F]. intros x (k & K & W). eapply whole_ok; eauto. }
  set (P := fun (j i : nat) (t a : R) => exists x0, nth_error (snd (availability_f lims ws)) i = Some x0 /\ 0 <= value x0 /\ value x0 < IZR (2 ^ 53) /\ 0 <= t /\ t + a = value x0).
  destruct (accept_inv P lims ws inc LL OL OW HI) as (A1 & A2 & A3).
  - intros j i t a w (x0 & E & P0 & Px & Pt & Lt) (Fa & Pa) (Fw & Pw) Hwa HK. exists x0. split; auto. split; auto. split; auto. split; [lra|]. destruct (fsub_between a w Fa Fw) as (F & V & B); [lra|].
    rewrite V. destruct HK as [->|(m & q & Im & Eq & Nw)]; [replace (value a - value a) with 0 by lra; rewrite (rnd_fmt 0 fmt_0); lra|].
    pose proof (proj1 (Forall_forall _ _) HI0 m Im) as (_ & Fm). rewrite Eq in Fm. destruct (proj1 (Forall_forall _ _) Fm w (nth_error_In _ _ Nw)) as (k & K & (_ & Vk)). rewrite Vk in *.
    rewrite rnd_fmt; [lra|]. apply fmt_sub_whole; [apply fmt_value|lra|lra].
  - intros j i t a H. exact H.
  - intros i a E Pa. exists a. split; auto. split; auto. split; [|split; lra]. destruct (availability_inv lims ws i a LL E) as (lim & w & E1 & E2 & ->). pose proof (proj1 (Forall_forall _ _) OL0 lim (nth_error_In _ _ E1)) as ((Fl & Pl) & Tl). pose proof (proj1 (Forall_forall _ _) OW w (nth_error_In _ _ E2)) as Ow.
    destruct (fsub_fin lim w (conj Fl Pl) Ow) as (_ & V). destruct Ow as (_ & Pw). rewrite V. eapply Rle_lt_trans; [|exact Tl]. apply rnd_le_fmt; [apply fmt_value|lra].
  - split; auto. split; auto. intros i lim w E1 E2. assert (Li : (i < length lims)%nat) by (apply nth_error_Some; congruence). destruct (A3 i Li) as [->|(a & b & Ea & Pa & Pb & (x0 & Ex & _ & _ & _ & Lt))]; [apply Rmax_l|].
    assert (x0 = a) by congruence. subst x0. rewrite (availability_nth _ _ _ _ _ E1 E2) in Ea. inversion Ea; subst a. pose proof (proj1 (Forall_forall _ _) OL0 lim (nth_error_In _ _ E1)) as (Ol & Tl). pose proof (proj1 (Forall_forall _ _) OW w (nth_error_In _ _ E2)) as Ow. destruct (proj1 (Forall_forall _ _) OW0 w (nth_error_In _ _ E2)) as (k & K & (_ & Vk)).
    destruct (fsub_fin lim w Ol Ow) as (_ & V). destruct (Rle_lt_dec (value w) (value lim)) as [L|L].
    + rewrite Rmax_right by lra. assert (X : value (fsub lim w) = value lim - value w); [|lra]. rewrite V. apply rnd_fmt. rewrite Vk in *. destruct Ow as (_ & Pw). apply fmt_sub_whole; [apply fmt_value|rewrite <- Vk in *; lra|auto].
    + eapply Rle_trans; [|apply Rmax_l]. assert (value (fsub lim w) <= 0); [|lra]. rewrite V. apply rnd_le_fmt; [apply fmt_0|lra].
Qed.
Print Assumptions C73_accept_whole.

(** ** cancel: what is kept is part of the plan, in its order, fits the granted amount up to rounding, and is everything when everything fits *)
Theorem C73_keep : forall cap l, ok cap -> Forall ok l -> let k := keep_f cap f0 l in
  sub k l /\ (1 - u) ^ length k * rsum (vals k) <= value cap /\ ((1 + u) ^ length l * rsum (vals l) <= value cap -> k = l).
Proof.
  intros cap l (Fc & Pc) Ol. cbv zeta. split; [apply keep_sub|]. split.
  - pose proof (keep_bound cap Fc l f0 ok_f0 Ol) as B. rewrite value_f0, Rplus_0_l in B. auto.
  - intros H. apply (keep_all cap Fc l f0 ok_f0 Ol). now rewrite value_f0, Rplus_0_l.
Qed.
Print Assumptions C73_keep.

(** ** trim and cancel together, for the vertices *)
Definition plans_ok (plans : list (Z * list b64)) : Prop := Forall (fun p => Forall ok (snd p) /\ fin (fsum (snd p)) = true) plans.
Lemma request_ok plans : plans_ok plans -> requests_ok 1 (map (fun p => (fst p, [fsum (snd p)])) plans).
Proof.
  intros H. unfold requests_ok. rewrite Forall_map. eapply Forall_impl; [|exact H]. intros p (O & F). cbn [snd length]. split; auto. constructor; auto. split; auto.
  assert (O2 : Forall (fun x => 0 <= x) (vals (snd p))) by (unfold vals; rewrite Forall_map; eapply Forall_impl; [|exact O]; intros y Y; apply Y). pose proof (fsum_bound _ O2 F) as B. pose proof (pow_bnd (length (snd p))). pose proof (rsum_ge0 _ O2). eapply Rle_trans; [|apply B]. apply Rmult_le_pos; lra.
Qed.
(** the cell of the answer that cancel reads *)
Lemma granted_one answers : requests_ok 1 answers -> granted answers 0 = rsum (map (fun a => value (nth 0 (snd a) f0)) answers).
Proof. unfold granted. intros H. f_equal. apply map_ext_in. intros a I. pose proof (proj1 (Forall_forall _ _) H a I) as (L & _). destruct (snd a) as [|x r]; [discriminate|reflexivity]. Qed.
Lemma kept_bound (plans : list (Z * list b64)) : forall answers, length answers = length plans -> requests_ok 1 answers ->
  forall (B : R -> R -> Prop), (forall s s' c c', B s c -> B s' c' -> B (s + s') (c + c')) -> B 0 0 ->
  (forall p c, In p plans -> ok c -> B (rsum (vals (keep_f c f0 (snd p)))) (value c)) ->
  B (rsum (vals (concat (map (fun x => keep_f (nth 0 (snd (snd x)) f0) f0 (snd (fst x))) (combine plans answers))))) (granted answers 0).
Proof.
  intros answers LA RA B Badd B0 BK. rewrite granted_one by auto. revert answers LA RA. induction plans as [|p plans IH]; intros [|a answers] LA RA; cbn [length] in LA; try discriminate; [exact B0|].
  cbn [combine map concat fst snd]. rewrite vals_app, rsum_app. cbn [rsum fold_right]. inversion RA as [|? ? (La & Oa) RA']; subst. apply Badd.
  - apply BK; [now left|]. destruct (snd a) as [|x r]; [discriminate|]. now inversion Oa.
  - apply IH; auto. intros q c I O. apply BK; [now right|auto].
Qed.
Lemma kept_sub (plans answers : list (Z * list b64)) : forall i l p, nth_error (map (fun x => keep_f (nth 0 (snd (snd x)) f0) f0 (snd (fst x))) (combine plans answers)) i = Some l -> nth_error plans i = Some p -> sub l (snd p).
Proof.
  revert answers. induction plans as [|q plans IH]; intros [|a answers] [|i] l p H1 H2; cbn in H1, H2; try discriminate; [inversion H1; inversion H2; subst; apply keep_sub|eapply IH; eauto].
Qed.
(** what the senders keep is a part of their plans, and its weight is at most the room of the receiving part, up to the rounding of n+K+1 operations *)
Theorem C73_trim : forall lim w plans K, ok lim -> ok w -> plans_ok plans -> Forall (fun p => length (snd p) <= K)%nat plans ->
  let kept := trim_cancel_f lim w plans in
  length kept = length plans /\ (forall i l p, nth_error kept i = Some l -> nth_error plans i = Some p -> sub l (snd p)) /\
  (1 - u) ^ K * rsum (vals (concat kept)) <= Rmax 0 (value lim - value w) * (1 + u) * (1 + INR (length plans) * u).
Proof.
  intros lim w plans K Ol Ow Hp HK. cbv zeta. unfold trim_cancel_f. set (inc := map _ plans). destruct (C73_accept [lim] [w] inc eq_refl (Forall_cons _ Ol (Forall_nil _)) (Forall_cons _ Ow (Forall_nil _)) (request_ok plans Hp)) as (A1 & A2 & A3).
  set (answers := accept_f _ inc) in *. assert (LA : length answers = length plans) by (rewrite <- (map_length fst answers), A1; unfold inc; now rewrite !map_length).
  split; [rewrite map_length, combine_length; lia|]. split; [apply kept_sub|]. specialize (A3 0%nat lim w eq_refl eq_refl). replace (length inc) with (length plans) in A3 by (unfold inc; now rewrite map_length).
  eapply Rle_trans; [|exact A3]. apply (kept_bound plans answers LA A2) with (B := fun s c => (1 - u) ^ K * s <= c).
  - intros s s' c c' H1 H2. lra.
  - lra.
  - intros p c I Oc. pose proof (proj1 (Forall_forall _ _) Hp p I) as (Op & _). pose proof (proj1 (Forall_forall _ _) HK p I) as Lp. cbv beta in Lp. destruct (C73_keep c (snd p) Oc Op) as (_ & B & _). eapply Rle_trans; [|exact B]. apply Rmult_le_compat_r; [apply rsum_vals_ge0; now apply keep_ok|]. apply pow_mono_lo. pose proof (keep_len c (snd p) f0). lia.
Qed.
Print Assumptions C73_trim.
(** whole-number weights: the receiving part ends at most at its limit, exactly *)
Theorem C73_trim_whole : forall lim w plans, ok lim -> value lim < IZR (2 ^ 53) -> (exists k, (0 <= k)%Z /\ whole w k) ->
  Forall (fun p => exists ns, Forall2 whole (snd p) ns /\ Forall (fun k => 0 <= k)%Z ns /\ (zsum ns < 2 ^ 53)%Z) plans ->
  value w + rsum (vals (concat (trim_cancel_f lim w plans))) <= Rmax (value w) (value lim).
Proof.
  intros lim w plans Ol Tl (k & Kk & Ww) Hp. assert (WF : whole_requests 1 (map (fun p => (fst p, [fsum (snd p)])) plans)).
  { unfold whole_requests. rewrite Forall_map. eapply Forall_impl; [|exact Hp]. intros p (ns & W & N & T). cbn [snd length]. split; auto. constructor; [|constructor]. exists (zsum ns). split; [now apply zsum_ge0|]. apply fsum_whole; auto. assert (E : map Z.abs ns = ns) by (clear - N; induction N; cbn [map]; auto; f_equal; auto; now apply Z.abs_eq). now rewrite E. }
  destruct (C73_accept_whole [lim] [w] _ eq_refl (Forall_cons _ (conj Ol Tl) (Forall_nil _)) (Forall_cons _ (ex_intro _ k (conj Kk Ww)) (Forall_nil _)) WF) as (A1 & A2 & A3).
  unfold trim_cancel_f. set (answers := accept_f _ _) in *. assert (LA : length answers = length plans) by (rewrite <- (map_length fst answers), A1; now rewrite !map_length).
  specialize (A3 0%nat lim w eq_refl eq_refl). assert (B : rsum (vals (concat (map (fun x => keep_f (nth 0 (snd (snd x)) f0) f0 (snd (fst x))) (combine plans answers)))) <= granted answers 0).
  { apply (kept_bound plans answers LA A2) with (B := fun s c => s <= c); [intros; lra|lra|]. intros p c I (Fc & Pc). destruct (proj1 (Forall_forall _ _) Hp p I) as (ns & W & N & T).
    pose proof (keep_whole c Fc (snd p) ns f0 0%Z (conj eq_refl value_f0) ltac:(lia) W N ltac:(lia)) as X. rewrite value_f0 in X. specialize (X Pc). lra. }
  unfold Rmax in *. destruct (Rle_dec 0 (value lim - value w)), (Rle_dec (value w) (value lim)); lra.
Qed.
Print Assumptions C73_trim_whole.

(** ** The amount to send to a neighbour: never negative, never more than the difference *)
Theorem C73_target : forall myW nbW step side tot, ok myW -> ok nbW -> ok step -> value step <= 1 -> (0 <= side <= tot)%Z -> (0 < tot < 2 ^ 31)%Z ->
  match target_f myW nbW step side tot with
  | None => value myW <= value nbW
  | Some a => value nbW < value myW /\ fin a = true /\ 0 <= value a <= value (fsub myW nbW) /\ value (fsub myW nbW) <= value myW
  end.
Proof.
  intros myW nbW step side tot (Fm & Pm) (Fn & Pn) (Fs & Ps) S1 Hs Ht. unfold target_f. rewrite (flt_ok nbW myW Fn Fm). destruct (Rlt_bool_spec (value nbW) (value myW)) as [L|L]; [|exact L]. split; auto. cbv zeta.
  destruct (fsub_between myW nbW Fm Fn) as (Fd & Vd & Bd); [lra|]. set (d := fsub myW nbW) in *.
  destruct (of_int_ok side) as (Vs & Fsd); [lia|]. destruct (of_int_ok tot) as (Vt & _); [lia|].
  assert (T0 : 0 < IZR tot) by (apply IZR_lt; lia). assert (S0 : 0 <= IZR side <= IZR tot) by (split; apply IZR_le; lia).
  assert (Q : 0 <= value (of_int side) / value (of_int tot) <= 1).
  { rewrite Vs, Vt. split; [unfold Rdiv; apply Rmult_le_pos; [lra|left; now apply Rinv_0_lt_compat]|]. apply Rmult_le_reg_r with (IZR tot); auto. unfold Rdiv. rewrite Rmult_assoc, Rinv_l by lra. lra. }
  assert (F1 : generic_format radix2 (FLT_exp (-1074) 53) 1) by (change 1 with (IZR 1); apply fmt_int; reflexivity).
  assert (RQ : 0 <= rnd (value (of_int side) / value (of_int tot)) <= 1) by (split; [apply rnd_ge0; lra|apply rnd_le_fmt; [exact F1|lra]]).
  destruct (fdiv_ok (of_int side) (of_int tot) Fsd) as (Vq & Fq); [rewrite Vt; lra|rewrite Rabs_pos_eq by lra; eapply Rle_lt_trans; [apply RQ|]; eapply Rlt_trans; [|apply top_int]; apply IZR_lt; reflexivity|].
  set (q := fdiv (of_int side) (of_int tot)) in *. rewrite <- Vq in RQ.
  assert (B1 : 0 <= rnd (value d * value q) <= value d) by (split; [apply rnd_ge0; nra|apply rnd_le_fmt; [apply fmt_value|nra]]).
  destruct (fmul_ok d q Fd Fq) as (V1 & Fm1); [eapply fin_lt_top; apply B1|]. rewrite <- V1 in B1.
  assert (B2 : 0 <= rnd (value (fmul d q) * value step) <= value (fmul d q)) by (split; [apply rnd_ge0; nra|apply rnd_le_fmt; [apply fmt_value|nra]]).
  destruct (fmul_ok (fmul d q) step Fm1 Fs) as (V2 & Fm2); [eapply fin_lt_top; apply B2|]. rewrite V2. split; auto. split; lra.
Qed.
Print Assumptions C73_target.

(** ... and it is the stated amount up to four roundings, unless it is so small that a double loses digits *)
Theorem C73_target_error : forall myW nbW step side tot, ok myW -> ok nbW -> ok step -> value step <= 1 -> (0 <= side <= tot)%Z -> (0 < tot < 2 ^ 31)%Z -> value nbW < value myW ->
  let exact := (value myW - value nbW) * (IZR side / IZR tot) * value step in bpow radix2 (-1000) <= exact ->
  exists a, target_f myW nbW step side tot = Some a /\ (1 - u) ^ 4 * exact <= value a <= (1 + u) ^ 4 * exact.
Proof.
  intros myW nbW step side tot Om On Os S1 Hs Ht HL. cbv zeta. intros HX. pose proof (C73_target myW nbW step side tot Om On Os S1 Hs Ht) as HT. destruct (target_f myW nbW step side tot) as [a|] eqn:E; [|lra]. exists a. split; auto.
  destruct HT as (_ & Fa & _). destruct Om as (Fm & Pm), On as (Fn & Pn), Os as (Fs & Ps). unfold target_f in E. destruct (flt nbW myW); [|discriminate]. cbv zeta in E. inversion E; subst a. clear E.
  destruct (fsub_between myW nbW Fm Fn) as (Fd & Vd & Bd); [lra|]. set (d := fsub myW nbW) in *. destruct (fsub_err myW nbW) as (e2 & B2 & E2). rewrite <- Vd in E2.
  destruct (of_int_ok side) as (Vs & Fsd); [lia|]. destruct (of_int_ok tot) as (Vt & _); [lia|].
  assert (T0 : 0 < IZR tot) by (apply IZR_lt; lia). assert (S0 : 0 <= IZR side <= IZR tot) by (split; apply IZR_le; lia). set (r := IZR side / IZR tot) in *. pose proof (bpow_gt_0 radix2 (-1000)) as X0.
  assert (R0 : 0 <= r) by (unfold r, Rdiv; apply Rmult_le_pos; [lra|left; now apply Rinv_0_lt_compat]).
  assert (R1 : r <= 1) by (unfold r; apply Rmult_le_reg_r with (IZR tot); auto; unfold Rdiv; rewrite Rmult_assoc, Rinv_l by lra; lra).
  assert (RP : 0 < r) by (destruct R0 as [R0|R0]; auto; rewrite <- R0 in HX; rewrite Rmult_0_r, Rmult_0_l in HX; lra).
  assert (SP : (0 < side)%Z) by (destruct (Z.eq_dec side 0) as [->|]; [unfold r, Rdiv in RP; rewrite Rmult_0_l in RP; lra|lia]).
  assert (RL : bpow radix2 (-31) <= r). { unfold r, Rdiv. change (bpow radix2 (-31)) with (/ IZR (2 ^ 31)). rewrite <- (Rmult_1_l (/ IZR (2 ^ 31))). apply Rmult_le_compat; [lra|left; apply Rinv_0_lt_compat, IZR_lt; reflexivity|apply (IZR_le 1); lia|]. apply Rinv_le; auto. apply IZR_le. lia. }
  assert (XQ : value (of_int side) / value (of_int tot) = r) by now rewrite Vs, Vt.
  pose proof u_pos as U0. pose proof u_small as U1.
  destruct (rel_err r) as (e1 & B1 & E1); [rewrite Rabs_pos_eq by lra; eapply Rle_trans; [|exact RL]; apply bpow_le; lia|].
  assert (F1 : generic_format radix2 (FLT_exp (-1074) 53) 1) by (change 1 with (IZR 1); apply fmt_int; reflexivity).
  assert (RQ : 0 <= rnd r <= 1) by (split; [apply rnd_ge0; lra|apply rnd_le_fmt; [exact F1|lra]]).
  destruct (fdiv_ok (of_int side) (of_int tot) Fsd) as (Vq & Fq); [rewrite Vt; lra|rewrite XQ, Rabs_pos_eq by lra; eapply Rle_lt_trans; [apply RQ|]; eapply Rlt_trans; [|apply top_int]; apply IZR_lt; reflexivity|].
  set (q := fdiv (of_int side) (of_int tot)) in *. rewrite XQ in Vq. rewrite <- Vq in RQ. rewrite <- Vq in E1. set (D := value myW - value nbW) in *. assert (D0 : 0 < D) by (unfold D; lra).
  pose proof (err_mul D e2 ltac:(lra) B2) as M2. rewrite <- E2 in M2. pose proof (err_mul r e1 ltac:(lra) B1) as M1. rewrite <- E1 in M1.
  assert (P1 : (1 - u) ^ 2 * (D * r) <= value d * value q <= (1 + u) ^ 2 * (D * r)).
  { split; [replace ((1 - u) ^ 2 * (D * r)) with (((1 - u) * D) * ((1 - u) * r)) by ring|replace ((1 + u) ^ 2 * (D * r)) with (((1 + u) * D) * ((1 + u) * r)) by ring]; apply Rmult_le_compat; try lra; try nra; apply Rmult_le_pos; lra. }
  assert (DR : bpow radix2 (-1000) <= D * r) by (eapply Rle_trans; [exact HX|]; rewrite <- (Rmult_1_r (D * r)) at 2; apply Rmult_le_compat_l; [apply Rmult_le_pos; lra|lra]).
  assert (H2 : / 2 <= (1 - u) ^ 2) by (cbn [pow]; nra).
  assert (N2 : forall k x, (-1020 <= k)%Z -> bpow radix2 k <= x -> bpow radix2 (k - 1) <= / 2 * x).
  { intros k x _ Hx. unfold Z.sub. rewrite bpow_plus. change (bpow radix2 (-(1))) with (/ 2). lra. }
  assert (LO : bpow radix2 (-1001) <= value d * value q) by (eapply Rle_trans; [apply (N2 (-1000)%Z (D * r)); [lia|exact DR]|]; eapply Rle_trans; [apply Rmult_le_compat_r; [lra|exact H2]|apply P1]).
  assert (LO0 : 0 <= value d * value q) by (eapply Rle_trans; [apply bpow_ge_0|exact LO]).
  destruct (rel_err (value d * value q)) as (e3 & B3 & E3); [rewrite Rabs_pos_eq by auto; eapply Rle_trans; [|exact LO]; apply bpow_le; lia|].
  assert (B1' : 0 <= rnd (value d * value q) <= value d) by (split; [apply rnd_ge0; nra|apply rnd_le_fmt; [apply fmt_value|nra]]).
  destruct (fmul_ok d q Fd Fq) as (V1 & Fm1); [eapply fin_lt_top; apply B1'|]. rewrite <- V1 in B1', E3. pose proof (err_mul _ _ LO0 B3) as M3. rewrite <- E3 in M3.
  set (p := value (fmul d q)) in *. assert (P2 : (1 - u) ^ 3 * (D * r) <= p <= (1 + u) ^ 3 * (D * r)).
  { replace ((1 - u) ^ 3 * (D * r)) with ((1 - u) * ((1 - u) ^ 2 * (D * r))) by ring. replace ((1 + u) ^ 3 * (D * r)) with ((1 + u) * ((1 + u) ^ 2 * (D * r))) by ring. split; (eapply Rle_trans; [|apply M3] || (eapply Rle_trans; [apply M3|])); apply Rmult_le_compat_l; lra. }
  set (s := value step) in *. assert (P3 : (1 - u) ^ 3 * (D * r * s) <= p * s <= (1 + u) ^ 3 * (D * r * s)) by (rewrite <- !Rmult_assoc, !(Rmult_assoc _ D r); split; apply Rmult_le_compat_r; lra).
  assert (H3 : / 2 <= (1 - u) ^ 3). { cbn [pow]. rewrite Rmult_1_r. assert (15/16 <= 1 - u) by (unfold u; apply Rplus_le_reg_r with (/ IZR (2^53)); assert (/ IZR (2 ^ 53) <= / 16) by (apply Rinv_le; [lra|apply IZR_le; lia]); lra). nra. }
  assert (LO' : bpow radix2 (-1001) <= p * s) by (eapply Rle_trans; [apply (N2 (-1000)%Z _ ltac:(lia) HX)|]; eapply Rle_trans; [apply Rmult_le_compat_r; [eapply Rle_trans; [apply bpow_ge_0|exact HX]|exact H3]|apply P3]).
  assert (LO0' : 0 <= p * s) by (eapply Rle_trans; [apply bpow_ge_0|exact LO']).
  destruct (rel_err (p * s)) as (e4 & B4 & E4); [rewrite Rabs_pos_eq by auto; eapply Rle_trans; [|exact LO']; apply bpow_le; lia|].
  assert (B2' : 0 <= rnd (p * s) <= p) by (split; [apply rnd_ge0; auto|apply rnd_le_fmt; [apply fmt_value|unfold s in *; nra]]).
  destruct (fmul_ok (fmul d q) step Fm1 Fs) as (V2 & Fm2); [eapply fin_lt_top; apply B2'|]. fold p s in V2. rewrite V2, E4. pose proof (err_mul _ _ LO0' B4) as M4.
  replace ((1 - u) ^ 4 * (D * r * s)) with ((1 - u) * ((1 - u) ^ 3 * (D * r * s))) by ring. replace ((1 + u) ^ 4 * (D * r * s)) with ((1 + u) * ((1 + u) ^ 3 * (D * r * s))) by ring.
  split; [eapply Rle_trans; [|apply M4]|eapply Rle_trans; [apply M4|]]; apply Rmult_le_compat_l; lra.
Qed.
Print Assumptions C73_target_error.

(** ** concrete cases *)
Lemma int_whole n : (0 <= n < 2 ^ 53)%Z -> whole (of_int n) n.
Proof. intros H. destruct (of_int_ok n) as (V & F); [lia|]. now split. Qed.
Lemma int_ok n : (0 <= n < 2 ^ 53)%Z -> ok (of_int n).
Proof. intros H. eapply whole_ok; [|apply int_whole; exact H]. lia. Qed.
(** a part with three vertices of weights 2, 3, 4: its weight is 9 *)
Definition ex_n (x : Z) : Z := (x mod 1000)%Z.
Definition fx_g : option graph := build_part 0 true [1; 2; 3]%Z [2; 3; 4]%Z [([(100, [1; 2]); (101, [2; 3; 4])], [5; 6])]%Z [(4, 1)]%Z.
Example C73_weight_example : exists g w, fx_g = Some g /\
  (forall x, stored_weight g None x -> (0 <= ex_n x)%Z /\ whole (of_int (ex_n x)) (ex_n x)) /\
  getWeight (fun x => inject_Z (ex_n x)) g None None false 20 = Some w /\ (w == 9)%Q /\ Q2R w < IZR (2 ^ 53) /\ weight_count g None false 20 = Some 3%nat /\
  (forall x, stored_weight g None x -> ok (of_int (ex_n x)) /\ value (of_int (ex_n x)) = Q2R (inject_Z (ex_n x))).
Proof.
  destruct fx_g as [g|] eqn:E; [|vm_compute in E; discriminate]. assert (B : forall x, (0 <= ex_n x < 2 ^ 53)%Z) by (intros x; unfold ex_n; pose proof (Z.mod_pos_bound x 1000 eq_refl); lia).
  destruct (getWeight (fun x => inject_Z (ex_n x)) g None None false 20) as [w|] eqn:Ew; [|vm_compute in E; inversion E; subst g; vm_compute in Ew; discriminate]. exists g, w. split; [reflexivity|]. split; [intros x _; split; [apply B|apply int_whole, B]|]. split; [exact Ew|].
  assert (W : w = inject_Z 9) by (vm_compute in E; inversion E; subst g; vm_compute in Ew; now inversion Ew). subst w. split; [reflexivity|]. split; [rewrite Q2R_Z; apply IZR_lt; reflexivity|]. split; [vm_compute in E; inversion E; subst g; vm_compute; reflexivity|].
  intros x _. split; [apply int_ok, B|]. rewrite Q2R_Z. apply int_whole, B.
Qed.
(** three processes with 2, 3 and 4, added in another order; and the limit for the tolerance 1 *)
Definition fx_xs : list b64 := [of_int 2; of_int 3; of_int 4].
Definition fx_t : red := Add (Val (of_int 4)) (Add (Val (of_int 2)) (Val (of_int 3))).
Example C73_reduce_example : Forall2 whole fx_xs [2; 3; 4]%Z /\ Forall ok fx_xs /\ Permutation (leaves fx_t) fx_xs /\ (0 < zsum [2; 3; 4]%Z < 2 ^ 53)%Z /\ (1 + u) ^ 2 * rsum (vals fx_xs) < top /\
  flt (reduced fx_t) (of_int 9) = false /\ flt (of_int 9) (reduced fx_t) = false /\ flt (of_int 1) (imbalance_f fx_xs fx_t) = true /\ fin (limit_f fx_xs fx_t (of_int 1)) = true.
Proof.
  assert (W2 : whole (of_int 2) 2) by (apply int_whole; lia). assert (W3 : whole (of_int 3) 3) by (apply int_whole; lia). assert (W4 : whole (of_int 4) 4) by (apply int_whole; lia).
  split; [constructor; [exact W2|constructor; [exact W3|constructor; [exact W4|constructor]]]|]. split; [constructor; [apply int_ok; lia|constructor; [apply int_ok; lia|constructor; [apply int_ok; lia|constructor]]]|].
  split; [unfold fx_t, fx_xs; cbn [leaves app]; eapply perm_trans; [apply perm_swap|apply perm_skip, perm_swap]|]. split; [cbn; lia|]. split.
  - unfold fx_xs. cbn [vals map rsum fold_right]. rewrite (proj2 W2), (proj2 W3), (proj2 W4). pose proof u_pos. pose proof u_small. apply Rlt_trans with (IZR (2 ^ 53)); [|apply top_int]. apply Rle_lt_trans with 20; [cbn [pow]; nra|apply IZR_lt; reflexivity].
  - split; [vm_compute; reflexivity|]. split; [vm_compute; reflexivity|]. split; vm_compute; reflexivity.
Qed.
(** a part of weight 7 with limit 10 (not a whole number of vertices away): of what two senders plan, the first keeps all (2), the second one vertex of two *)
Definition same (a b : list (list b64)) : bool := (length a =? length b)%nat && forallb (fun p => (length (fst p) =? length (snd p))%nat && forallb (fun x => negb (flt (fst x) (snd x)) && negb (flt (snd x) (fst x))) (combine (fst p) (snd p))) (combine a b).
Definition fx_plans : list (Z * list b64) := [(0%Z, [of_int 1; of_int 1]); (1%Z, [of_int 1; of_int 2])].
Example C73_trim_example : ok (of_int 10) /\ value (of_int 10) < IZR (2 ^ 53) /\ (exists k, (0 <= k)%Z /\ whole (of_int 7) k) /\
  Forall (fun p => exists ns, Forall2 whole (snd p) ns /\ Forall (fun k => 0 <= k)%Z ns /\ (zsum ns < 2 ^ 53)%Z) fx_plans /\ plans_ok fx_plans /\ Forall (fun p => length (snd p) <= 2)%nat fx_plans /\
  same (trim_cancel_f (of_int 10) (of_int 7) fx_plans) [[of_int 1; of_int 1]; [of_int 1]] = true.
Proof.
  assert (W1 : whole (of_int 1) 1) by (apply int_whole; lia). assert (W2 : whole (of_int 2) 2) by (apply int_whole; lia).
  split; [apply int_ok; lia|]. split; [rewrite (proj2 (int_whole 10 ltac:(lia))); apply IZR_lt; reflexivity|]. split; [exists 7%Z; split; [lia|apply int_whole; lia]|]. split.
  { constructor; [exists [1; 1]%Z|constructor; [exists [1; 2]%Z|constructor]]; (split; [constructor; [exact W1|constructor; [assumption|constructor]]|split; [repeat (constructor; [lia|]); constructor|reflexivity]]). }
  split.
  { unfold plans_ok, fx_plans. constructor; [|constructor; [|constructor]]; (split; [constructor; [apply int_ok; lia|constructor; [apply int_ok; lia|constructor]]|vm_compute; reflexivity]). }
  split; [repeat constructor|vm_compute; reflexivity].
Qed.
(** two completed dimensions: the request exceeds the room in the second, so the room of both is granted *)
Definition same1 (a b : list b64) : bool := same [a] [b].
Definition fx_lims : list b64 := [of_int 10; of_int 20]. Definition fx_ws : list b64 := [of_int 7; of_int 18].
Definition fx_inc : list (Z * list b64) := [(3%Z, [of_int 1; of_int 5])].
Example C73_accept_example : Forall (fun x => ok x /\ value x < IZR (2 ^ 53)) fx_lims /\ Forall (fun x => exists k, (0 <= k)%Z /\ whole x k) fx_ws /\ whole_requests 2 fx_inc /\ requests_ok 2 fx_inc /\
  same (map snd (accept_f (availability_f fx_lims fx_ws) fx_inc)) [[of_int 3; of_int 2]] = true.
Proof.
  assert (L : forall n, (0 <= n < 2 ^ 53)%Z -> ok (of_int n) /\ value (of_int n) < IZR (2 ^ 53)) by (intros n H; split; [now apply int_ok|rewrite (proj2 (int_whole n H)); apply IZR_lt; lia]).
  assert (K : forall n, (0 <= n < 2 ^ 53)%Z -> exists k, (0 <= k)%Z /\ whole (of_int n) k) by (intros n H; exists n; split; [lia|now apply int_whole]).
  split; [constructor; [apply L; lia|constructor; [apply L; lia|constructor]]|]. split; [constructor; [apply K; lia|constructor; [apply K; lia|constructor]]|].
  split; [constructor; [split; [reflexivity|constructor; [apply K; lia|constructor; [apply K; lia|constructor]]]|constructor]|]. split; [constructor; [split; [reflexivity|constructor; [apply int_ok; lia|constructor; [apply int_ok; lia|constructor]]]|constructor]|]. vm_compute; reflexivity.
Qed.
(** cancel with a capacity of 3: of 1, 4, 2 the second is dropped *)
Example C73_keep_example : ok (of_int 3) /\ Forall ok [of_int 1; of_int 4; of_int 2] /\ same1 (keep_f (of_int 3) f0 [of_int 1; of_int 4; of_int 2]) [of_int 1; of_int 2] = true.
Proof. split; [apply int_ok; lia|]. split; [constructor; [apply int_ok; lia|constructor; [apply int_ok; lia|constructor; [apply int_ok; lia|constructor]]]|vm_compute; reflexivity]. Qed.
(** a part of weight 12 beside one of weight 8, half of its sides: step 1 sends 2 *)
Example C73_target_example : ok (of_int 12) /\ ok (of_int 8) /\ ok (of_int 1) /\ value (of_int 1) <= 1 /\ value (of_int 8) < value (of_int 12) /\
  bpow radix2 (-1000) <= (value (of_int 12) - value (of_int 8)) * (IZR 3 / IZR 6) * value (of_int 1) /\
  match target_f (of_int 12) (of_int 8) (of_int 1) 3 6 with Some a => same1 [a] [of_int 2] = true | None => False end.
Proof.
  split; [apply int_ok; lia|]. split; [apply int_ok; lia|]. split; [apply int_ok; lia|]. rewrite (proj2 (int_whole 12 ltac:(lia))), (proj2 (int_whole 8 ltac:(lia))), (proj2 (int_whole 1 ltac:(lia))). split; [lra|]. split; [lra|]. split; [|vm_compute; reflexivity].
  apply Rle_trans with (bpow radix2 0); [apply bpow_le; lia|cbn; lra].
Qed.
