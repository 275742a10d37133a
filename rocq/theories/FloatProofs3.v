(** Quotients, maxima, trim and cancel in doubles. *)
From Coq Require Import Reals Lra Psatz Qreals.
From Flocq Require Import Core BinarySingleNaN Relative.
From Verif Require Import Base GraphModel Comm TagModel ConnModel MetricsModel.
From Verif Require Import FloatModel FloatSpec FloatProofs.
Local Open Scope R_scope.

(** a relative error in the normal range *)
Lemma rel_err x : bpow radix2 (-1022) <= Rabs x -> exists e, Rabs e <= u /\ rnd x = x * (1 + e).
Proof.
  intros H. destruct (relative_error_N_FLT_ex radix2 (-1074) 53 ltac:(reflexivity) (fun n => negb (Z.even n)) x H) as (e & B & E). exists e. split; [|exact E].
  pose proof u_ro_u as U. unfold u_ro in U. now rewrite U in B.
Qed.
Lemma fin_lt_top x y : 0 <= y -> y <= value x -> Rabs y < top.
Proof. intros H0 H. rewrite Rabs_pos_eq by auto. eapply Rle_lt_trans; [exact H|]. eapply Rle_lt_trans; [apply Rle_abs|apply value_lt_top]. Qed.

(** ** the maximum *)
Lemma fmax_ok a b : fin a = true -> fin b = true -> fin (fmax a b) = true /\ (fmax a b = a \/ fmax a b = b) /\ value a <= value (fmax a b) /\ value b <= value (fmax a b).
Proof.
  intros Fa Fb. unfold fmax. rewrite (flt_ok a b Fa Fb). destruct (Rlt_bool_spec (value a) (value b)); (split; [auto|]); (split; [auto|]); lra.
Qed.
Lemma fold_max_ok r x : fin x = true -> Forall (fun y => fin y = true) r ->
  let m := fold_left fmax r x in In m (x :: r) /\ forall y, In y (x :: r) -> value y <= value m.
Proof.
  revert x. induction r as [|y r IH]; intros x Fx Fr; cbn [fold_left]; cbv zeta; [split; [now left|intros y [<-|[]]; lra]|].
  inversion Fr as [|? ? Fy Fr']; subst. destruct (fmax_ok x y Fx Fy) as (Fm & E & Lx & Ly). destruct (IH (fmax x y) Fm Fr') as (I & L). split.
  - destruct I as [<-|I]; [destruct E as [->| ->]; cbn; auto|cbn; auto].
  - intros z [<-|[<-|Iz]]; [eapply Rle_trans; [exact Lx|apply L; now left]|eapply Rle_trans; [exact Ly|apply L; now left]|apply L; now right].
Qed.
Lemma all_max_ok_f l : l <> [] -> Forall (fun y => fin y = true) l -> In (all_max_f l) l /\ forall y, In y l -> value y <= value (all_max_f l).
Proof. intros NE HF. destruct l as [|x r]; [congruence|]. inversion HF; subst. now apply fold_max_ok. Qed.

Lemma fmul_1 x : fin x = true -> value (fmul x (of_int 1)) = value x /\ fin (fmul x (of_int 1)) = true.
Proof.
  intros Fx. destruct (of_int_ok 1) as (V1 & F1); [reflexivity|]. assert (E : value x * value (of_int 1) = value x) by (rewrite V1; lra). destruct (fmul_ok x (of_int 1) Fx F1) as (V & F).
  - rewrite E, rnd_fmt by apply fmt_value. apply value_lt_top.
  - split; auto. rewrite V, E. apply rnd_fmt, fmt_value.
Qed.

(** ** differences *)
Lemma fsub_between a w : fin a = true -> fin w = true -> 0 <= value w <= value a ->
  fin (fsub a w) = true /\ value (fsub a w) = rnd (value a - value w) /\ 0 <= value (fsub a w) <= value a.
Proof.
  intros Fa Fw H. assert (B : 0 <= rnd (value a - value w) <= value a) by (split; [apply rnd_ge0; lra|apply rnd_le_fmt; [apply fmt_value|lra]]).
  destruct (fsub_ok a w Fa Fw) as (V & F); [eapply fin_lt_top; apply B|]. rewrite V. auto.
Qed.
Lemma fmt_sub_whole a n : generic_format radix2 fe a -> 0 <= IZR n <= a -> a < IZR (2 ^ 53) -> generic_format radix2 fe (a - IZR n).
Proof.
  intros F H L. destruct (Rle_lt_or_eq_dec 0 a) as [P| <-]; [lra| |].
  2: { replace (0 - IZR n) with 0 by lra. apply fmt_0. }
  set (m := Ztrunc (scaled_mantissa radix2 fe a)). set (e := cexp radix2 fe a).
  assert (Ea : a = IZR m * bpow radix2 e) by exact F.
  assert (He : (-1074 <= e <= 0)%Z).
  { unfold e, cexp, FLT_exp. assert (mag radix2 a <= 53)%Z; [|lia]. apply mag_le_bpow; [lra|]. rewrite Rabs_pos_eq by lra. exact L. }
  assert (Hm : (Z.abs m < 2 ^ 53)%Z).
  { apply lt_IZR. rewrite abs_IZR.
    assert (X : Rabs (IZR m) = scaled_mantissa radix2 fe a).
    { unfold m. rewrite <- (scaled_mantissa_generic radix2 fe a F). apply Rabs_pos_eq. unfold scaled_mantissa. apply Rmult_le_pos; [lra|apply bpow_ge_0]. }
    rewrite X. pose proof (scaled_mantissa_lt_bpow radix2 fe a) as Y. rewrite Rabs_pos_eq in Y by (unfold scaled_mantissa; apply Rmult_le_pos; [lra|apply bpow_ge_0]).
    eapply Rlt_le_trans; [exact Y|]. change (IZR (2^53)) with (bpow radix2 53). apply bpow_le. fold e. unfold e, cexp, FLT_exp. lia. }
  assert (En : IZR n = IZR (n * 2 ^ (- e)) * bpow radix2 e).
  { rewrite mult_IZR. change (IZR (2 ^ - e)) with (IZR (radix2 ^ (- e))). rewrite IZR_Zpower by lia. rewrite Rmult_assoc, <- bpow_plus. replace (- e + e)%Z with 0%Z by lia. cbn. lra. }
  apply generic_format_FLT. exists (Float radix2 (m - n * 2 ^ (- e)) e); cbn [Fnum Fexp]; [|..|lia].
  - unfold F2R. cbn [Fnum Fexp]. rewrite minus_IZR, Rmult_minus_distr_r, <- En, <- Ea. reflexivity.
  - assert (P1 : (0 <= m - n * 2 ^ (- e) <= m)%Z); [|change (Zpower radix2 53) with (2^53)%Z; lia].
    assert (Pb : 0 < bpow radix2 e) by apply bpow_gt_0. split; apply le_IZR.
    + rewrite minus_IZR. apply Rmult_le_reg_r with (bpow radix2 e); auto. rewrite Rmult_minus_distr_r, <- En, <- Ea. lra.
    + rewrite minus_IZR. apply Rmult_le_reg_r with (bpow radix2 e); auto. rewrite Rmult_minus_distr_r, <- En, <- Ea. lra.
Qed.

(** ** acceptWeight *)
Lemma granted_app a b i : granted (a ++ b) i = granted a i + granted b i.
Proof. unfold granted. rewrite map_app. apply rsum_app. Qed.
Lemma nth_combine {A B C} (f : A * B -> C) (a : list A) (b : list B) i x y : nth_error a i = Some x -> nth_error b i = Some y -> nth_error (map f (combine a b)) i = Some (f (x, y)).
Proof. revert b i. induction a as [|p a IH]; intros [|q b] [|i] H1 H2; cbn in *; try discriminate; [now inversion H1; inversion H2; subst|now apply IH]. Qed.

(** the amounts of one answer: between 0 and what is available, in every dimension *)
Lemma accept_fold (P : nat -> nat -> R -> R -> Prop) inc : forall is avail acc n,
  (forall j i t a w, P j i t (value a) -> ok a -> ok w -> value w <= value a -> (w = a \/ exists m ws, In m inc /\ snd m = ws /\ nth_error ws i = Some w) -> P (S j) i (t + value w) (value (fsub a w))) ->
  (forall j i t a, P j i t a -> P (S j) i t a) ->
  Forall ok avail -> Forall (fun m => length (snd m) = length avail /\ Forall ok (snd m)) inc ->
  (forall i a, nth_error avail i = Some a -> P n i (granted acc i) (value a)) ->
  let '((is', avail'), acc') := fold_left accept_step_f inc ((is, avail), acc) in
  length avail' = length avail /\ Forall ok avail' /\ (forall i a, nth_error avail' i = Some a -> P (n + length inc)%nat i (granted acc' i) (value a)) /\
  exists tail, acc' = acc ++ tail /\ map fst tail = map fst inc /\ Forall (fun m => length (snd m) = length avail /\ Forall ok (snd m)) tail.
Proof.
  induction inc as [|m inc IH]; intros is avail acc n HS HZ HA HI HP; cbn [fold_left].
  - rewrite Nat.add_0_r. split; auto. split; auto. split; auto. exists []. split; [now rewrite app_nil_r|auto].
  - inversion HI as [|? ? (Lm & Om) HI']; subst. cbn [accept_step_f]. destruct is.
    + set (space := forallb _ (combine (snd m) avail)). set (take := if space then snd m else avail).
      assert (LT : length take = length avail) by (unfold take; destruct space; auto). assert (OT : Forall ok take) by (unfold take; destruct space; auto).
      assert (BT : forall i a w, nth_error avail i = Some a -> nth_error take i = Some w -> value w <= value a).
      { intros i a w Ha Hw. unfold take in Hw. destruct space eqn:Es; [|assert (a = w) by congruence; subst; lra]. unfold space in Es. rewrite forallb_forall in Es.
        assert (I : In (w, a) (combine (snd m) avail)). { pose proof (nth_combine (fun x => x) (snd m) avail i w a Hw Ha) as N. rewrite map_id in N. eapply nth_error_In; eauto. }
        specialize (Es _ I). cbn [fst snd] in Es. apply negb_true_iff in Es. pose proof (proj1 (Forall_forall _ _) HA _ (nth_error_In _ _ Ha)) as (Fa & _). pose proof (proj1 (Forall_forall _ _) Om _ (nth_error_In _ _ Hw)) as (Fw & _).
        rewrite (flt_ok a w Fa Fw) in Es. destruct (Rlt_bool_spec (value a) (value w)); [discriminate|lra]. }
      set (avail' := map (fun x => fsub (fst x) (snd x)) (combine avail take)).
      assert (LA : length avail' = length avail) by (unfold avail'; rewrite map_length, combine_length; lia).
      assert (NA : forall i b, nth_error avail' i = Some b -> exists a w, nth_error avail i = Some a /\ nth_error take i = Some w /\ b = fsub a w).
      { intros i b Hb. assert (Li : (i < length avail)%nat) by (rewrite <- LA; apply nth_error_Some; congruence). destruct (nth_error avail i) as [a|] eqn:Ea; [|apply nth_error_None in Ea; lia]. destruct (nth_error take i) as [w|] eqn:Ew; [|apply nth_error_None in Ew; lia].
        exists a, w. split; auto. split; auto. unfold avail' in Hb. rewrite (nth_combine _ _ _ _ _ _ Ea Ew) in Hb. now inversion Hb. }
      assert (OA : Forall ok avail').
      { apply Forall_forall. intros b Hb. apply In_nth_error in Hb. destruct Hb as (i & Hb). destruct (NA i b Hb) as (a & w & Ha & Hw & ->). pose proof (proj1 (Forall_forall _ _) HA _ (nth_error_In _ _ Ha)) as (Fa & Pa). pose proof (proj1 (Forall_forall _ _) OT _ (nth_error_In _ _ Hw)) as (Fw & Pw).
        destruct (fsub_between a w Fa Fw) as (F & _ & B); [split; auto; eapply BT; eauto|]. split; [auto|apply B]. }
      specialize (IH (fold_left (fun _ a => flt f0 a) avail' true) avail' (acc ++ [(fst m, take)]) (S n)).
      destruct (fold_left accept_step_f inc _) as ((is', av), acc'). rewrite LA in IH. cbn [length]. rewrite Nat.add_succ_r. apply IH in HZ as (I1 & I2 & I3 & tail & -> & I4 & I5); auto.
      * split; auto. split; auto. split; auto. exists ((fst m, take) :: tail). split; [now rewrite <- app_assoc|]. split; [cbn; now f_equal|]. constructor; [cbn; auto|auto].
      * intros j i t a w H1 H2 H3 H4 H5. apply HS; auto. destruct H5 as [H5|(m' & ws & I & E & N)]; [auto|right; exists m', ws; split; [now right|auto]].
      * intros i b Hb. destruct (NA i b Hb) as (a & w & Ha & Hw & ->). rewrite granted_app. unfold granted at 2. cbn [map snd]. rewrite Hw. cbn [rsum fold_right]. rewrite Rplus_0_r.
        apply HS; [apply HP; auto| | | |].
        -- eapply Forall_forall; [exact HA|eapply nth_error_In; eauto].
        -- eapply Forall_forall; [exact OT|eapply nth_error_In; eauto].
        -- eapply BT; eauto.
        -- unfold take in Hw. destruct space; [right; exists m, (snd m); split; [now left|auto]|left; congruence].
    + specialize (IH false avail (acc ++ [(fst m, map (fun _ => f0) (snd m))]) (S n)). destruct (fold_left accept_step_f inc _) as ((is', av), acc'). cbn [length]. rewrite Nat.add_succ_r. apply IH in HZ as HH; auto.
      * destruct HH as (I1 & I2 & I3 & tail & -> & I4 & I5). split; auto. split; auto. split; auto. eexists ((fst m, map (fun _ => f0) (snd m)) :: tail). split; [now rewrite <- app_assoc|]. split; [cbn; now f_equal|].
        constructor; [cbn; rewrite map_length; split; auto; apply Forall_forall; intros x Hx; apply in_map_iff in Hx; destruct Hx as (? & <- & _); split; [reflexivity|rewrite value_f0; lra]|auto].
      * intros j i t a w H1 H2 H3 H4 H5. apply HS; auto. destruct H5 as [H5|(m' & ws & I & E & N)]; [auto|right; exists m', ws; split; [now right|auto]].
      * intros i a Ha. rewrite granted_app. unfold granted at 2. cbn [map snd]. rewrite nth_error_map. destruct (nth_error (snd m) i); cbn [option_map rsum fold_right]; rewrite ?value_f0; (replace (granted acc i + _) with (granted acc i) by lra); apply HZ; auto.
Qed.

(** ** cancel *)
Lemma fadd_pos_over cap x y : fin cap = true -> ok x -> ok y -> flt cap (fadd x y) = false -> fin (fadd x y) = true /\ value (fadd x y) = rnd (value x + value y) /\ value (fadd x y) <= value cap /\ 0 <= value (fadd x y).
Proof.
  intros Fc (Fx & Px) (Fy & Py) H. assert (F : fin (fadd x y) = true).
  { pose proof (@Bplus_correct 53 1024 hprec hmax mode_NE x y Fx Fy) as C. destruct (Rlt_bool_spec (Rabs (round radix2 (SpecFloat.fexp 53 1024) (round_mode mode_NE) (B2R x + B2R y))) (bpow radix2 1024)) as [L|L]; [apply C|]. exfalso.
    destruct C as (C & Sg). change (Bplus mode_NE x y) with (fadd x y) in C. destruct (Bsign x) eqn:Sx.
    - assert (Z1 : value x = 0). { destruct x as [s|s| |s m e B]; cbn in Sx, Px, Fx |- *; auto; try discriminate. subst s. exfalso. revert Px. apply Rlt_not_le. unfold value, B2R. cbn [cond_Zopp]. apply F2R_lt_0. reflexivity. }
      assert (Z2 : value y = 0). { symmetry in Sg. destruct y as [s|s| |s m e B]; cbn in Sg, Py, Fy |- *; auto; try discriminate. subst s. exfalso. revert Py. apply Rlt_not_le. unfold value, B2R. cbn [cond_Zopp]. apply F2R_lt_0. reflexivity. }
      unfold value in Z1, Z2. rewrite Z1, Z2, Rplus_0_r, round_0, Rabs_R0 in L; [|typeclasses eauto]. pose proof (bpow_gt_0 radix2 1024). lra.
    - assert (E : flt cap (fadd x y) = true); [|congruence]. unfold flt, Bltb. rewrite C. unfold binary_overflow. cbn. destruct cap as [s|s| |s m e B]; cbn in Fc |- *; try discriminate; auto; destruct s; reflexivity. }
  destruct (fadd_fin x y F) as (_ & _ & V). split; auto. split; auto. rewrite (flt_ok cap _ Fc F) in H. destruct (Rlt_bool_spec (value cap) (value (fadd x y))); [discriminate|]. split; [lra|]. rewrite V. apply rnd_ge0. lra.
Qed.
Lemma keep_bound cap : fin cap = true -> forall l w, ok w -> Forall ok l -> value w <= value cap ->
  (1 - u) ^ length (keep_f cap w l) * (value w + rsum (vals (keep_f cap w l))) <= value cap.
Proof.
  intros Fc. induction l as [|x l IH]; intros w Ow Ol Lw; cbn [keep_f]; [cbn; lra|]. inversion Ol as [|? ? Ox Ol']; subst.
  destruct (flt cap (fadd w x)) eqn:E; [now apply IH|]. destruct (fadd_pos_over cap w x Fc Ow Ox E) as (F & V & L & P). specialize (IH (fadd w x) (conj F P) Ol' L).
  cbn [length vals map rsum fold_right pow]. set (k := keep_f cap (fadd w x) l) in *. fold (vals k). fold (rsum (vals k)). pose proof (pow_bnd (length k)) as Pb. pose proof u_pos as U0. pose proof u_small as U1.
  destruct (add_err w x) as (e & Be & Ee). rewrite Ee in V. destruct Ow as (_ & Pw). destruct Ox as (_ & Px). assert (S0 : 0 <= value w + value x) by lra. pose proof (err_mul _ _ S0 Be) as M. rewrite <- V in M.
  assert (R0 : 0 <= rsum (vals k)).
  { apply rsum_ge0. apply Forall_forall. intros y Hy. unfold vals in Hy. apply in_map_iff in Hy. destruct Hy as (z & <- & Hz). assert (I : incl k l). { unfold k. clear. generalize (fadd w x). induction l as [|y l IH]; intros w'; cbn [keep_f]; [intros ? []|]. destruct (flt cap _); [apply incl_tl, IH|]. apply incl_cons; [now left|apply incl_tl, IH]. }
    apply (proj1 (Forall_forall _ _) Ol' z (I z Hz)). }
  eapply Rle_trans; [|exact IH]. rewrite (Rmult_comm (1 - u)), Rmult_assoc. apply Rmult_le_compat_l; [lra|]. nra.
Qed.
Lemma keep_sub cap l : forall w, sub (keep_f cap w l) l.
Proof. induction l as [|x l IH]; intros w; cbn [keep_f]; [constructor|]. destruct (flt _ _); constructor; apply IH. Qed.
Lemma keep_all cap : fin cap = true -> forall l w, ok w -> Forall ok l -> (1 + u) ^ length l * (value w + rsum (vals l)) <= value cap -> keep_f cap w l = l.
Proof.
  intros Fc. induction l as [|x l IH]; intros w Ow Ol H; cbn [keep_f]; auto. inversion Ol as [|? ? Ox Ol']; subst. cbn [length pow vals map rsum fold_right] in H. fold (vals l) in H. fold (rsum (vals l)) in H.
  pose proof (pow_ge1 (length l)) as P1. pose proof u_pos as U0. destruct Ow as (Fw & Pw). destruct Ox as (Fx & Px).
  assert (R0 : 0 <= rsum (vals l)). { apply rsum_ge0. apply Forall_forall. intros y Hy. unfold vals in Hy. apply in_map_iff in Hy. destruct Hy as (z & <- & Hz). apply (proj1 (Forall_forall _ _) Ol' z Hz). }
  destruct (add_err w x) as (e & Be & Ee). assert (S0 : 0 <= value w + value x) by lra. pose proof (err_mul _ _ S0 Be) as M.
  assert (Hs : (1 + u) * (value w + value x) + rsum (vals l) <= value cap). { eapply Rle_trans; [|exact H]. assert ((1+u) * (value w + value x + rsum (vals l)) <= (1 + u) * (1 + u) ^ length l * (value w + (value x + rsum (vals l)))); [|nra]. rewrite Rmult_assoc. apply Rmult_le_compat_l; [lra|]. rewrite Rplus_assoc. set (q := value w + (value x + rsum (vals l))). assert (0 <= q) by (unfold q; lra). nra. }
  destruct (fadd_ok w x Fw Fx) as (V & F). { rewrite Ee. apply (fin_lt_top cap); [|lra]. rewrite <- Ee. apply rnd_ge0. lra. }
  assert (L : value (fadd w x) <= value cap) by (rewrite V, Ee; lra). rewrite (flt_ok cap _ Fc F). destruct (Rlt_bool_spec (value cap) (value (fadd w x))); [lra|]. f_equal. apply IH; auto; [split; auto; rewrite V; apply rnd_ge0; lra|].
  eapply Rle_trans; [|exact H]. rewrite V, Ee. rewrite (Rmult_comm (1 + u)), Rmult_assoc. apply Rmult_le_compat_l; [lra|]. nra.
Qed.
