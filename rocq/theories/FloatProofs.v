(** Lemmas on rounded sums. *)
From Coq Require Import Reals Lra Psatz.
From Flocq Require Import Core BinarySingleNaN Plus_error Relative.
From Verif Require Import Base GraphModel Comm TagModel ConnModel MetricsModel.
From Verif Require Import FloatModel FloatSpec.
Local Open Scope R_scope.

Notation fe := (FLT_exp (-1074) 53).
Notation rnd := (round radix2 fe ZnearestE).
#[global] Existing Instance hprec.
#[global] Existing Instance hmax.

Lemma u_pos : 0 < u. Proof. unfold u. apply Rinv_0_lt_compat. apply IZR_lt. reflexivity. Qed.
Lemma u_small : u <= / 4. Proof. unfold u. apply Rinv_le; [lra|]. apply IZR_le. discriminate. Qed.
Lemma u_ro_u : u_ro radix2 53 = u.
Proof. unfold u_ro. rewrite bpow_plus. change (bpow radix2 (-(53))) with (/ IZR (2 ^ 53)). fold u. change (bpow radix2 1) with 2. field. Qed.
Lemma fmt_value x : generic_format radix2 fe (value x). Proof. apply (generic_format_B2R 53 1024 x). Qed.
Lemma fmt_0 : generic_format radix2 fe 0. Proof. apply generic_format_0. Qed.
Lemma fmt_int n : (Z.abs n < 2 ^ 53)%Z -> generic_format radix2 fe (IZR n).
Proof. intros H. apply generic_format_FLT. exists (Float radix2 n 0); unfold F2R; cbn [Fnum Fexp]; [cbn; lra|exact H|lia]. Qed.

Lemma rnd_le x y : x <= y -> rnd x <= rnd y. Proof. apply round_le; typeclasses eauto. Qed.
Lemma rnd_fmt x : generic_format radix2 fe x -> rnd x = x. Proof. apply round_generic; typeclasses eauto. Qed.
Lemma rnd_ge0 x : 0 <= x -> 0 <= rnd x. Proof. intros H. rewrite <- (rnd_fmt 0 fmt_0). now apply rnd_le. Qed.
Lemma rnd_le_fmt x y : generic_format radix2 fe y -> x <= y -> rnd x <= y. Proof. intros F H. rewrite <- (rnd_fmt y F). now apply rnd_le. Qed.
Lemma rnd_ge_fmt x y : generic_format radix2 fe y -> y <= x -> y <= rnd x. Proof. intros F H. rewrite <- (rnd_fmt y F). now apply rnd_le. Qed.

Lemma value_lt_top x : Rabs (value x) < top. Proof. apply (abs_B2R_lt_emax 53 1024). Qed.
Lemma top_int : IZR (2 ^ 53) < top. Proof. unfold top. change (IZR (2^53)) with (bpow radix2 53). apply bpow_lt. reflexivity. Qed.

Lemma fadd_ok x y : fin x = true -> fin y = true -> Rabs (rnd (value x + value y)) < top -> value (fadd x y) = rnd (value x + value y) /\ fin (fadd x y) = true.
Proof.
  intros Hx Hy H. pose proof (@Bplus_correct 53 1024 hprec hmax mode_NE x y Hx Hy) as C. rewrite Rlt_bool_true in C by exact H. destruct C as (C1 & C2 & _). split; [exact C1|exact C2].
Qed.
Lemma fadd_fin x y : fin (fadd x y) = true -> fin x = true /\ fin y = true /\ value (fadd x y) = rnd (value x + value y).
Proof.
  intros H. assert (F : fin x = true /\ fin y = true).
  { destruct x as [s|s| |s m e B], y as [s'|s'| |s' m' e' B']; cbn in H |- *; auto; try discriminate; destruct s, s'; cbn in H; discriminate. }
  destruct F as (Fx & Fy). split; auto. split; auto. pose proof (@Bplus_correct 53 1024 hprec hmax mode_NE x y Fx Fy) as C. destruct (Rlt_bool _ _).
  - apply C.
  - destruct C as (C & _). exfalso. unfold fin, fadd in H. rewrite <- is_finite_SF_B2SF in H. rewrite C in H. unfold binary_overflow in H. cbn in H. discriminate.
Qed.
Lemma fsub_ok x y : fin x = true -> fin y = true -> Rabs (rnd (value x - value y)) < top -> value (fsub x y) = rnd (value x - value y) /\ fin (fsub x y) = true.
Proof.
  intros Hx Hy H. pose proof (@Bminus_correct 53 1024 hprec hmax mode_NE x y Hx Hy) as C. rewrite Rlt_bool_true in C by exact H. destruct C as (C1 & C2 & _). split; [exact C1|exact C2].
Qed.
Lemma fmul_ok x y : fin x = true -> fin y = true -> Rabs (rnd (value x * value y)) < top -> value (fmul x y) = rnd (value x * value y) /\ fin (fmul x y) = true.
Proof.
  intros Hx Hy H. pose proof (@Bmult_correct 53 1024 hprec hmax mode_NE x y) as C. rewrite Rlt_bool_true in C by exact H. destruct C as (C1 & C2 & _). split; [exact C1|]. unfold fin, fmul in *. rewrite C2, Hx, Hy. reflexivity.
Qed.
Lemma fdiv_ok x y : fin x = true -> value y <> 0 -> Rabs (rnd (value x / value y)) < top -> value (fdiv x y) = rnd (value x / value y) /\ fin (fdiv x y) = true.
Proof.
  intros Hx Hy H. pose proof (@Bdiv_correct 53 1024 hprec hmax mode_NE x y Hy) as C. rewrite Rlt_bool_true in C by exact H. destruct C as (C1 & C2 & _). split; [exact C1|]. unfold fin, fdiv in *. rewrite C2. exact Hx.
Qed.
Lemma of_int_ok n : (Z.abs n < 2 ^ 53)%Z -> value (of_int n) = IZR n /\ fin (of_int n) = true.
Proof.
  intros H. pose proof (@binary_normalize_correct 53 1024 hprec hmax mode_NE n 0 false) as C. cbv zeta in C.
  assert (E : F2R (Float radix2 n 0) = IZR n) by (unfold F2R; cbn; lra). rewrite E in C.
  assert (R1 : round radix2 (SpecFloat.fexp 53 1024) (round_mode mode_NE) (IZR n) = IZR n) by (apply rnd_fmt, fmt_int, H).
  rewrite R1 in C. rewrite Rlt_bool_true in C; [destruct C as (C1 & C2 & _); split; [exact C1|exact C2]|].
  rewrite <- abs_IZR. eapply Rlt_trans; [apply IZR_lt, H|apply top_int].
Qed.
Lemma flt_ok x y : fin x = true -> fin y = true -> flt x y = Rlt_bool (value x) (value y).
Proof. intros Hx Hy. apply Bltb_correct; auto. Qed.

(** the error of one addition *)
Lemma add_err x y : exists e, Rabs e <= u /\ rnd (value x + value y) = (value x + value y) * (1 + e).
Proof.
  destruct (FLT_plus_error_N_ex radix2 (-1074) 53 (fun n => negb (Z.even n)) (value x) (value y) (fmt_value x) (fmt_value y)) as (e & B & E).
  exists e. split; [|exact E]. eapply Rle_trans; [exact B|]. rewrite u_ro_u. pose proof u_pos. assert (X : / (1 + u) <= / 1) by (apply Rinv_le; lra). rewrite Rinv_1 in X. unfold Rdiv. nra.
Qed.
Lemma fsub_err x y : exists e, Rabs e <= u /\ rnd (value x - value y) = (value x - value y) * (1 + e).
Proof. destruct (add_err x (Bopp y)) as (e & B & E). exists e. split; auto. unfold value in *. rewrite B2R_Bopp in E. exact E. Qed.

Lemma rsum_app a b : rsum (a ++ b) = rsum a + rsum b.
Proof. unfold rsum. induction a as [|x a IH]; cbn [app fold_right]; [lra|rewrite IH; lra]. Qed.
Lemma rsum_ge0 l : Forall (fun x => 0 <= x) l -> 0 <= rsum l.
Proof. induction 1; cbn [rsum fold_right]; [lra|]. unfold rsum in *. lra. Qed.
Lemma rsum_perm a b : Permutation a b -> rsum a = rsum b.
Proof. unfold rsum. induction 1; cbn [fold_right]; lra. Qed.

(** ** any reduction *)
Lemma vals_app a b : vals (a ++ b) = vals a ++ vals b. Proof. apply map_app. Qed.
Lemma leaves_pos t : (1 <= length (leaves t))%nat.
Proof. induction t; cbn [leaves]; [cbn; auto|]. rewrite app_length. lia. Qed.
Lemma reduced_fin t : fin (reduced t) = true -> Forall (fun x => fin x = true) (leaves t).
Proof.
  induction t as [x|a IHa b IHb]; cbn [reduced leaves]; intros H; [constructor; auto|]. apply fadd_fin in H. destruct H as (Ha & Hb & _). apply Forall_app. auto.
Qed.
Lemma pow_ge1 k : 1 <= (1 + u) ^ k. Proof. apply pow_R1_Rle. pose proof u_pos. lra. Qed.
Lemma pow_bnd k : 0 < (1 - u) ^ k <= 1.
Proof. pose proof u_pos. pose proof u_small. split; [apply pow_lt; lra|]. apply Rle_trans with (1 ^ k); [apply pow_incr; lra|rewrite pow1; lra]. Qed.
Lemma pow_mono_hi j k : (j <= k)%nat -> (1 + u) ^ j <= (1 + u) ^ k.
Proof. intros H. apply Rle_pow; auto. pose proof u_pos. lra. Qed.
Lemma pow_mono_lo j k : (j <= k)%nat -> (1 - u) ^ k <= (1 - u) ^ j.
Proof.
  intros H. replace k with (j + (k - j))%nat at 1 by lia. rewrite pow_add. pose proof (pow_bnd j). pose proof (pow_bnd (k - j)).
  rewrite <- (Rmult_1_r ((1 - u) ^ j)) at 2. apply Rmult_le_compat_l; lra.
Qed.
Lemma err_mul s e : 0 <= s -> Rabs e <= u -> (1 - u) * s <= s * (1 + e) <= (1 + u) * s.
Proof. intros Hs He. apply Rabs_le_inv in He. split; nra. Qed.
Lemma reduced_bound t : Forall (fun x => 0 <= x) (vals (leaves t)) -> fin (reduced t) = true ->
  let k := (length (leaves t) - 1)%nat in (1 - u) ^ k * rsum (vals (leaves t)) <= value (reduced t) <= (1 + u) ^ k * rsum (vals (leaves t)).
Proof.
  induction t as [x|a IHa b IHb]; cbn [reduced leaves]; intros HN HF; cbv zeta.
  - cbn. lra.
  - rewrite vals_app in HN. apply Forall_app in HN. destruct HN as (Na & Nb). apply fadd_fin in HF. destruct HF as (Fa & Fb & E). specialize (IHa Na Fa). specialize (IHb Nb Fb). cbv zeta in IHa, IHb.
    rewrite E, vals_app, rsum_app, app_length. pose proof (leaves_pos a) as La. pose proof (leaves_pos b) as Lb.
    set (ka := (length (leaves a) - 1)%nat) in *. set (kb := (length (leaves b) - 1)%nat) in *. replace (length (leaves a) + length (leaves b) - 1)%nat with (S (ka + kb)) by (unfold ka, kb; lia).
    pose proof (rsum_ge0 _ Na) as Sa. pose proof (rsum_ge0 _ Nb) as Sb. set (sa := rsum (vals (leaves a))) in *. set (sb := rsum (vals (leaves b))) in *.
    pose proof (pow_mono_hi ka (ka + kb) ltac:(lia)) as Pa. pose proof (pow_mono_hi kb (ka + kb) ltac:(lia)) as Pb. pose proof (pow_mono_lo ka (ka + kb) ltac:(lia)) as Qa. pose proof (pow_mono_lo kb (ka + kb) ltac:(lia)) as Qb.
    pose proof (pow_bnd (ka + kb)) as P0. pose proof u_pos. pose proof u_small.
    assert (A1 : (1 - u) ^ (ka + kb) * (sa + sb) <= value (reduced a) + value (reduced b) <= (1 + u) ^ (ka + kb) * (sa + sb)) by (split; nra).
    destruct (add_err (reduced a) (reduced b)) as (e & Be & ->). assert (A2 : 0 <= value (reduced a) + value (reduced b)) by nra. pose proof (err_mul _ _ A2 Be) as M. cbn [pow]. split; nra.
Qed.
Lemma reduced_finite t : Forall (fun x => fin x = true) (leaves t) -> Forall (fun x => 0 <= x) (vals (leaves t)) ->
  (1 + u) ^ (length (leaves t) - 1) * rsum (vals (leaves t)) < top -> fin (reduced t) = true.
Proof.
  induction t as [x|a IHa b IHb]; cbn [reduced leaves]; intros HF HN HT; [now inversion HF|].
  rewrite vals_app in HN, HT. apply Forall_app in HN. destruct HN as (Na & Nb). apply Forall_app in HF. destruct HF as (Fa & Fb). rewrite rsum_app, app_length in HT.
  pose proof (leaves_pos a) as La. pose proof (leaves_pos b) as Lb. pose proof (rsum_ge0 _ Na) as Sa. pose proof (rsum_ge0 _ Nb) as Sb.
  set (n := (length (leaves a) + length (leaves b) - 1)%nat) in *.
  pose proof (pow_mono_hi (length (leaves a) - 1) n ltac:(unfold n; lia)) as Pa. pose proof (pow_mono_hi (length (leaves b) - 1) n ltac:(unfold n; lia)) as Pb. pose proof (pow_ge1 n) as Pn. pose proof (pow_ge1 (length (leaves a) - 1)) as Ga. pose proof (pow_ge1 (length (leaves b) - 1)) as Gb.
  set (sa := rsum (vals (leaves a))) in *. set (sb := rsum (vals (leaves b))) in *.
  assert (X0 : (1 + u) ^ (length (leaves a) - 1) * sa <= (1 + u) ^ n * sa) by (apply Rmult_le_compat_r; lra).
  assert (X1 : (1 + u) ^ (length (leaves b) - 1) * sb <= (1 + u) ^ n * sb) by (apply Rmult_le_compat_r; lra).
  assert (X2 : 0 <= (1 + u) ^ n * sa) by (apply Rmult_le_pos; lra). assert (X3 : 0 <= (1 + u) ^ n * sb) by (apply Rmult_le_pos; lra). rewrite Rmult_plus_distr_l in HT.
  assert (Ia : fin (reduced a) = true) by (apply IHa; auto; fold sa; lra). assert (Ib : fin (reduced b) = true) by (apply IHb; auto; fold sb; lra).
  apply fadd_ok; auto. pose proof (reduced_bound a Na Ia) as Ba. pose proof (reduced_bound b Nb Ib) as Bb. cbv zeta in Ba, Bb.
  pose proof (pow_bnd (length (leaves a) - 1)) as La0. pose proof (pow_bnd (length (leaves b) - 1)) as Lb0. fold sa in Ba. fold sb in Bb.
  assert (Y0 : 0 <= value (reduced a)) by (eapply Rle_trans; [|apply Ba]; apply Rmult_le_pos; lra). assert (Y1 : 0 <= value (reduced b)) by (eapply Rle_trans; [|apply Bb]; apply Rmult_le_pos; lra).
  destruct (add_err (reduced a) (reduced b)) as (e & Be & ->). assert (A2 : 0 <= value (reduced a) + value (reduced b)) by lra. pose proof (err_mul _ _ A2 Be) as M. pose proof u_pos. pose proof u_small.
  assert (M1 : 0 <= (value (reduced a) + value (reduced b)) * (1 + e)) by (eapply Rle_trans; [|apply M]; apply Rmult_le_pos; lra).
  rewrite Rabs_pos_eq by exact M1. eapply Rle_lt_trans; [apply M|]. eapply Rle_lt_trans; [|exact HT].
  assert (Hn : (1 + u) ^ n = (1 + u) * (1 + u) ^ (n - 1)) by (replace n with (S (n - 1)) at 1 by (unfold n; lia); reflexivity).
  pose proof (pow_mono_hi (length (leaves a) - 1) (n - 1) ltac:(unfold n; lia)) as Qa. pose proof (pow_mono_hi (length (leaves b) - 1) (n - 1) ltac:(unfold n; lia)) as Qb. rewrite <- Rmult_plus_distr_l, Hn, Rmult_assoc.
  apply Rmult_le_compat_l; [lra|]. rewrite Rmult_plus_distr_l. apply Rplus_le_compat; (eapply Rle_trans; [first [apply Ba|apply Bb]|apply Rmult_le_compat_r; lra]).
Qed.

(** whole numbers *)
Lemma zsum_app a b : zsum (a ++ b) = (zsum a + zsum b)%Z.
Proof. unfold zsum. induction a; cbn [app fold_right]; lia. Qed.
Lemma zsum_abs l : (Z.abs (zsum l) <= zsum (map Z.abs l))%Z.
Proof. unfold zsum in *. induction l as [|x l IH]; cbn [map fold_right] in *; lia. Qed.
Lemma fadd_whole x y a b : whole x a -> whole y b -> (Z.abs (a + b) < 2 ^ 53)%Z -> whole (fadd x y) (a + b).
Proof.
  intros (Fx & Ex) (Fy & Ey) H. pose proof (fmt_int _ H) as F. assert (E : rnd (value x + value y) = IZR (a + b)) by (rewrite Ex, Ey, <- plus_IZR; apply rnd_fmt, F).
  destruct (fadd_ok x y Fx Fy) as (V & Fi); [rewrite E, <- abs_IZR; eapply Rlt_trans; [apply IZR_lt, H|apply top_int]|]. split; auto. now rewrite V.
Qed.
Lemma reduced_whole t ns : Forall2 whole (leaves t) ns -> (zsum (map Z.abs ns) < 2 ^ 53)%Z -> whole (reduced t) (zsum ns).
Proof.
  revert ns. induction t as [x|a IHa b IHb]; cbn [reduced leaves]; intros ns HW HS.
  - inversion HW as [|? n ? ? W W2]; subst. inversion W2; subst. cbn. now rewrite Z.add_0_r.
  - apply Forall2_app_inv_l in HW. destruct HW as (na & nb & Wa & Wb & ->). rewrite map_app, zsum_app in HS. rewrite zsum_app.
    pose proof (zsum_abs na). pose proof (zsum_abs nb). apply fadd_whole; [apply IHa; auto; lia|apply IHb; auto; lia|lia].
Qed.

(** the loop of getWeight is a reduction *)
Definition seq_red (l : list b64) (t : red) : red := fold_left (fun t x => Add t (Val x)) l t.
Lemma seq_red_leaves l t : leaves (seq_red l t) = leaves t ++ l.
Proof. revert t. induction l as [|x l IH]; intros t; cbn [seq_red fold_left]; [now rewrite app_nil_r|]. unfold seq_red in IH. rewrite IH. cbn [leaves]. now rewrite <- app_assoc. Qed.
Lemma seq_red_val l t : reduced (seq_red l t) = fold_left fadd l (reduced t).
Proof. revert t. induction l as [|x l IH]; intros t; cbn [seq_red fold_left]; auto. unfold seq_red in IH. now rewrite IH. Qed.
Lemma fsum_red l : fsum l = reduced (seq_red l (Val f0)) /\ leaves (seq_red l (Val f0)) = f0 :: l.
Proof. split; [unfold fsum; now rewrite seq_red_val|now rewrite seq_red_leaves]. Qed.
Lemma value_f0 : value f0 = 0. Proof. reflexivity. Qed.
Lemma fsum_whole l ns : Forall2 whole l ns -> (zsum (map Z.abs ns) < 2 ^ 53)%Z -> whole (fsum l) (zsum ns).
Proof.
  intros HW HS. destruct (fsum_red l) as (-> & L). change (zsum ns) with (zsum (0 :: ns)%Z). apply reduced_whole; [rewrite L; constructor; [split; [reflexivity|apply value_f0]|exact HW]|exact HS].
Qed.
Lemma fsum_bound l : Forall (fun x => 0 <= x) (vals l) -> fin (fsum l) = true -> (1 - u) ^ length l * rsum (vals l) <= value (fsum l) <= (1 + u) ^ length l * rsum (vals l).
Proof.
  intros HN HF. destruct (fsum_red l) as (E & L). rewrite E in *. assert (HN' : Forall (fun x => 0 <= x) (vals (f0 :: l))) by (cbn [vals map]; constructor; [rewrite value_f0; lra|exact HN]).
  rewrite <- L in HN'. pose proof (reduced_bound _ HN' HF) as B. cbv zeta in B. rewrite L in B. cbn [length vals map rsum fold_right] in B. rewrite value_f0 in B. replace (S (length l) - 1)%nat with (length l) in B by lia.
  fold (vals l) in B. fold (rsum (vals l)) in B. rewrite Rplus_0_l in B. exact B.
Qed.
Lemma fsum_finite l : Forall (fun x => fin x = true) l -> Forall (fun x => 0 <= x) (vals l) -> (1 + u) ^ length l * rsum (vals l) < top -> fin (fsum l) = true.
Proof.
  intros HF HN HT. destruct (fsum_red l) as (E & L). rewrite E. apply reduced_finite; rewrite L; [constructor; auto; reflexivity|cbn [vals map]; constructor; [rewrite value_f0; lra|exact HN]|].
  cbn [length vals map rsum fold_right]. rewrite value_f0. replace (S (length l) - 1)%nat with (length l) by lia. fold (vals l). fold (rsum (vals l)). now rewrite Rplus_0_l.
Qed.
