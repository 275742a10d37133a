(** A step of weight diffusion. *)
From Verif Require Import Base GraphModel GraphSpec CsrProofs ConstructProofs GraphTop GraphTop2 AccessProofs Comm TagModel TagProps MetricsModel MetricsProofs MetricsProps SdModel QueueModel QueueProps MigrateModel MigrateSpec MigrateProofs1 MigrateProofs3 SelectorModel SelectorProofs SidesProofs SidesProps WeightMigModel WeightMigProps BalanceProps WBalModel WBalProofs1 WBalProofs2 WBalSpec.
From Verif Require MigrateTop.
From Coq Require Import Lqa Qround.
Local Open Scope nat_scope.

Lemma units_add D a b : (units D (a + b) == units D a + units D b)%Q.
Proof. unfold units, Qeq, Qplus. cbn [Qnum Qden]. rewrite Pos2Z.inj_mul. ring. Qed.
Lemma units_sum D l : (qsum (map (units D) l) == units D (zsum l))%Q.
Proof. induction l as [|x l IH]; [reflexivity|]. change (units D x + qsum (map (units D) l) == units D (x + zsum l))%Q. rewrite IH, units_add. reflexivity. Qed.
Lemma units_lt D a b : (units D a < units D b)%Q <-> (a < b)%Z.
Proof. unfold units, Qlt. cbn [Qnum Qden]. nia. Qed.
Lemma units_pos D a : (0 < units D a)%Q <-> (0 < a)%Z.
Proof. unfold units, Qlt. cbn [Qnum Qden]. nia. Qed.

Lemma nth_combine A B (l : list A) (l' : list B) i a b : nth_error l i = Some a -> nth_error l' i = Some b -> nth_error (combine l l') i = Some (a, b).
Proof. revert l' i. induction l as [|x l IH]; intros [|y l'] [|i]; cbn; intros H1 H2; try discriminate; [congruence|now apply IH]. Qed.

Lemma choose_list A (P : nat -> A -> Prop) k : (forall r, r < k -> exists x, P r x) -> exists l, length l = k /\ forall r x, nth_error l r = Some x -> P r x.
Proof.
  induction k as [|k IH]; intros H; [exists []; split; auto; intros [|r]; discriminate|]. destruct IH as (l & L & X); [intros; apply H; lia|]. destruct (H k) as (x & Px); [lia|]. exists (l ++ [x]). split; [rewrite app_length; cbn; lia|].
  intros r y Hy. destruct (Nat.lt_ge_cases r k); [rewrite nth_error_app1 in Hy by lia; auto|]. rewrite nth_error_app2 in Hy by lia. destruct (r - length l) as [|m] eqn:E; [cbn in Hy; assert (r = k) by lia; subst r; now replace y with x by congruence|destruct m; discriminate].
Qed.
Section Step.
Variables (val : Z -> Q) (D : positive) (fuel : nat) (inp : winput) (ps : list part_in).
Hypothesis DF : diffusible val fuel (w_type inp) ps.
Notation n := (length ps).
Notation W r := (match nth_error ps r with Some p => part_total p | None => 0%Z end).

Lemma b_lt A (l : list A) r x : length l = n -> nth_error l r = Some x -> r < n.
Proof. intros L H. rewrite <- L. apply nth_error_Some. congruence. Qed.
Lemma b_at (w : wworld) r : placed ps w -> r < n -> exists p s, nth_error ps r = Some p /\ nth_error w r = Some s /\ build_part (Z.of_nat r) true (in_verts p) (in_vws p) (in_tys p) (in_owns p) = Some (fst s).
Proof.
  intros (Lw & B) Lr. destruct (nth_error ps r) as [p|] eqn:Ep; [|apply nth_error_None in Ep; lia]. destruct (nth_error w r) as [s|] eqn:Es; [|apply nth_error_None in Es; lia]. eauto 6.
Qed.
Lemma b_ghost r p v : nth_error ps r = Some p -> In v (ghosts_of (in_verts p) (in_tys p)) -> part_of (Z.of_nat r) (in_verts p) (in_owns p) v <> Z.of_nat r.
Proof.
  intros Hp Hv E. pose proof (df_own _ _ _ _ DF) as HO. pose proof (df_once _ _ _ _ DF) as HN. destruct (owner_home ps HO r p v Hp) as (q & p' & E' & Hq & Hin); [apply in_or_app; auto|].
  assert (q = r) by lia. subst q. assert (p' = p) by congruence. subst p'. pose proof (df_valid _ _ _ _ DF p (nth_error_In _ _ Hp)) as HV.
  destruct (construction_total (Z.of_nat r) true (in_verts p) (in_vws p) (in_tys p) (in_owns p) HV) as (g0 & _ & g & HB). exact (c_ghost_not_local _ _ _ _ _ _ (p_constructed _ _ _ _ _ _ _ HV HB) v Hv Hin).
Qed.
(** weights *)
Lemma b_weights (w : wworld) : placed ps w -> exists ws, wb_weights D fuel w = Some ws /\ length ws = n /\ forall r x, nth_error ws r = Some x -> (x == units D (W r))%Q.
Proof.
  intros HP. pose proof HP as (Lw & HB). unfold wb_weights. change (local (fun s => getWeight (units D) (fst s) None None false fuel) w (fun ws => length ws = n /\ forall r x, nth_error ws r = Some x -> (x == units D (W r))%Q)).
  apply local_intro with (PB := fun r x => (x == units D (W r))%Q); [|intros ws L H; split; [congruence|auto]].
  intros r s Hs. destruct (b_at w r HP (b_lt _ _ _ _ Lw Hs)) as (p & s' & Ep & Es & B). assert (s' = s) by congruence. subst s'. rewrite Ep. pose proof (nth_error_In _ _ Ep) as Ip.
  destruct (C34_vertex_weight (units D) (Z.of_nat r) true (in_verts p) (in_vws p) (in_tys p) (fst s) None fuel) as (x & E & X); [eapply p_constructed; eauto; apply (df_valid _ _ _ _ DF); auto|apply (df_fuel _ _ _ _ DF); auto|].
  exists x. split; auto. rewrite X. apply units_sum.
Qed.
(** sides *)
Definition bn (r q : nat) : Prop := r <> q /\ r < n /\ q < n /\ exists p p' ty e v u, nth_error ps r = Some p /\ nth_error ps q = Some p' /\ nth_error (in_tys p) (w_type inp) = Some ty /\ In e (fst ty) /\ In v (snd e) /\ In v (in_verts p) /\ In u (snd e) /\ In u (in_verts p').
Lemma bn_sym r q : bn r q -> bn q r.
Proof.
  intros (A & B & C & p & p' & ty & e & v & u & Hp & Hp' & Ht & He & Hv & Lv & Hu & Lu). split; auto. split; auto. split; auto.
  destruct (df_edges _ _ _ _ DF p _ ty e (nth_error_In _ _ Hp) Ht He) as (_ & X). destruct (X p' u (nth_error_In _ _ Hp') Hu Lu) as (ty' & e' & Ht' & He' & S). exists p', p, ty', e', u, v. repeat (split; auto); now apply S.
Qed.
Definition bside_ok (r : nat) (s : cont Z) : Prop :=
  NoDup (map fst (c_d s)) /\ ((exists p, chas s p = true) -> (0 < c_total s)%Z) /\ (forall p, 0 <= cget 0%Z s p <= c_total s)%Z /\ forall z, chas s z = true <-> exists q, z = Z.of_nat q /\ bn r q.
Lemma b_sides (w : wworld) : placed ps w -> exists ss, mapM (fun s => makeSides val (fst s) (w_type inp) fuel) w = Some ss /\ length ss = n /\ forall r s, nth_error ss r = Some s -> bside_ok r s.
Proof.
  intros HP. pose proof HP as (Lw & HB). change (local (fun s => makeSides val (fst s) (w_type inp) fuel) w (fun ss => length ss = n /\ forall r s, nth_error ss r = Some s -> bside_ok r s)).
  apply local_intro with (PB := bside_ok); [|intros ss L H; split; [congruence|auto]].
  intros r s0 Hs. pose proof (b_lt _ _ _ _ Lw Hs) as Lr. destruct (b_at w r HP Lr) as (p & s' & Ep & Es & B). assert (s' = s0) by congruence. subst s'. pose proof (nth_error_In _ _ Ep) as Ip.
  pose proof (df_valid _ _ _ _ DF p Ip) as HV. destruct (df_types _ _ _ _ DF p Ip) as (_ & LT). destruct (nth_error (in_tys p) (w_type inp)) as [ty|] eqn:Ht; [|apply nth_error_None in Ht; lia].
  assert (HW : forall e, In e (erecs ty) -> (1 <= val (snd e))%Q) by (intros e He; eapply (df_side _ _ _ _ DF); eauto).
  destruct (C41_truncated val (Z.of_nat r) (in_verts p) (in_vws p) (in_tys p) (in_owns p) (fst s0) (w_type inp) ty fuel HV B Ht) as (s & E & R).
  { apply (df_fuel _ _ _ _ DF p Ip). eapply nth_error_In; eauto. }
  { intros e He. specialize (HW e He). lra. }
  exists s. split; auto. destruct (C42_sides_fit _ _ _ _ _ R) as (ND & BD & TP).
  { intros e He. specialize (HW e He). apply Qfloor_resp_le in HW. change (Qfloor 1) with 1%Z in HW. lia. }
  destruct R as (_ & _ & HH & _). split; auto. split; auto. split; auto.
  pose proof (df_own _ _ _ _ DF) as HO. pose proof (df_once _ _ _ _ DF) as HN. destruct ty as [es ws].
  assert (IE : forall e, In e (erecs (es, ws)) -> In (fst e) es) by (intros [e x] He; unfold erecs in He; apply in_combine_l in He; exact He).
  assert (EI : forall e, In e es -> exists x, In (e, x) (erecs (es, ws))).
  { intros e He. apply In_nth_error in He as (i & Hi). assert (Li : i < length es) by (apply nth_error_Some; congruence). pose proof (eweights_length _ _ _ _ _ _ HV (nth_error_In _ _ Ht)) as LE. destruct (nth_error (eweights (es, ws)) i) as [x|] eqn:Ex; [|apply nth_error_None in Ex; lia].
    exists x. unfold erecs. cbn [fst]. eapply nth_error_In. apply nth_combine; eauto. }
  assert (IA : forall e v, In e es -> In v (snd e) -> In v (in_verts p ++ ghosts_of (in_verts p) (in_tys p))).
  { intros e v He Hv. apply (c_incl _ _ _ _ _ _ (p_constructed _ _ _ _ _ _ _ HV B) _ es ws Ht). apply in_concat. exists (snd e). split; auto. now apply in_map. }
  intros z. rewrite HH. split.
  - intros (Nz & e & He & _ & I). unfold homes in I. apply in_map_iff in I as (u & <- & Hu). pose proof (IE e He) as Hee. destruct (owner_home ps HO r p u Ep (IA _ _ Hee Hu)) as (q & p' & E1 & Hq & Lu).
    exists q. split; auto. split; [intros ->; congruence|]. split; auto. split; [apply nth_error_Some; congruence|]. destruct (df_edges _ _ _ _ DF p _ _ _ Ip Ht Hee) as ((v & Hv & Lv) & _). exists p, p', (es, ws), (fst e), v, u. repeat (split; auto).
  - intros (q & -> & Nq & _ & Lq & p1 & p' & ty & e & v & u & Hp & Hp' & Ht' & He & Hv & Lv & Hu & Lu). assert (p1 = p) by congruence. subst p1. rewrite Ht in Ht'. inversion Ht'; subst ty. cbn [fst] in He. split; [lia|]. destruct (EI e He) as (x & Hx). exists (e, x). split; auto.
    assert (H1 : part_of (Z.of_nat r) (in_verts p) (in_owns p) v = Z.of_nat r). { unfold part_of. destruct (in_dec Z.eq_dec v (in_verts p)); [auto|contradiction]. }
    assert (H2 : part_of (Z.of_nat r) (in_verts p) (in_owns p) u = Z.of_nat q).
    { destruct (owner_home ps HO r p u Ep (IA _ _ He Hu)) as (q' & p2 & E2 & Hq2 & Lu2). rewrite E2. f_equal. eapply wm_disjoint; eauto. }
    unfold borders, homes, is_cut. cbn [fst]. split; [exists (Z.of_nat r), (Z.of_nat q); rewrite <- H1 at 1; rewrite <- H2 at 1; split; [now apply in_map|]; split; [now apply in_map|lia]|]. rewrite <- H2. now apply in_map.
Qed.
(** the exchange of the weights *)
Lemma b_exchange (w : wworld) : placed ps w -> wb_exchange val D fuel inp w (fun xs => length xs = n /\ forall r x, nth_error xs r = Some x ->
  bside_ok r (fst x) /\ (fst (snd x) == units D (W r))%Q /\ forall q, bn r q -> (cget 0%Q (snd (snd x)) (Z.of_nat q) == units D (W q))%Q).
Proof.
  intros HP. destruct (b_sides w HP) as (ss & Es & Ls & HSS). destruct (b_weights w HP) as (ws & Ew & Lw & HW). exists ss, ws. split; auto. split; auto.
  assert (LC : length (combine ss ws) = n) by (rewrite combine_length; lia).
  apply phase_intro with (PB := fun r x => bside_ok r (fst x) /\ (fst (snd x) == units D (W r))%Q /\ forall q, bn r q -> (cget 0%Q (snd (snd x)) (Z.of_nat q) == units D (W q))%Q).
  - intros i [s x] Hi. eexists. split; [reflexivity|]. intros m Hm. apply combine_nth_inv in Hi as (Hi & _). cbn [fst snd] in *. unfold weights_sent in Hm. apply in_map_iff in Hm as ((z, y) & <- & Hm). cbn [fst]. rewrite LC.
    destruct (HSS i s Hi) as (ND & _ & _ & HK). assert (chas s z = true). { unfold chas. rewrite (zfind_in _ _ z y); auto. } apply HK in H as (q & -> & _ & _ & Lq & _). lia.
  - intros sent rcv Esn Dl i [s x] r Hi Hr. apply combine_nth_inv in Hi as (Hi & Hx). cbn [fst snd] in *. eexists. split; [reflexivity|]. cbn [fst snd]. split; [now apply HSS|]. split; [now apply HW|].
    intros q Hq. assert (SS : sent = map (fun x => weights_sent (fst x) (snd x)) (combine ss ws)).
    { enough (X : Some sent = Some (map (fun x => weights_sent (fst x) (snd x)) (combine ss ws))) by congruence. rewrite <- Esn. apply mapM_some. reflexivity. } subst sent.
    assert (NDS : forall s, In s ss -> NoDup (map fst (c_d s))) by (intros s1 H1; apply In_nth_error in H1 as (j & Hj); apply (HSS j s1 Hj)).
    destruct (C42_weights ss ws rcv i r (weights_recv r)) as (H1 & _); auto; [congruence|]. pose proof Hq as (_ & _ & Lq & _).
    destruct (nth_error ss q) as [sq|] eqn:Eq; [|apply nth_error_None in Eq; lia]. destruct (nth_error ws q) as [xq|] eqn:Ex; [|apply nth_error_None in Ex; lia].
    destruct (H1 q sq xq Eq Ex) as (_ & ->); [|now apply HW]. apply (HSS q sq Eq). exists i. split; auto. now apply bn_sym.
  - intros tw L H. split; [congruence|auto].
Qed.
(** targets *)
Definition tgt_ok (r : nat) (T : cont Q) : Prop := forall z, chas T z = true -> exists q, z = Z.of_nat q /\ r <> q /\ q < n /\ (W q < W r)%Z /\
  ((0 < cget 0%Q T z)%Q -> (cget 0%Q T z <= w_step inp * (units D (W r) - units D (W q)))%Q).
Lemma b_targets r sideTol g x : r < n -> bside_ok r (fst x) -> (fst (snd x) == units D (W r))%Q -> (forall q, bn r q -> (cget 0%Q (snd (snd x)) (Z.of_nat q) == units D (W q))%Q) ->
  exists T, wb_targets inp n sideTol g x = Some T /\ tgt_ok r T.
Proof.
  intros Lr (ND & TZ & BD & HK) Hm HN. unfold wb_targets. destruct x as [s [my c]]. cbn [fst snd] in *.
  destruct (c_d s) as [|kv rest] eqn:Ed.
  - unfold makeTargets. rewrite Ed. cbn [foldM]. eexists. split; [reflexivity|]. intros z H. discriminate.
  - assert (TN : (0 < c_total s)%Z). { apply TZ. exists (fst kv). unfold chas. rewrite Ed. cbn [zfind]. destruct kv as [k y]. cbn [fst]. rewrite Z.eqb_refl. reflexivity. }
    rewrite <- Ed in ND. destruct (C42_targets (hyper g) n (w_step inp) s c my sideTol [] ND) as (T & ET & NT & _ & HT & HG); [lia|]. exists T. split; auto.
    intros z Hz. pose proof (HG z Hz) as G. apply HT in Hz as (Hs & _ & LT). apply HK in Hs as (q & -> & Nq). pose proof Nq as (A & _ & B & _). exists q. split; auto. split; auto. split; auto. rewrite (HN q Nq), Hm in LT. split; [now apply units_lt in LT|].
    intros P. rewrite G in *. rewrite (HN q Nq), Hm in *. clear G. set (d := (units D (W r) - units D (W q))%Q) in *.
    assert (F : (0 <= inject_Z (cget 0%Z s (Z.of_nat q)) / inject_Z (c_total s) <= 1)%Q).
    { destruct (BD (Z.of_nat q)) as (B1 & B2). assert (QP : (0 < inject_Z (c_total s))%Q) by (rewrite <- (Zlt_Qlt 0); auto). rewrite (Zle_Qle 0) in B1. rewrite Zle_Qle in B2. change (inject_Z 0) with 0%Q in B1.
      split; [apply Qle_shift_div_l; auto; lra|apply Qle_shift_div_r; auto; lra]. }
    set (f := (inject_Z (cget 0%Z s (Z.of_nat q)) / inject_Z (c_total s))%Q) in *. assert (DP : (0 < d)%Q) by (unfold d; lra).
    destruct (Qlt_le_dec 0 (w_step inp)) as [SP|SN].
    + assert (X : (0 <= (d * w_step inp) * (1 - f))%Q) by (apply Qmult_le_0_compat; [apply Qmult_le_0_compat|]; lra). lra.
    + exfalso. assert (X : (0 <= (d * f) * (0 - w_step inp))%Q) by (apply Qmult_le_0_compat; [apply Qmult_le_0_compat|]; lra). lra.
Qed.
(** the plans of all parts *)
Definition cs_ok (r : nat) (p : part_in) (T : cont Q) (cs : list wcall) : Prop :=
  (forall c, In c cs -> fst (fst c) < length (in_verts p) /\ length (in_verts p) <= snd (fst c) < length (in_verts p ++ ghosts_of (in_verts p) (in_tys p)) /\ chas T (home (Z.of_nat r) p (snd (fst c))) = true /\ exists x, (0 <= x)%Z /\ snd c = (x * Zpos D)%Z) /\
  (forall m, m < length (in_verts p) -> (sent_by cs m <= wold p m)%Z) /\
  (forall o, (0 <= sent_to (home (Z.of_nat r) p) cs o)%Z /\ (sent_to (home (Z.of_nat r) p) cs o = 0%Z \/ (units D (sent_to (home (Z.of_nat r) p) cs o) <= cget 0%Q T o)%Q)) /\ length cs < fuel.
Lemma b_plan (w : wworld) r p s T o : placed ps w -> nth_error ps r = Some p -> nth_error w r = Some s -> (forall c, Permutation (o c) c) ->
  exists plan cs, weight_plan D o (fst s) fuel T = Some plan /\ plan = wm_made (map hcall cs) /\ cs_ok r p T cs.
Proof.
  intros (Lw & HB) Hp Hs Ho. pose proof (nth_error_In _ _ Hp) as Ip. destruct (df_types _ _ _ _ DF p Ip) as (L0 & _). destruct (nth_error (in_tys p) 0) as [[es ews]|] eqn:Ht; [|apply nth_error_None in Ht; lia].
  destruct (df_fuel _ _ _ _ DF p Ip) as (_ & FU). destruct (FU (es, ews) (nth_error_In _ _ Ht)) as (F1 & F2). cbn [fst] in F1, F2.
  destruct (hyper_plan D o fuel (Z.of_nat r) p (fst s) es ews T Ho (df_valid _ _ _ _ DF p Ip) (HB r p s Hp Hs) Ht F1) as (plan & cs & A & B & C1 & C2 & C3 & C4).
  - intros e He. assert (X : length (snd e) <= nsum (map (fun e => length (snd e)) es)). { clear - He. unfold nsum. induction es as [|a l IH]; [destruct He|]. cbn. destruct He as [->|He]; [lia|]. specialize (IH He). lia. } lia.
  - intros e He. apply (df_edges _ _ _ _ DF p 0 _ e Ip Ht He).
  - intros v Hv. eapply b_ghost; eauto.
  - intros z Hz. eapply (df_weights _ _ _ _ DF); eauto.
  - exists plan, cs. split; auto. split; auto. split; auto. split; auto. split; auto. lia.
Qed.
(** the transfers of all parts *)
Definition transfers (calls : list (list wcall)) : list transfer :=
  flat_map (fun pc : part_in * list wcall => map (fun c : wcall => (gid_of (fst pc) (fst (fst c)), gid_of (fst pc) (snd (fst c)), snd c)) (snd pc)) (combine ps calls).
Lemma moved_carried calls (A B : Z -> bool) : moved ps calls (fun a b => A a && B b) = carried (transfers calls) A B.
Proof. unfold moved, carried, transfers. rewrite sumf_flat. apply sumf_ext. intros pc _. rewrite sumf_map. reflexivity. Qed.
Lemma moved_ext calls (P P' : Z -> Z -> bool) : (forall a b, P a b = P' a b) -> moved ps calls P = moved ps calls P'.
Proof. intros H. unfold moved. apply sumf_ext. intros pc _. apply sumf_ext. intros c _. now rewrite H. Qed.
Lemma sumf_le0 A (f : A -> Z) l : (forall x, In x l -> (0 <= f x)%Z) -> (0 <= sumf f l)%Z.
Proof. unfold sumf, zsum. induction l as [|x l IH]; cbn; intros H; [lia|]. assert (0 <= f x)%Z by auto. assert (0 <= fold_right Z.add 0 (map f l))%Z by auto. lia. Qed.
Section Plans.
Variables (w : wworld) (calls : list (list wcall)) (tgts : list (cont Q)) (mps : list wmpart).
Hypothesis HP : placed ps w.
Hypothesis Lt : length tgts = n.
Hypothesis Lc : length calls = n.
Hypothesis HT : forall r T, nth_error tgts r = Some T -> tgt_ok r T.
Hypothesis HC : forall r p T cs, nth_error ps r = Some p -> nth_error tgts r = Some T -> nth_error calls r = Some cs -> cs_ok r p T cs.
Lemma c_at r p : nth_error ps r = Some p -> exists T cs, nth_error tgts r = Some T /\ nth_error calls r = Some cs /\ tgt_ok r T /\ cs_ok r p T cs.
Proof.
  intros Hp. assert (Lr : r < n) by (apply nth_error_Some; congruence). destruct (nth_error tgts r) as [T|] eqn:ET; [|apply nth_error_None in ET; lia]. destruct (nth_error calls r) as [cs|] eqn:EC; [|apply nth_error_None in EC; lia]. eauto 8.
Qed.
Lemma t_in a b x : In (a, b, x) (transfers calls) -> exists r p cs c, nth_error ps r = Some p /\ nth_error calls r = Some cs /\ In c cs /\ a = gid_of p (fst (fst c)) /\ b = gid_of p (snd (fst c)) /\ x = snd c.
Proof.
  unfold transfers. intros H. apply in_flat_map in H as ((p, cs) & Hpc & H). apply In_nth_error in Hpc as (r & Hr). apply combine_nth_inv in Hr as (Hp & Hcs). cbn [fst snd] in H. apply in_map_iff in H as (c & E & Hc). inversion E; subst. exists r, p, cs, c. auto 10.
Qed.
Lemma own_sum r p cs (A B : Z -> bool) : nth_error ps r = Some p -> nth_error calls r = Some cs -> (forall a, A a = true -> In a (in_verts p)) ->
  carried (transfers calls) A B = sumf (fun c => if A (gid_of p (fst (fst c))) && B (gid_of p (snd (fst c))) then snd c else 0%Z) cs.
Proof.
  intros Hp Hcs HA. rewrite <- moved_carried. unfold moved.
  rewrite (sumf_single _ (fun pc : part_in * list wcall => sumf (fun c => if A (gid_of (fst pc) (fst (fst c))) && B (gid_of (fst pc) (snd (fst c))) then snd c else 0%Z) (snd pc)) (combine ps calls) r (p, cs)).
  - reflexivity.
  - now apply nth_combine.
  - intros i [p' cs'] Hi Ni. apply combine_nth_inv in Hi as (Hp' & Hcs'). cbn [fst snd]. apply sumf_zero. intros c Hc. destruct (A _) eqn:EA; [|reflexivity]. exfalso. apply HA in EA. destruct (c_at i p' Hp') as (T & cs2 & _ & E2 & _ & (CC & _)). assert (cs2 = cs') by congruence. subst cs2. destruct (CC c Hc) as (L & _).
    apply Ni. eapply (wm_disjoint ps (df_once _ _ _ _ DF)); eauto. now apply gid_local.
Qed.
Lemma from_vertex r p cs l v : nth_error ps r = Some p -> nth_error calls r = Some cs -> nth_error (in_verts p) l = Some v -> carried (transfers calls) (Z.eqb v) any = sent_by cs l.
Proof.
  intros Hp Hcs Hl. rewrite (own_sum r p cs); auto; [|intros a E; apply Z.eqb_eq in E; subst; eapply nth_error_In; eauto]. unfold sent_by. apply sumf_ext. intros c Hc. unfold any. rewrite andb_true_r.
  destruct (c_at r p Hp) as (T & cs2 & _ & E2 & _ & (CC & _)). assert (cs2 = cs) by congruence. subst cs2. destruct (CC c Hc) as (L & _).
  assert (N1 : nth_error (in_verts p) (fst (fst c)) = Some (gid_of p (fst (fst c)))). { unfold gid_of. rewrite app_nth1 by auto. now apply nth_error_nth'. }
  assert (NDv : NoDup (in_verts p)) by (apply (df_valid _ _ _ _ DF p (nth_error_In _ _ Hp))).
  destruct (Nat.eqb_spec (fst (fst c)) l) as [<-|N]; destruct (Z.eqb_spec v (gid_of p (fst (fst c)))) as [E|E]; auto; [congruence|]. exfalso. apply N. rewrite <- E in N1. eapply NoDup_nth_error_inj; eauto.
Qed.
Lemma to_part r q p p' cs : nth_error ps r = Some p -> nth_error ps q = Some p' -> nth_error calls r = Some cs -> carried (transfers calls) (is_in (in_verts p)) (is_in (in_verts p')) = sent_to (home (Z.of_nat r) p) cs (Z.of_nat q).
Proof.
  intros Hp Hq Hcs. rewrite (own_sum r p cs); auto; [|intros a E; now apply is_in_ok]. unfold sent_to. apply sumf_ext. intros c Hc.
  destruct (c_at r p Hp) as (T & cs2 & _ & E2 & _ & (CC & _)). assert (cs2 = cs) by congruence. subst cs2. destruct (CC c Hc) as (L & (L1 & L2) & _). rewrite (proj2 (is_in_ok _ _) (gid_local p _ L)). cbn [andb].
  destruct (owner_home ps (df_own _ _ _ _ DF) r p (gid_of p (snd (fst c))) Hp (gid_in p _ L2)) as (q' & p2 & E & Hq' & Hin). unfold home. rewrite E.
  destruct (is_in (in_verts p') (gid_of p (snd (fst c)))) eqn:EI.
  - apply is_in_ok in EI. assert (q' = q) by (eapply (wm_disjoint ps (df_once _ _ _ _ DF)); eauto). subst q'. now rewrite Z.eqb_refl.
  - destruct (Z.eqb_spec (Z.of_nat q') (Z.of_nat q)) as [EE|]; auto. apply Nat2Z.inj in EE. subst q'. assert (p2 = p') by congruence. subst p2. apply is_in_ok in Hin. congruence.
Qed.
Lemma t_nonneg A B : (0 <= carried (transfers calls) A B)%Z.
Proof.
  unfold carried. apply sumf_le0. intros [[a b] x] H. cbn [fst snd]. destruct (A a && B b); [|lia]. apply t_in in H as (r & p & cs & c & Hp & Hcs & Hc & _ & _ & ->). destruct (c_at r p Hp) as (T & cs2 & _ & E2 & _ & (CC & _)). assert (cs2 = cs) by congruence. subst cs2.
  destruct (CC c Hc) as (_ & _ & _ & k & K & ->). nia.
Qed.
(** the first three clauses of [diffused] *)
Lemma plans_ok : (forall a b x, In (a, b, x) (transfers calls) -> (0 <= x)%Z /\ (exists k, x = (k * Zpos D)%Z) /\ exists p q, In p ps /\ In q ps /\ In a (in_verts p) /\ In b (in_verts q) /\ (part_total q < part_total p)%Z) /\
  (forall p l v, In p ps -> nth_error (in_verts p) l = Some v -> (carried (transfers calls) (Z.eqb v) any <= given p l)%Z) /\
  (forall p q, In p ps -> In q ps -> (0 < carried (transfers calls) (is_in (in_verts p)) (is_in (in_verts q)))%Z ->
     (units D (carried (transfers calls) (is_in (in_verts p)) (is_in (in_verts q))) <= w_step inp * (units D (part_total p) - units D (part_total q)))%Q).
Proof.
  split; [|split].
  - intros a b x H. apply t_in in H as (r & p & cs & c & Hp & Hcs & Hc & -> & -> & ->). destruct (c_at r p Hp) as (T & cs2 & ET & E2 & TO & (CC & _)). assert (cs2 = cs) by congruence. subst cs2.
    destruct (CC c Hc) as (L & (L1 & L2) & CH & k & K & E). split; [rewrite E; nia|]. split; [eauto|]. destruct (TO _ CH) as (q & Eq & _ & Lq & LT & _).
    destruct (owner_home ps (df_own _ _ _ _ DF) r p (gid_of p (snd (fst c))) Hp (gid_in p _ L2)) as (q' & p2 & E' & Hq' & Hin). unfold home in Eq. assert (q' = q) by lia. subst q'. rewrite Hp, Hq' in LT.
    exists p, p2. split; [eapply nth_error_In; eauto|]. split; [eapply nth_error_In; eauto|]. split; [now apply gid_local|]. auto.
  - intros p l v Ip Hl. apply In_nth_error in Ip as (r & Hp). destruct (c_at r p Hp) as (T & cs & ET & Ec & TO & (_ & CB & _)). rewrite (from_vertex r p cs l v) by auto. apply CB. apply nth_error_Some. congruence.
  - intros p p' Ip Iq H. apply In_nth_error in Ip as (r & Hp). apply In_nth_error in Iq as (q & Hq). destruct (c_at r p Hp) as (T & cs & ET & Ec & TO & (CC & _ & CT & _)). rewrite (to_part r q p p' cs) in * by auto.
    destruct (CT (Z.of_nat q)) as (_ & [Z0|LE]); [lia|].
    assert (EX : exists c, In c cs /\ home (Z.of_nat r) p (snd (fst c)) = Z.of_nat q).
    { clear - H. unfold sent_to, sumf, zsum in H. induction cs as [|c cs IH]; cbn in H; [lia|]. destruct (Z.eqb_spec (home (Z.of_nat r) p (snd (fst c))) (Z.of_nat q)) as [E|]; [exists c; split; [left; auto|auto]|]. destruct IH as (c' & I & E); [lia|]. exists c'. split; [right; auto|auto]. }
    destruct EX as (c & Hc & Eh). destruct (CC c Hc) as (_ & _ & CH & _). rewrite Eh in CH. destruct (TO _ CH) as (q' & Eq & _ & _ & _ & BD). apply Nat2Z.inj in Eq. subst q'. rewrite Hp, Hq in BD. eapply Qle_trans; [exact LE|]. apply BD. eapply Qlt_le_trans; [|exact LE]. now apply units_pos.
Qed.
End Plans.
End Step.
