(** Weight diffusion: what a migrating step does to the descriptions of the parts, and the steps. *)
From Verif Require Import Base GraphModel GraphSpec CsrProofs ConstructProofs GraphTop GraphTop2 AccessProofs Comm TagModel TagProps MetricsModel MetricsProofs MetricsProps SdModel QueueModel QueueProps MigrateModel MigrateSpec MigrateProofs1 MigrateProofs3 SelectorModel SidesProofs SidesProps WeightMigModel WeightMigProps BalanceProps WBalModel WBalProofs1 WBalProofs2 WBalSpec WBalProofs3.
From Verif Require MigrateTop.
From Coq Require Import Lqa Qround.
Local Open Scope nat_scope.

Lemma same_nth ps ps' r p' : same_but_weights ps ps' -> nth_error ps' r = Some p' -> exists p, nth_error ps r = Some p /\ in_verts p' = in_verts p /\ in_tys p' = in_tys p /\ in_owns p' = in_owns p /\ length (in_vws p') = length (in_verts p).
Proof.
  intros (L & H) Hr. destruct (nth_error ps r) as [p|] eqn:E; [|apply nth_error_None in E; assert (r < length ps') by (apply nth_error_Some; congruence); lia].
  destruct (H r p p' E Hr) as (ws & -> & LW). exists p. cbn. auto.
Qed.
Lemma same_nth_r ps ps' r p : same_but_weights ps ps' -> nth_error ps r = Some p -> exists p', nth_error ps' r = Some p' /\ in_verts p' = in_verts p /\ in_tys p' = in_tys p /\ in_owns p' = in_owns p.
Proof.
  intros (L & H) Hr. destruct (nth_error ps' r) as [p'|] eqn:E; [|apply nth_error_None in E; assert (r < length ps) by (apply nth_error_Some; congruence); lia].
  destruct (H r p p' Hr E) as (ws & -> & LW). eexists. split; eauto.
Qed.
Lemma same_in ps ps' p' : same_but_weights ps ps' -> In p' ps' -> exists p, In p ps /\ in_verts p' = in_verts p /\ in_tys p' = in_tys p /\ in_owns p' = in_owns p /\ length (in_vws p') = length (in_verts p).
Proof. intros S H. apply In_nth_error in H as (r & Hr). destruct (same_nth ps ps' r p' S Hr) as (p & Hp & X). exists p. split; auto. eapply nth_error_In; eauto. Qed.
Lemma same_in_r ps ps' p : same_but_weights ps ps' -> In p ps -> exists p', In p' ps' /\ in_verts p' = in_verts p /\ in_tys p' = in_tys p /\ in_owns p' = in_owns p.
Proof. intros S H. apply In_nth_error in H as (r & Hr). destruct (same_nth_r ps ps' r p S Hr) as (p' & Hp & X). exists p'. split; auto. eapply nth_error_In; eauto. Qed.
Lemma same_verts ps ps' : same_but_weights ps ps' -> map in_verts ps' = map in_verts ps.
Proof.
  intros S. apply nth_error_ext. intros r. rewrite !nth_error_map. destruct (nth_error ps' r) as [p'|] eqn:E.
  - destruct (same_nth ps ps' r p' S E) as (p & -> & V & _). cbn [option_map]. now rewrite V.
  - destruct S as (L & _). apply nth_error_None in E. destruct (nth_error ps r) eqn:E2; [|reflexivity]. assert (r < length ps) by (apply nth_error_Some; congruence). lia.
Qed.
Lemma same_refl_trans ps ps' ps'' : same_but_weights ps ps' -> same_but_weights ps' ps'' -> same_but_weights ps ps''.
Proof.
  intros S (L2 & H2). pose proof S as (L1 & H1). split; [congruence|]. intros r p p'' Hp Hp''. destruct (same_nth_r ps ps' r p S Hp) as (p' & Hp' & V & T & O). destruct (H2 r p' p'' Hp' Hp'') as (ws & -> & LW).
  exists ws. unfold reweigh. rewrite V, T, O in *. auto.
Qed.
Lemma diffusible_reweigh val fuel t ps ps' : diffusible val fuel t ps -> same_but_weights ps ps' -> (forall p z, In p ps' -> In z (in_vws p) -> (0 <= z)%Z) -> diffusible val fuel t ps'.
Proof.
  intros DF S HW. constructor.
  - intros r p' v Hp' Hv. destruct (same_nth ps ps' r p' S Hp') as (p & Hp & V & T & O & _). rewrite V, T in Hv. destruct (df_own _ _ _ _ DF r p v Hp Hv) as (q & p2 & E & Hq & Hin). destruct (same_nth_r ps ps' q p2 S Hq) as (p3 & Hp3 & V3 & _).
    exists q, p3. rewrite O, V3. auto.
  - rewrite flat_map_concat_map, (same_verts ps ps' S), <- flat_map_concat_map. apply (df_once _ _ _ _ DF).
  - intros p' Ip'. destruct (same_in ps ps' p' S Ip') as (p & Ip & V & T & O & L). destruct (df_valid _ _ _ _ DF p Ip) as (A & B & C). rewrite V, T. split; auto. split; [lia|auto].
  - exact HW.
  - intros p' Ip'. destruct (same_in ps ps' p' S Ip') as (p & Ip & V & T & O & L). rewrite T. apply (df_types _ _ _ _ DF p Ip).
  - intros p' k ty e Ip' Ht He. destruct (same_in ps ps' p' S Ip') as (p & Ip & V & T & O & L). rewrite T in Ht. rewrite V. destruct (df_edges _ _ _ _ DF p k ty e Ip Ht He) as (A & B). split; auto.
    intros p2 u Ip2 Hu Hin. destruct (same_in ps ps' p2 S Ip2) as (p3 & Ip3 & V3 & T3 & _). rewrite V3 in Hin. rewrite T3. eauto.
  - intros p' ty e Ip' Ht He. destruct (same_in ps ps' p' S Ip') as (p & Ip & V & T & O & L). rewrite T in Ht. eapply (df_side _ _ _ _ DF); eauto.
  - intros p' Ip'. destruct (same_in ps ps' p' S Ip') as (p & Ip & V & T & O & L). rewrite V, T. apply (df_fuel _ _ _ _ DF p Ip).
Qed.
Lemma set_weights_by (g : graph) ws n (f : nat -> Z) : nlv g = n -> (forall l, l < n -> vweight (set_weights g ws) (getVertex l) = Some (f l)) -> set_weights g ws = set_weights g (ainit (map f (seq 0 n))).
Proof.
  intros N H. unfold set_weights. f_equal. rewrite N. apply nth_error_ext. intros i. destruct (Nat.lt_ge_cases i n) as [L|G].
  - specialize (H i L). unfold vweight, getVertex in H. rewrite Nat.add_1_r in H. cbn [vlid obind set_weights nlv lwgts] in H. rewrite N in H. replace (i <? n) with true in H by (symmetry; now apply Nat.ltb_lt).
    rewrite firstn_all2 with (l := ainit _) by (unfold ainit; rewrite !map_length, seq_length; auto).
    assert (X : nth_error (ainit (map f (seq 0 n))) i = Some (Some (f i))). { unfold ainit. rewrite !nth_error_map, (nth_error_nth' _ 0) by (rewrite seq_length; auto). rewrite seq_nth by auto. reflexivity. }
    rewrite X. unfold aget in H. destruct (nth_error (firstn n ws) i) as [[y|]|]; congruence.
  - rewrite (proj2 (nth_error_None _ _)); [symmetry; apply nth_error_None|]; rewrite firstn_length; lia.
Qed.
Lemma given_reweigh p ws l : length ws = length (in_verts p) -> given (reweigh p ws) l = nth l ws 0%Z.
Proof. intros L. unfold given, vertex_weights. cbn [reweigh in_verts in_vws]. rewrite L, Nat.sub_diag. cbn [repeat]. now rewrite app_nil_r. Qed.

Section Mig.
Variables (val : Z -> Q) (D : positive) (fuel : nat) (inp : winput) (ps : list part_in).
Hypothesis DF : diffusible val fuel (w_type inp) ps.
Notation n := (length ps).
Variables (w : wworld) (calls : list (list wcall)) (tgts : list (cont Q)) (mps : list wmpart).
Hypothesis HP : placed ps w.
Hypothesis Lt : length tgts = n.
Hypothesis Lc : length calls = n.
Hypothesis HT : forall r T, nth_error tgts r = Some T -> tgt_ok D inp ps r T.
Hypothesis HC : forall r p T cs, nth_error ps r = Some p -> nth_error tgts r = Some T -> nth_error calls r = Some cs -> cs_ok D fuel r p T cs.
Hypothesis Lm : length mps = n.
Hypothesis HM : forall r s m cs, nth_error w r = Some s -> nth_error mps r = Some m -> nth_error calls r = Some cs -> m = mkWMP (fst s) (snd s) (wm_made (map hcall cs)).
Notation ts := (transfers ps calls).
Lemma m_ready : wm_ready true fuel ps calls mps.
Proof.
  split; auto. split; auto. intros r p cs m Hp Hc Hm. assert (Lr : r < n) by (apply nth_error_Some; congruence). destruct (b_at ps w r HP Lr) as (p1 & s & Hp1 & Hs & B). assert (p1 = p) by congruence. subst p1.
  rewrite (HM r s m cs Hs Hm Hc). cbn [wp_g wp_plan]. pose proof (nth_error_In _ _ Hp) as Ip. split; [now apply (df_valid _ _ _ _ DF)|]. split; auto. split; auto.
  destruct (c_at D fuel inp ps calls tgts Lt Lc HT HC r p Hp) as (T & cs2 & ET & E2 & TO & (CC & _ & _ & CL)). assert (cs2 = cs) by congruence. subst cs2. split.
  - intros c Hcc. destruct (CC c Hcc) as (A & (_ & B2) & _). split; auto.
  - split; auto. apply (df_fuel _ _ _ _ DF p Ip).
Qed.
Definition new_weight (p : part_in) (l : nat) : Z :=
  (given p l - carried ts (Z.eqb (nth l (in_verts p) 0%Z)) any + (if Nat.eqb (S l) (length (in_verts p)) then carried ts any (is_in (in_verts p)) else 0))%Z.
Definition after (p : part_in) : part_in := reweigh p (map (new_weight p) (seq 0 (length (in_verts p)))).
Lemma after_same : same_but_weights ps (map after ps).
Proof. split; [apply map_length|]. intros r p p' Hp Hp'. rewrite nth_error_map, Hp in Hp'. inversion Hp'; subst. eexists. split; [reflexivity|]. now rewrite map_length, seq_length. Qed.
Lemma after_diffused : diffused D (w_step inp) ps (map after ps) ts.
Proof.
  destruct (plans_ok val D fuel inp ps DF calls tgts Lt Lc HT HC) as (A & B & C). split; auto. split; auto. split; auto.
  intros r p p' l v Hp Hp' Hl. rewrite nth_error_map, Hp in Hp'. inversion Hp'; subst. unfold after. assert (L : l < length (in_verts p)) by (apply nth_error_Some; congruence). rewrite given_reweigh by (now rewrite map_length, seq_length).
  rewrite (nth_indep _ 0%Z (new_weight p 0)) by (now rewrite map_length, seq_length). rewrite map_nth, seq_nth by auto. cbn [Nat.add]. unfold new_weight. now rewrite (nth_error_nth _ _ _ Hl).
Qed.
Lemma after_diffusible : diffusible val fuel (w_type inp) (map after ps).
Proof.
  eapply diffusible_reweigh; [exact DF|apply after_same|]. intros p' z Ip' Hz. apply in_map_iff in Ip' as (p & <- & Ip). unfold after in Hz. cbn [reweigh in_vws] in Hz. apply in_map_iff in Hz as (l & <- & Hl). apply in_seq in Hl.
  destruct (plans_ok val D fuel inp ps DF calls tgts Lt Lc HT HC) as (_ & B & _). assert (X := B p l _ Ip (nth_error_nth' (in_verts p) 0%Z (proj2 Hl))). unfold new_weight.
  assert (Y := t_nonneg D fuel inp ps calls tgts Lt Lc HT HC any (is_in (in_verts p))). destruct (Nat.eqb (S l) (length (in_verts p))); lia.
Qed.
Lemma m_result : weight_migrate fuel mps (fun w' => exists ps', same_but_weights ps ps' /\ placed ps' w' /\ diffusible val fuel (w_type inp) ps' /\ diffused D (w_step inp) ps ps' ts /\ flow_follows ps ts w w').
Proof.
  eapply weight_mono; [|apply weight_struct; apply (WeightMigProps.weight_ok true fuel ps calls mps); [apply m_ready|apply (df_own _ _ _ _ DF)|apply (df_once _ _ _ _ DF)]].
  intros w' ((Lw & H) & ST). exists (map after ps). split; [apply after_same|]. split; [|split; [apply after_diffusible|split; [apply after_diffused|]]].
  - split; [rewrite map_length; auto|]. intros r p' s' Hp' Hs'. rewrite nth_error_map in Hp'. destruct (nth_error ps r) as [p|] eqn:Hp; [|discriminate]. inversion Hp'; subst p'. clear Hp'. assert (Lr : r < n) by (apply nth_error_Some; congruence).
    destruct (b_at ps w r HP Lr) as (p1 & s & Hp1 & Hs & B). assert (p1 = p) by congruence. subst p1. destruct (nth_error mps r) as [m|] eqn:Hm; [|apply nth_error_None in Hm; lia]. destruct (nth_error calls r) as [cs|] eqn:Hcs; [|apply nth_error_None in Hcs; lia].
    pose proof (HM r s m cs Hs Hm Hcs) as EM. destruct (ST r m s' Hm Hs') as (ws & E). destruct (H r p m s' Hp Hm Hs') as (N & X & _). assert (EG : wp_g m = fst s) by (rewrite EM; reflexivity). rewrite EG in E. rewrite E in N, X. cbn [set_weights nlv] in N.
    pose proof (df_valid _ _ _ _ DF p (nth_error_In _ _ Hp)) as (_ & LV & _).
    rewrite E, (set_weights_by (fst s) ws (length (in_verts p)) (new_weight p) N).
    + unfold after. cbn [reweigh in_verts in_vws in_tys in_owns]. eapply build_weights; eauto. now rewrite map_length, seq_length.
    + intros l Hl. rewrite (X l _ (nth_error_nth' (in_verts p) 0%Z Hl)). unfold new_weight. f_equal. f_equal; [f_equal|].
      * rewrite <- moved_carried. apply moved_ext. intros a b. unfold any. now rewrite andb_true_r, Z.eqb_sym.
      * destruct (Nat.eqb (S l) (length (in_verts p))); auto. rewrite <- moved_carried. now apply moved_ext.
  - intros r p s s' a b Hp Hs Hs' Ha. assert (Lr : r < n) by (apply nth_error_Some; congruence). destruct (nth_error mps r) as [m|] eqn:Hm; [|apply nth_error_None in Hm; lia]. destruct (nth_error calls r) as [cs|] eqn:Hcs; [|apply nth_error_None in Hcs; lia].
    destruct (H r p m s' Hp Hm Hs') as (_ & _ & X). rewrite (X a b Ha), (HM r s m cs Hs Hm Hcs). cbn [wp_flow]. rewrite <- !moved_carried. f_equal; [f_equal|]; apply moved_ext; intros x y; rewrite (Z.eqb_sym x), (Z.eqb_sym y); reflexivity.
Qed.
End Mig.

(** one step *)
Section Step.
Variables (val : Z -> Q) (D : positive) (fuel : nat) (inp : winput) (ps : list part_in).
Hypothesis DF : diffusible val fuel (w_type inp) ps.
Hypothesis POS : (0 < all_total ps)%Z.
Notation n := (length ps).
Lemma exchange_mono w (Q Q' : list (cont Z * (QArith_base.Q * cont QArith_base.Q)) -> Prop) : (forall x, Q x -> Q' x) -> wb_exchange val D fuel inp w Q -> wb_exchange val D fuel inp w Q'.
Proof. intros H (sides & ws & A & B & C). exists sides, ws. split; auto. split; auto. eapply MigrateTop.phase_mono; eauto. Qed.
Definition balanced : Prop := forall p, In p ps -> (units D (part_total p) < w_tol inp * (units D (all_total ps) / inject_Z (Z.of_nat n)))%Q.
Definition step_post (w : wworld) (rc : Z) (s' : sd) (w' : wworld) : Prop := sd_reach s' /\
  ((rc = 1%Z /\ w' = w /\ balanced) \/ ((rc = 2%Z \/ rc = 3%Z) /\ w' = w) \/
   (rc = 0%Z /\ exists ps' ts, same_but_weights ps ps' /\ placed ps' w' /\ diffusible val fuel (w_type inp) ps' /\ diffused D (w_step inp) ps ps' ts /\ flow_follows ps ts w w')).
Lemma step_done sideTol s w : placed ps w -> sd_reach s -> wb_step val D fuel inp sideTol s w (step_post w).
Proof.
  intros HP HR. destruct (b_weights val D fuel inp ps DF w HP) as (ws & EW & LW & HW). unfold wb_step.
  assert (QS : (qsum ws == units D (all_total ps))%Q).
  { unfold all_total, sumf. rewrite <- units_sum. assert (G : forall (l : list Q) (qs : list part_in), length l = length qs -> (forall r x, nth_error l r = Some x -> (x == units D (match nth_error qs r with Some p => part_total p | None => 0%Z end))%Q) -> (qsum l == qsum (map (units D) (map part_total qs)))%Q).
    { clear. induction l as [|x l IH]; intros [|q qs] L H; try discriminate; [reflexivity|]. change (x + qsum l == units D (part_total q) + qsum (map (units D) (map part_total qs)))%Q. rewrite (IH qs) by (cbn in L; try lia; intros r y Hy; exact (H (S r) y Hy)). rewrite (H 0 x eq_refl). reflexivity. }
    now apply G. }
  assert (QP : (0 < qsum ws)%Q) by (rewrite QS; now apply units_pos). destruct (C34_imbalance ws QP) as (imb & m & EI & (MI & MB) & IM & I1 & _). exists ws, imb. split; auto. split; auto.
  destruct (qless imb (w_tol inp)) eqn:EL.
  - split; auto. left. split; auto. split; auto. intros p Ip. apply qless_true in EL. apply In_nth_error in Ip as (r & Hp). assert (Lr : r < n) by (apply nth_error_Some; congruence). destruct (nth_error ws r) as [x|] eqn:Ex; [|apply nth_error_None in Ex; lia].
    pose proof (HW r x Ex) as X. rewrite Hp in X. rewrite <- X. assert (x <= m)%Q by (apply MB; eapply nth_error_In; eauto). rewrite <- QS, <- LW. rewrite IM in EL. set (avg := (qsum ws / inject_Z (Z.of_nat (length ws)))%Q) in *.
    assert (AP : (0 < avg)%Q). { unfold avg. apply Qlt_shift_div_l; [rewrite <- (Zlt_Qlt 0); lia|lra]. }
    assert (m < w_tol inp * avg)%Q. { apply Qmult_lt_r with (z := (/ avg)%Q); [now apply Qinv_lt_0_compat|]. rewrite <- Qmult_assoc, Qmult_inv_r by lra. unfold Qdiv in EL. lra. } lra.
  - destruct (push_reach s imb HR) as (s' & -> & RS & SL). assert (ES : exists stop, (if sd_full s' then m <- sd_slope s' ;; Some (qless 0 m) else Some false) = Some stop) by (destruct (sd_full s'); [destruct (SL eq_refl) as (m' & ->); cbn; eauto|eauto]).
    destruct ES as (stop & ES). exists s', stop. split; auto. split; auto. destruct stop; [split; auto|].
    assert (Lw : length w = n) by apply HP. eapply exchange_mono; [|apply (b_exchange val D fuel inp ps DF w HP)]. intros xs (LX & HX).
    destruct (par2_total _ _ _ (fun _ s x => wb_targets inp (length w) sideTol (fst s) x) 0 w xs) as (tgts & ET); [lia| |].
    { intros i a b Ha Hb. destruct (HX i b Hb) as (S1 & S2 & S3). rewrite Lw. destruct (b_targets D inp ps i sideTol (fst a) b (b_lt ps _ _ _ _ LX Hb) S1 S2 S3) as (T & E & _). eauto. }
    exists tgts. split; auto. destruct (par2_length _ _ _ _ _ _ _ _ ET) as (LT & _).
    assert (HT : forall r T, nth_error tgts r = Some T -> tgt_ok D inp ps r T).
    { intros r T Hr. destruct (par2_nth _ _ _ _ _ _ _ _ _ _ ET Hr) as (a & b & Ha & Hb & E). cbn [Nat.add] in E. rewrite Lw in E. destruct (HX r b Hb) as (S1 & S2 & S3). destruct (b_targets D inp ps r sideTol (fst a) b (b_lt ps _ _ _ _ LX Hb) S1 S2 S3) as (T' & E' & O). assert (T' = T) by congruence. now subst T'. }
    intros o Ho.
    assert (HPL : forall r p s1 T, nth_error ps r = Some p -> nth_error w r = Some s1 -> nth_error tgts r = Some T -> exists plan cs, weight_plan D (o r) (fst s1) fuel T = Some plan /\ plan = wm_made (map hcall cs) /\ cs_ok D fuel r p T cs) by (intros; eapply b_plan; eauto).
    destruct (par2_total _ _ _ (fun r s t => p <- weight_plan D (o r) (fst s) fuel t ;; Some (mkWMP (fst s) (snd s) p)) 0 w tgts) as (mps & EM); [lia| |].
    { intros i a b Ha Hb. destruct (b_at ps w i HP) as (p & s1 & Hp & Hs & _); [rewrite <- Lw; apply nth_error_Some; congruence|]. assert (s1 = a) by congruence. subst s1. destruct (HPL i p a b Hp Hs Hb) as (plan & cs & E & _). cbn [Nat.add]. rewrite E. cbn. eauto. }
    exists mps. split; auto. destruct (par2_length _ _ _ _ _ _ _ _ EM) as (LM & _).
    destruct (choose_list _ (fun r cs => forall p s1 T m, nth_error ps r = Some p -> nth_error w r = Some s1 -> nth_error tgts r = Some T -> nth_error mps r = Some m -> m = mkWMP (fst s1) (snd s1) (wm_made (map hcall cs)) /\ cs_ok D fuel r p T cs) n) as (calls & LC & HCL).
    { intros r Lr. destruct (b_at ps w r HP Lr) as (p & s1 & Hp & Hs & _). destruct (nth_error tgts r) as [T|] eqn:HTr; [|apply nth_error_None in HTr; lia]. destruct (HPL r p s1 T Hp Hs HTr) as (plan & cs & E & EP & OK). exists cs.
      intros p' s2 T' m1 Hp' Hs' HT' Hm. assert (p' = p) by congruence. assert (s2 = s1) by congruence. assert (T' = T) by congruence. subst p' s2 T'. split; auto.
      destruct (par2_nth _ _ _ _ _ _ _ _ _ _ EM Hm) as (a & b & Ha & Hb & EE). cbn [Nat.add] in EE. assert (a = s1) by congruence. assert (b = T) by congruence. subst a b. rewrite E in EE. cbn [obind] in EE. congruence. }
    destruct (0 <? zsum (map (fun m => wm_size (wp_plan m)) mps))%Z; [|split; auto].
    assert (HC1 : forall r p T cs, nth_error ps r = Some p -> nth_error tgts r = Some T -> nth_error calls r = Some cs -> cs_ok D fuel r p T cs).
    { intros r p T cs Hp HTr Hc. assert (Lr : r < n) by (apply nth_error_Some; congruence). destruct (b_at ps w r HP Lr) as (p1 & s1 & Hp1 & Hs & _). destruct (nth_error mps r) as [m'|] eqn:Hm; [|apply nth_error_None in Hm; lia]. now apply (HCL r cs Hc p s1 T m'). }
    assert (HM1 : forall r s1 m0 cs, nth_error w r = Some s1 -> nth_error mps r = Some m0 -> nth_error calls r = Some cs -> m0 = mkWMP (fst s1) (snd s1) (wm_made (map hcall cs))).
    { intros r s1 m0 cs Hs Hm Hc. assert (Lr : r < n) by (rewrite <- Lw; apply nth_error_Some; congruence). destruct (b_at ps w r HP Lr) as (p1 & s2 & Hp1 & Hs2 & _). destruct (nth_error tgts r) as [T|] eqn:HTr; [|apply nth_error_None in HTr; lia]. now apply (HCL r cs Hc p1 s1 T m0). }
    eapply weight_mono; [|apply (m_result val D fuel inp ps DF w calls tgts mps HP ltac:(lia) LC HT HC1 ltac:(lia) HM1)].
    intros w' (ps' & R). split; auto. right. right. split; auto. exists ps', (transfers ps calls). exact R.
Qed.
Lemma step_mono sideTol s w (Q Q' : Z -> sd -> wworld -> Prop) : (forall rc s' w', Q rc s' w' -> Q' rc s' w') -> wb_step val D fuel inp sideTol s w Q -> wb_step val D fuel inp sideTol s w Q'.
Proof.
  intros H (ws & imb & A & B & C). exists ws, imb. split; auto. split; auto. destruct (qless imb (w_tol inp)); auto. destruct C as (s' & stop & C1 & C2 & C3). exists s', stop. split; auto. split; auto. destruct stop; auto.
  eapply exchange_mono; [|exact C3]. intros xs (tgts & E & K). exists tgts. split; auto. intros o Ho. destruct (K o Ho) as (mps & E2 & K2). exists mps. split; auto. destruct (0 <? _)%Z; auto. eapply weight_mono; [|exact K2]. cbn. auto.
Qed.
End Step.
