(** C43, C44: the selector of the diffusive balancer. *)
From Verif Require Import Base GraphModel GraphSpec ConstructProofs GraphTop GraphTop2 AccessProofs Comm TagModel TagProps MetricsModel MetricsProofs MetricsProps MigrateModel MigrateSpec MigrateProofs5 MigrateTop MigrateProps SidesProofs SidesProps SecondAdjProps SelectorModel SelectorProofs SelectorTop SelectorTop2.
From Coq Require Import Lqa.
Local Open Scope nat_scope.

(** ** C44.  Vocabulary: [part_weight] (SelectorTop) is the weight of a part in a dimension: of its vertices, or of the edges of a type with
    a pin on it; [with_weights]/[replan] (SelectorTop2) attach ghost weights to the parts / install the plans left by cancel;
    [distributed], [ready], [planned], [moved_to] are those of migration (MigrateSpec). *)
Lemma replan_nth sts plans r : nth_error (replan sts plans) r = match nth_error sts r, nth_error plans r with Some s, Some pl => Some (mkMP (mp_g s) (mp_oo s) pl) | _, _ => None end.
Proof. unfold replan. revert r plans. induction sts as [|s sts IH]; intros [|r] [|pl plans]; cbn; auto. destruct (nth_error sts r); auto. Qed.
Definition calls_after (calls : list (list plan_op)) (ms : nat -> list (nat * Z)) : list (list plan_op) :=
  map (fun x => fst x ++ Clr :: map (fun e => Ins (fst e) (snd e)) (ms (snd x))) (combine calls (seq 0 (length calls))).
Lemma calls_after_nth calls ms r : nth_error (calls_after calls ms) r = match nth_error calls r with Some cs => Some (cs ++ Clr :: map (fun e => Ins (fst e) (snd e)) (ms r)) | None => None end.
Proof.
  unfold calls_after. rewrite nth_error_map. destruct (nth_error calls r) as [cs|] eqn:E.
  - rewrite (combine_nth2 _ _ _ _ r cs r E); [reflexivity|]. assert (r < length calls) by (apply nth_error_Some; congruence). rewrite nth_error_nth' with (d := 0) by (rewrite seq_length; lia). now rewrite seq_nth by lia.
  - destruct (nth_error (combine calls _) r) as [x|] eqn:F; [|reflexivity]. apply combine_nth_inv in F as (F & _). congruence.
Qed.
Lemma filter_get cs b m l : m = filter b (fm_run cs) -> fm_get m l = None \/ fm_get m l = planned cs l.
Proof.
  intros ->. rewrite <- planned_get. destruct (fm_get (filter b (fm_run cs)) l) as [d|] eqn:E; [right|auto]. symmetry. apply (fm_in_get _ (fm_run_nodup cs)).
  assert (I : In (l, d) (filter b (fm_run cs))). { clear - E. induction (filter b (fm_run cs)) as [|(k, y) m IH]; cbn in *; [discriminate|]. destruct (Nat.eqb_spec k l) as [->|]; [inversion E; auto|auto]. }
  now apply filter_In in I.
Qed.
Lemma filter_nodup_keys A B (b : A * B -> bool) m : NoDup (map fst m) -> NoDup (map fst (filter b m)).
Proof. induction m as [|x m IH]; intros N; cbn [filter map]; [constructor|]. cbn in N. inversion N; subst. destruct (b x); auto. cbn [map]. constructor; auto. intros I. apply H1. apply in_map_iff in I as (y & E & Hy). apply filter_In in Hy as (Hy & _). rewrite <- E. now apply in_map. Qed.

Section C44.
Variables (val : Z -> Q) (own : Z -> nat) (V : list (Z * (Z * Z))) (T : list (list (edge_input * Z))) (ps : list pdesc) (calls : list (list plan_op)) (sts : list mpart) (gws : list (option (arr Z))) (fuel : nat) (dims : list (option nat)) (lims : list Q).
Hypothesis HD : distributed own V T ps.
Hypothesis HR : ready true fuel ps calls sts.
Hypothesis HF : big_enough fuel V T.
Hypothesis HW : weights_pos val V T.
Hypothesis HK : known_dims T dims.
Hypothesis LL : length lims = length dims.
Hypothesis L0 : 0 < length dims.
Hypothesis L5 : length dims <= 5.
Hypothesis LG : length gws = length ps.
Lemma ww_nth r s gw : nth_error sts r = Some s -> nth_error gws r = Some gw -> nth_error (with_weights sts gws) r = Some (mkSP (mp_g s) gw (mp_plan s)).
Proof. intros A B. unfold with_weights. rewrite nth_error_map, (combine_nth2 _ _ _ _ r s gw A B). reflexivity. Qed.
Lemma at_part r : r < length ps -> exists p cs s gw, nth_error ps r = Some p /\ nth_error calls r = Some cs /\ nth_error sts r = Some s /\ nth_error (with_weights sts gws) r = Some (mkSP (mp_g s) gw (mp_plan s)) /\
  build_part (Z.of_nat r) true (pd_verts p) (pd_vws p) (pd_tys p) (pd_owns p) = Some (mp_g s) /\ made_plan fuel (mp_g s) cs (mp_plan s) /\ (forall o, In o cs -> call_ok (mp_g s) (length ps) o) /\ snd (mp_g s, mp_oo s) = ainit (pd_oo p).
Proof.
  intros Lr. destruct HR as (LS & LC & HX). destruct (nth_error ps r) as [p|] eqn:Ep; [|apply nth_error_None in Ep; lia]. destruct (nth_error calls r) as [cs|] eqn:Ec; [|apply nth_error_None in Ec; lia]. destruct (nth_error sts r) as [s|] eqn:Es; [|apply nth_error_None in Es; lia]. destruct (nth_error gws r) as [gw|] eqn:Eg; [|apply nth_error_None in Eg; lia].
  exists p, cs, s, gw. destruct (HX r p cs s Ep Ec Es) as ((B & C) & M & O). do 3 (split; auto). split; [now apply ww_nth|]. split; auto.
Qed.

(** the facts used below, for the plans left by trim and cancel *)
Definition Kept (plans : list mplan) (accs arrs : nat -> list (Z * list Q)) (caps : nat -> zmap (list Q)) (ms : nat -> list (nat * Z)) : Prop :=
      (forall q, q < length ps -> grants val own V T dims lims q (arrs q) (accs q)) /\
      (forall q k ws, q < length ps -> In (k, ws) (arrs q) -> exists r s p cs, k = Z.of_nat r /\ nth_error (with_weights sts gws) r = Some s /\ nth_error ps r = Some p /\ nth_error calls r = Some cs /\ In (Z.of_nat q) (map snd (P0 cs)) /\
          Forall2 (fun x w => w == load (il p (sp_g s)) (res (sp_g s)) (ew val (sp_g s)) (vw val (sp_g s) (sp_gw s)) dims (P0 cs) (Z.of_nat q) x)%Q dims ws) /\
      (forall q r s p cs, q < length ps -> nth_error (with_weights sts gws) r = Some s -> nth_error ps r = Some p -> nth_error calls r = Some cs -> In (Z.of_nat q) (map snd (P0 cs)) -> exists ws, In (Z.of_nat r, ws) (arrs q)) /\
      (forall q, q < length ps -> NoDup (map fst (arrs q))) /\
      (forall r q ws, r < length ps -> zfind (caps r) q = Some ws <-> exists q', q = Z.of_nat q' /\ q' < length ps /\ In (Z.of_nat r, ws) (accs q')) /\
      forall r s p cs plan', nth_error (with_weights sts gws) r = Some s -> nth_error ps r = Some p -> nth_error calls r = Some cs -> nth_error plans r = Some plan' -> keeps val fuel dims s p cs plan' (ms r) (caps r).

Lemma kept_ready plans accs arrs caps ms : length plans = length ps -> Kept plans accs arrs caps ms -> ready true fuel ps (calls_after calls ms) (replan sts plans).
Proof.
  intros LP (_ & _ & _ & _ & _ & K). assert (HR' := HR). destruct HR' as (LS & LC & HX). split; [unfold replan; rewrite map_length, combine_length; lia|]. split; [unfold calls_after; rewrite map_length, combine_length, seq_length; lia|].
  intros r p cs' s' Hp Hc Hs. assert (Lr : r < length ps) by (apply nth_error_Some; congruence). destruct (at_part r Lr) as (p' & cs & s & gw & Ep & Ec & Es & Ew & HB & HM & HO & OO). assert (p' = p) by congruence. subst p'.
  rewrite calls_after_nth, Ec in Hc. rewrite replan_nth, Es in Hs. destruct (nth_error plans r) as [plan'|] eqn:El; [|discriminate]. inversion Hc; subst cs'. inversion Hs; subst s'. cbn [mp_g mp_oo mp_plan].
  destruct (K r _ p cs plan' Ew Hp Ec El) as ((b & Eb) & _ & M & _). cbn [sp_g] in M. split; [split; auto|]. split; auto. intros o Ho. apply in_app_iff in Ho as [Ho|[<-|Ho]]; [auto|exact I|]. apply in_map_iff in Ho as ((l, d) & <- & He). rewrite Eb in He. apply filter_In in He as (He & _). apply (fm_in_get _ (fm_run_nodup cs)) in He. rewrite planned_get in He. apply planned_in in He. cbn [fst snd]. auto.
Qed.
Lemma kept_planned plans accs arrs caps ms r cs l : length plans = length ps -> Kept plans accs arrs caps ms -> nth_error calls r = Some cs -> planned (cs ++ Clr :: map (fun e => Ins (fst e) (snd e)) (ms r)) l = fm_get (ms r) l /\ exists b, ms r = filter b (fm_run cs).
Proof.
  intros LP (_ & _ & _ & _ & _ & K) Hc. assert (Lr : r < length ps) by (destruct HR as (_ & LC & _); rewrite <- LC; apply nth_error_Some; congruence). destruct (at_part r Lr) as (p & cs' & s & gw & Ep & Ec & Es & Ew & _). assert (cs' = cs) by congruence. subst cs'. destruct (nth_error plans r) as [plan'|] eqn:El; [|apply nth_error_None in El; lia].
  destruct (K r _ p cs plan' Ew Ep Ec El) as ((b & Eb) & _ & _ & R). rewrite <- planned_get, R. eauto.
Qed.
Definition brought (own' : Z -> nat) (r q : nat) (x : option nat) : Q :=
  match x with
  | Some t => fsum (fun e : edge_input * Z => val (snd e)) (fun e => touches own r e && (negb (touches own q e) && existsb (fun v => (own v =? r) && (own' v =? q)) (snd (fst e)))) (nth t T [])
  | None => fsum (fun v : Z * (Z * Z) => val (fst (snd v))) (fun v => (own (fst v) =? r) && (own' (fst v) =? q)) V
  end.
Lemma brought_pos own' r q x : (match x with Some t => t < length T | None => True end) -> (0 <= brought own' r q x)%Q.
Proof.
  intros Hx. destruct HW as (W1 & W2). destruct x as [t|]; apply fsum_pos; [|intros v Hv; now apply W1]. intros e He. destruct (nth_error T t) as [E|] eqn:ET; [|apply nth_error_None in ET; lia]. rewrite (nth_error_nth _ _ _ ET) in He. apply (W2 E); auto. eapply nth_error_In; eauto.
Qed.
Lemma gained own' q x : (match x with Some t => t < length T | None => True end) ->
  (part_weight val own' V T q x <= part_weight val own V T q x + qsum (map (fun r => if r =? q then 0 else brought own' r q x) (seq 0 (length ps))))%Q.
Proof.
  intros Hx. destruct HD as ((NV & WF) & OB & _). destruct HW as (W1 & W2). destruct x as [t|]; cbn [part_weight brought].
  - destruct (nth_error T t) as [E|] eqn:ET; [|apply nth_error_None in ET; lia]. rewrite (nth_error_nth _ _ _ ET). rewrite !(fsum_filter _ (fun e : edge_input * Z => val (snd e))). eapply Qle_trans; [apply (fsum_cover _ _ _ (touches own q) (fun r e => negb (r =? q) && (touches own r e && (negb (touches own q e) && existsb (fun v => (own v =? r) && (own' v =? q)) (snd (fst e))))) (length ps))|].
    + intros e He. apply (W2 E); auto. eapply nth_error_In; eauto.
    + intros e He A B. unfold touches in A. apply existsb_exists in A as (v & Hv & Ev). assert (IV : In v (map fst V)) by (apply (WF E (nth_error_In _ _ ET)) with (e := e); auto). exists (own v). split; [now apply OB|]. rewrite B. cbn [negb andb].
      assert (T1 : touches own (own v) e = true) by (unfold touches; apply existsb_exists; exists v; split; auto; apply Nat.eqb_refl). rewrite T1. cbn [andb]. destruct (Nat.eqb_spec (own v) q) as [Eq|]; [congruence|]. cbn [negb andb]. apply existsb_exists. exists v. split; auto. rewrite Nat.eqb_refl, Ev. reflexivity.
    + apply Qplus_le_r. apply qsum_le_map. intros r _. destruct (r =? q); cbn [negb andb]; [|lra]. unfold fsum. rewrite (qsum_eq _ 0%Q); [lra|]. intros y Hy. apply in_map_iff in Hy as (z & <- & _). reflexivity.
  - rewrite !(fsum_filter _ (fun v : Z * (Z * Z) => val (fst (snd v)))). eapply Qle_trans; [apply (fsum_cover _ _ _ (fun v => own (fst v) =? q) (fun r v => negb (r =? q) && ((own (fst v) =? r) && (own' (fst v) =? q))) (length ps))|].
    + intros v Hv. now apply W1.
    + intros v Hv A B. exists (own (fst v)). split; [apply OB; now apply in_map|]. rewrite B, A, Nat.eqb_refl. reflexivity.
    + apply Qplus_le_r. apply qsum_le_map. intros r _. destruct (r =? q); cbn [negb andb]; [|lra]. unfold fsum. rewrite (qsum_eq _ 0%Q); [lra|]. intros y Hy. apply in_map_iff in Hy as (z & <- & _). reflexivity.
Qed.
Lemma trim_cancel_mono (sp : list spart) (Q1 Q2 : list mplan -> Prop) : (forall pl, Q1 pl -> Q2 pl) -> trim_cancel val fuel dims lims false sp Q1 -> trim_cancel val fuel dims lims false sp Q2.
Proof. intros H. unfold trim_cancel. apply phase_mono. intros sa. now apply phase_mono. Qed.

Lemma kept_limits plans accs arrs caps ms own' : length plans = length ps -> Kept plans accs arrs caps ms -> moved_to own' ps (calls_after calls ms) ->
  forall q i x lim, q < length ps -> nth_error dims i = Some x -> nth_error lims i = Some lim ->
      (part_weight val own' V T q x <= lim \/ part_weight val own' V T q x <= part_weight val own V T q x)%Q.
Proof.
  intros LP HKp HM q i x lim Lq Hx Hl. pose proof HKp as (K1 & K2 & K3 & K4 & K5 & K6).
  assert (Hx' : match x with Some t => t < length T | None => True end) by (eapply Forall_forall in HK; [|eapply nth_error_In; exact Hx]; exact HK).
  assert (GQ := K1 q Lq). assert (KB : forall k, In k (map fst (accs q)) -> (0 <= k < Z.of_nat (length ps))%Z).
  { intros k Hk. apply (gr_keys _ _ _ _ _ _ _ _ _ GQ) in Hk. apply in_map_iff in Hk as ((k', ws) & <- & Hk). destruct (K2 q k' ws Lq Hk) as (r & s & p & cs & -> & _ & Ep & _). assert (r < length ps) by (apply nth_error_Some; congruence). cbn. lia. }
  assert (LE : (qsum (map (fun r => if r =? q then 0 else brought own' r q x) (seq 0 (length ps))) <= given (accs q) i)%Q).
  { rewrite <- (lookup_sum (accs q) i (length ps) (gr_nodup _ _ _ _ _ _ _ _ _ GQ) KB). apply qsum_le_map. intros r Hr. apply in_seq in Hr. assert (Lr : r < length ps) by lia.
    assert (PZ : (0 <= match zfind (accs q) (Z.of_nat r) with Some t => nthq t i | None => 0 end)%Q). { destruct (zfind (accs q) (Z.of_nat r)) as [ws|] eqn:Z0; [|lra]. apply zfind_in2 in Z0. apply (gr_pos _ _ _ _ _ _ _ _ _ GQ _ i Z0). }
    destruct (Nat.eqb_spec r q) as [_|Nr]; [exact PZ|].
    destruct (at_part r Lr) as (p & cs & s & gw & Ep & Ec & Es & Ew & HB & HMp & HO & _). destruct (nth_error plans r) as [plan'|] eqn:El; [|apply nth_error_None in El; lia]. destruct (K6 r _ p cs plan' Ew Ep Ec El) as ((b & Eb) & KP & MP & FR). cbn [sp_g sp_gw] in *.
    assert (HM1 : forall l v, nth_error (pd_verts p) l = Some v -> match fm_get (ms r) l with Some d => d = Z.of_nat (own' v) | None => own' v = r end).
    { intros l v Hv. pose proof (HM r p (cs ++ Clr :: map (fun e => Ins (fst e) (snd e)) (ms r)) l v Ep) as A. rewrite calls_after_nth, Ec in A. specialize (A eq_refl Hv). destruct (kept_planned plans accs arrs caps ms r cs l LP HKp Ec) as (B & _). now rewrite B in A. }
    assert (HM2 : forall l, In l (map fst (ms r)) -> l < length (pd_verts p)).
    { intros l I. apply in_map_iff in I as (e & <- & I). rewrite Eb in I. apply filter_In in I as (I & _). assert (I2 : In (getVertex (fst e), snd e) (handles (fm_run cs))) by (unfold handles; apply in_map_iff; exists e; auto). destruct (s_run own V T ps r p (mp_g s) HD Ep HB cs HO _ I2) as (l & E & L & _). unfold getVertex in E. cbn in E. assert (fst e = l) by (inversion E; lia). lia. }
    pose proof (s_brings val own V T ps r p (mp_g s) gw HD Ep HB HW own' (ms r) HM1 HM2 q x ltac:(auto) Hx') as BR. eapply Qle_trans; [exact BR|].
    destruct (kept_fits _ _ _ _ (loc p) (fun h Hh => s_vpos val own V T ps r p (mp_g s) gw HD Ep HB HW h Hh) dims (caps r) (P0 cs) (handles (ms r)) KP (s_locals own V T ps r p (mp_g s) HD Ep HB cs HO) (Z.of_nat q)) as [E0|(cs0 & Z0 & B0)].
    - assert (TL : (true_load (il p (mp_g s)) (res (mp_g s)) (ew val (mp_g s)) (vw val (mp_g s) gw) (handles (ms r)) (Z.of_nat q) x == 0)%Q). { destruct x as [t|]; cbn [true_load]; [unfold eset|unfold vload]; rewrite E0; reflexivity. } rewrite TL. exact PZ.
    - apply (K5 r (Z.of_nat q) cs0 Lr) in Z0 as (q' & Eq & _ & I). assert (q' = q) by lia. subst q'. assert (ZF : zfind (accs q) (Z.of_nat r) = Some cs0). { pose proof (gr_nodup _ _ _ _ _ _ _ _ _ GQ) as N. apply zfind_in; auto. } rewrite ZF.
      assert (Lc0 : length cs0 = length dims) by exact (gr_len _ _ _ _ _ _ _ _ _ GQ _ I). assert (Li : i < length cs0) by (rewrite Lc0; apply nth_error_Some; congruence). destruct (nth_error cs0 i) as [c|] eqn:Ec0; [|apply nth_error_None in Ec0; lia]. unfold nthq. rewrite (nth_error_nth _ _ _ Ec0). eapply B0; eauto. }
  pose proof (gained own' q x Hx') as G. destruct (gr_room _ _ _ _ _ _ _ _ _ GQ i x lim Hx Hl) as [A|A]; [right|left]; lra.
Qed.

(** after trim and cancel no part that receives is pushed over its limit in a completed dimension, whatever the arrival orders; the plan left is a sub-plan *)
Theorem C44_limits : trim_cancel val fuel dims lims false (with_weights sts gws) (fun plans => length plans = length ps /\
  exists calls', ready true fuel ps calls' (replan sts plans) /\
    (forall r cs cs' l, nth_error calls r = Some cs -> nth_error calls' r = Some cs' -> planned cs' l = None \/ planned cs' l = planned cs l) /\
    forall own', moved_to own' ps calls' -> forall q i x lim, q < length ps -> nth_error dims i = Some x -> nth_error lims i = Some lim ->
      (part_weight val own' V T q x <= lim \/ part_weight val own' V T q x <= part_weight val own V T q x)%Q).
Proof.
  eapply trim_cancel_mono; [|apply (trim_cancel_ok val own V T ps calls sts gws fuel dims lims HD HR HF HW HK LL L0 L5 LG)]. intros plans (LP & accs & arrs & caps & ms & HKp). change (Kept plans accs arrs caps ms) in HKp. split; auto.
  exists (calls_after calls ms). split; [eapply kept_ready; eauto|]. split.
  - intros r cs cs' l Hc Hc'. rewrite calls_after_nth, Hc in Hc'. inversion Hc'; subst cs'. destruct (kept_planned plans accs arrs caps ms r cs l LP HKp Hc) as (-> & b & Eb). eapply filter_get; eauto.
  - intros own' HM. eapply kept_limits; eauto.
Qed.

(** nothing is cancelled when all that is asked of every part fits below its limits (with some room in the last dimension) *)
Theorem C44_all_kept own1 : NoDup dims -> moved_to own1 ps calls -> (forall r cs l, nth_error calls r = Some cs -> planned cs l <> Some (Z.of_nat r)) ->
  (forall q i x lim, q < length ps -> nth_error dims i = Some x -> nth_error lims i = Some lim ->
     let all := (part_weight val own V T q x + qsum (map (fun r => if r =? q then 0 else brought own1 r q x) (seq 0 (length ps))))%Q in (all <= lim)%Q /\ (i = length dims - 1 -> (all < lim)%Q)) ->
  trim_cancel val fuel dims lims false (with_weights sts gws) (fun plans => length plans = length ps /\
    exists calls', ready true fuel ps calls' (replan sts plans) /\
      forall r cs cs' l, nth_error calls r = Some cs -> nth_error calls' r = Some cs' -> planned cs' l = planned cs l).
Proof.
  intros ND HM HS HA. eapply trim_cancel_mono; [|apply (trim_cancel_ok val own V T ps calls sts gws fuel dims lims HD HR HF HW HK LL L0 L5 LG)]. intros plans (LP & accs & arrs & caps & ms & HKp). change (Kept plans accs arrs caps ms) in HKp. split; auto.
  exists (calls_after calls ms). split; [eapply kept_ready; eauto|]. intros r cs cs' l Hc Hc'. rewrite calls_after_nth, Hc in Hc'. inversion Hc'; subst cs'. destruct (kept_planned plans accs arrs caps ms r cs l LP HKp Hc) as (-> & _). rewrite <- planned_get. f_equal. clear l Hc'.
  pose proof HKp as (K1 & K2 & K3 & K4 & K5 & K6). assert (Lr : r < length ps) by (destruct HR as (_ & LC & _); rewrite <- LC; apply nth_error_Some; congruence).
  assert (HDm : Forall (dim_ok (tok T)) dims) by (eapply Forall_impl; [|exact HK]; intros [t|]; auto).
  destruct (at_part r Lr) as (p & cs0 & s & gw & Ep & Ec & Es & Ew & HB & HMp & HO & _). assert (cs0 = cs) by congruence. subst cs0. destruct (nth_error plans r) as [plan'|] eqn:El; [|apply nth_error_None in El; lia]. destruct (K6 r _ p cs plan' Ew Ep Ec El) as ((b & Eb) & KP & MP & FR). cbn [sp_g sp_gw] in *.
  assert (VC : forall x, In x dims -> x = None -> (vcount dims == 1)%Q).
  { intros x I ->. clear - ND I. induction dims as [|y d IH]; [destruct I|]. inversion ND; subst. cbn [vcount]. destruct y as [t|]; [apply IH; auto; destruct I; [discriminate|auto]|].
    assert (vcount d == 0)%Q; [|lra]. clear - H1. induction d as [|[t|] d IH]; cbn [vcount]; [reflexivity|apply IH; intros I; apply H1; right; auto|exfalso; apply H1; left; auto]. }
  assert (GA : forall q, q < length ps -> forall m, In m (arrs q) -> In m (accs q)).
  { intros q Lq. assert (AS : forall i x lim, nth_error dims i = Some x -> nth_error lims i = Some lim -> (given (arrs q) i <= qsum (map (fun r => if r =? q then 0 else brought own1 r q x) (seq 0 (length ps))))%Q).
    { intros i x lim Hx Hl. assert (KB : forall k, In k (map fst (arrs q)) -> (0 <= k < Z.of_nat (length ps))%Z).
      { intros k Hk. apply in_map_iff in Hk as ((k', ws) & <- & Hk). destruct (K2 q k' ws Lq Hk) as (r' & s' & p' & cs' & -> & _ & Ep' & _). assert (r' < length ps) by (apply nth_error_Some; congruence). cbn. lia. }
      assert (Hx' : match x with Some t => t < length T | None => True end) by (eapply Forall_forall in HK; [|eapply nth_error_In; exact Hx]; exact HK).
      rewrite <- (lookup_sum (arrs q) i (length ps) (K4 q Lq) KB). apply qsum_le_map. intros r' Hr'. apply in_seq in Hr'. destruct (zfind (arrs q) (Z.of_nat r')) as [ws|] eqn:Z0; [|destruct (r' =? q); [lra|now apply brought_pos]]. apply zfind_in2 in Z0.
      destruct (K2 q _ ws Lq Z0) as (r'' & s' & p' & cs' & Er & Ew' & Ep' & Ec' & _ & FW). assert (r'' = r') by lia. subst r''. clear Er. assert (Lr' : r' < length ps) by lia. destruct (at_part r' Lr') as (p2 & cs2 & s2 & gw2 & Ep2 & Ec2 & Es2 & Ew2 & HB2 & HMp2 & HO2 & _).
      assert (p2 = p') by congruence. assert (cs2 = cs') by congruence. subst p2 cs2. rewrite Ew2 in Ew'. inversion Ew'; subst s'. cbn [sp_g sp_gw] in FW.
      assert (Li : i < length ws) by (rewrite <- (F2_len _ _ _ _ _ FW); apply nth_error_Some; congruence). destruct (nth_error ws i) as [w|] eqn:Ewi; [|apply nth_error_None in Ewi; lia]. unfold nthq. rewrite (nth_error_nth _ _ _ Ewi), (F2_nth _ _ _ _ _ i x w FW Hx Ewi).
      assert (LT : (load (il p' (mp_g s2)) (res (mp_g s2)) (ew val (mp_g s2)) (vw val (mp_g s2) gw2) dims (P0 cs') (Z.of_nat q) x == true_load (il p' (mp_g s2)) (res (mp_g s2)) (ew val (mp_g s2)) (vw val (mp_g s2) gw2) (P0 cs') (Z.of_nat q) x)%Q).
      { destruct x as [t|]; cbn [load true_load]; [reflexivity|]. rewrite (VC None (nth_error_In _ _ Hx) eq_refl). ring. } rewrite LT.
      assert (SS : q = r' -> sent_to (Z.of_nat q) (handles (fm_run cs')) = []).
      { intros ->. unfold sent_to. replace (filter _ _) with (@nil (nat * Z)); [reflexivity|]. symmetry. assert (G : forall k, In k (handles (fm_run cs')) -> Z.eqb (snd k) (Z.of_nat r') = false).
        { intros k Hk. destruct (s_run own V T ps r' p' (mp_g s2) HD Ep2 HB2 cs' HO2 k Hk) as (l & _ & _ & Pl & _). apply Z.eqb_neq. intros E. apply (HS r' cs' l Ec2). congruence. }
        revert G. generalize (handles (fm_run cs')). clear. induction l as [|k l IH]; intros G; [reflexivity|]. cbn [filter]. rewrite (G k (or_introl eq_refl)). apply IH. intros; apply G; right; auto. }
      destruct (Nat.eqb_spec r' q) as [Erq|Nrq]. { unfold P0. destruct x as [t|]; cbn [true_load]; [unfold eset|unfold vload]; rewrite SS by auto; cbn; lra. }
      apply (s_asks val own V T ps r' p' (mp_g s2) gw2 HD Ep2 HB2 HW own1 (fm_run cs')); auto.
      - intros l v Hv. rewrite planned_get. apply (HM r' p' cs' l v Ep2 Ec2 Hv).
      - intros l I. apply in_map_iff in I as (e & <- & I). assert (I2 : In (getVertex (fst e), snd e) (handles (fm_run cs'))) by (unfold handles; apply in_map_iff; exists e; auto). destruct (s_run own V T ps r' p' (mp_g s2) HD Ep2 HB2 cs' HO2 _ I2) as (l & E & L & _). unfold getVertex in E. cbn in E. assert (fst e = l) by (inversion E; lia). lia.
      - apply fm_run_nodup. }
    apply (gr_all _ _ _ _ _ _ _ _ _ (K1 q Lq)).
    - intros i x lim Hx Hl. destruct (HA q i x lim Lq Hx Hl) as (A & _). specialize (AS i x lim Hx Hl). cbv zeta in A. lra.
    - intros x lim Hx Hl. destruct (HA q _ x lim Lq Hx Hl) as (_ & A). specialize (A eq_refl). specialize (AS _ x lim Hx Hl). cbv zeta in A. lra. }
  assert (EQ : handles (ms r) = P0 cs).
  { apply (kept_all _ _ _ _ (loc p) (tok T) (fun h Hh => s_vpos val own V T ps r p (mp_g s) gw HD Ep HB HW h Hh) (fun h t e A B C => s_epos val own V T ps r p (mp_g s) HD Ep HB HW h t e A B C) dims (caps r) (P0 cs) HDm (s_locals own V T ps r p (mp_g s) HD Ep HB cs HO) _ _ KP); [exists []; now rewrite app_nil_r|].
    intros d Hd. apply in_map_iff in Hd as (k & <- & Hk). destruct (s_run own V T ps r p (mp_g s) HD Ep HB cs HO k Hk) as (l & _ & _ & _ & B). set (q := Z.to_nat (snd k)). assert (Eq : snd k = Z.of_nat q) by lia. assert (Lq : q < length ps) by lia. rewrite Eq.
    destruct (K3 q r _ p cs Lq Ew Ep Ec) as (ws & I); [rewrite <- Eq; now apply in_map|]. exists ws. split; [apply K5; auto; exists q; auto|]. destruct (K2 q _ ws Lq I) as (r' & s' & p' & cs' & Er & Ew' & Ep' & Ec' & _ & FW). assert (r' = r) by lia. subst r'. assert (p' = p) by congruence. assert (cs' = cs) by congruence. subst p' cs'. rewrite Ew in Ew'. inversion Ew'; subst s'. cbn [sp_g sp_gw] in FW.
    clear - FW. revert FW. generalize (load (il p (mp_g s)) (res (mp_g s)) (ew val (mp_g s)) (vw val (mp_g s) gw) dims (P0 cs) (Z.of_nat q)). clear. intros f FW. induction FW; constructor; auto. rewrite H. lra. }
  unfold P0, handles in EQ. clear - EQ. revert EQ. generalize (ms r) (fm_run cs). clear. intros a. induction a as [|x a IH]; intros [|y b] E; cbn in E; try discriminate; auto. injection E as E1 E2 E3. f_equal; [|auto]. destruct x, y. unfold getVertex in E1. cbn [fst snd] in *. f_equal; [lia|auto].
Qed.
End C44.

(** the whole step of the balancer on a hypergraph with one edge type: after trim, cancel and migrate, the weight every part reports *)
Theorem C44_step val own V E0 ps calls sts gws fuel dims lims : distributed own V [E0] ps -> ready true fuel ps calls sts -> big_enough fuel V [E0] -> weights_pos val V [E0] -> known_dims [E0] dims ->
  length lims = length dims -> 0 < length dims -> length dims <= 5 -> length gws = length ps ->
  trim_cancel val fuel dims lims false (with_weights sts gws) (fun plans => migrate fuel (replan sts plans) (fun sts' => length sts' = length ps /\
    forall q s s' gw gw' i x lim, nth_error sts q = Some s -> nth_error sts' q = Some s' -> nth_error dims i = Some x -> nth_error lims i = Some lim ->
      exists w w', getWeight val (mp_g s) gw x false fuel = Some w /\ getWeight val (fst s') gw' x false fuel = Some w' /\ (w' <= lim \/ w' <= w)%Q)).
Proof.
  intros HD HR HF HW HK LL L0 L5 LG. eapply trim_cancel_mono; [|apply (C44_limits val own V [E0] ps calls sts gws fuel dims lims HD HR HF HW HK LL L0 L5 LG)].
  intros plans (LP & calls' & HR' & _ & HL). pose proof (new_home_moved own V E0 ps calls' _ fuel HD HR') as HM. eapply migrate_mono; [|apply (one_step own _ V E0 ps calls' _ fuel HD HR' HM HF)].
  intros sts' (ps' & L1 & L2 & HD' & B'). split; auto. intros q s s' gw gw' i x lim Hs Hs' Hx Hl. assert (Lq : q < length ps) by (rewrite <- L2; apply nth_error_Some; congruence).
  destruct (nth_error ps q) as [p|] eqn:Ep; [|apply nth_error_None in Ep; lia]. destruct (nth_error ps' q) as [p'|] eqn:Ep'; [|apply nth_error_None in Ep'; lia]. destruct HR as (LS & LC & HX). destruct (nth_error calls q) as [cs|] eqn:Ec; [|apply nth_error_None in Ec; lia]. destruct (HX q p cs s Ep Ec Hs) as ((HB & _) & _). destruct (B' q p' s' Ep' Hs') as (HB' & _). cbn [fst] in HB.
  assert (Hx' : match x with Some t => t < length [E0] | None => True end) by (eapply Forall_forall in HK; [|eapply nth_error_In; exact Hx]; exact HK).
  destruct (getWeight_part val own V [E0] ps q p (mp_g s) gw x fuel HD Ep HB HF Hx') as (w & Ew & W). destruct (getWeight_part val _ V [E0] ps' q p' (fst s') gw' x fuel HD' Ep' HB' HF Hx') as (w' & Ew' & W'). exists w, w'. split; auto. split; auto. rewrite W, W'. apply (HL _ HM q i x lim Lq Hx Hl).
Qed.
Print Assumptions C44_limits.
Print Assumptions C44_all_kept.
Print Assumptions C44_step.

(** *** concrete cases: two parts that want to exchange vertices; the vertex of weight 5 would push part 1 over its limit 12 and is cancelled *)
Definition run_sending (calls : list (list plan_op)) (dims : list (option nat)) (lims : list Q) : option (list (list nat)) :=
  ms <- run_plans true 200 ex_ps calls ;; pl <- run_trim_cancel inject_Z 200 dims lims false (with_weights ms [None; None]) ;; Some (map pl_sending pl).
Example C44_example : exists mps, run_plans true 200 ex_ps ex_calls = Some mps /\ distributed ex_own ex_V [ex_E] ex_ps /\ ready true 200 ex_ps ex_calls mps /\ big_enough 200 ex_V [ex_E] /\
  weights_pos inject_Z ex_V [ex_E] /\ known_dims [ex_E] [None; Some 0] /\ map (fun s => pl_sending (mp_plan s)) mps = [[1; 2]; [2]] /\ run_sending ex_calls [None; Some 0] [12; 9]%Q = Some [[]; [2]].
Proof.
  destruct (run_plans true 200 ex_ps ex_calls) as [mps|] eqn:E; [|vm_compute in E; discriminate]. exists mps. split; [reflexivity|]. split; [apply distributedb_ok; vm_compute; reflexivity|].
  split; [apply ready_check; [exact E|vm_compute; reflexivity..]|]. split; [split; [cbn; lia|]; intros e [<-|[]]; vm_compute; lia|].
  split. { split; [intros v Hv; cbn in Hv; intuition (subst v; vm_compute; intros X; discriminate X)|]. intros E1 e [<-|[]] He. cbn in He. intuition (subst e; vm_compute; intros X; discriminate X). }
  split; [repeat constructor|]. vm_compute in E. inversion E; subst mps. split; vm_compute; reflexivity.
Qed.
(** all that is asked fits: nothing is cancelled *)
Definition c44_calls : list (list plan_op) := [[Ins 0 1]; [Ins 1 0]]%Z.
Definition c44_own (v : Z) : nat := if Z.eqb v 2 || Z.eqb v 4 then 0 else 1.
Example C44_all_kept_example : moved_to c44_own ex_ps c44_calls /\ (forall r cs l, nth_error c44_calls r = Some cs -> planned cs l <> Some (Z.of_nat r)) /\
  (forall q i x lim, q < 2 -> nth_error [Some 0; None] i = Some x -> nth_error [11; 14]%Q i = Some lim ->
     let all := (part_weight inject_Z ex_own ex_V [ex_E] q x + qsum (map (fun r => if r =? q then 0 else brought inject_Z ex_own ex_V [ex_E] c44_own r q x) (seq 0 2)))%Q in (all <= lim)%Q /\ (i = 1 -> (all < lim)%Q)) /\
  run_sending c44_calls [Some 0; None] [11; 14]%Q = Some [[1]; [2]].
Proof.
  split; [apply movedb_ok; vm_compute; reflexivity|]. split.
  { intros r cs l H. destruct r as [|[|r]]; cbn in H; [inversion H; subst cs|inversion H; subst cs|destruct r; discriminate]; unfold planned; cbn [fold_left]; destruct (_ =? l); discriminate. }
  split; [|vm_compute; reflexivity]. intros q i x lim Lq Hx Hl. destruct i as [|[|i]]; cbn in Hx, Hl; [| |destruct i; discriminate]; inversion Hx; inversion Hl; subst x lim; destruct q as [|[|q]]; try lia; split; [|intros E; discriminate E| |intros E; discriminate E| |intros _| |intros _]; vm_compute; first [intros E; discriminate E | exact eq_refl].
Qed.

(** *** More than five completed dimensions: the message of a peer is unpacked into an array of five weights (Migr::ws) and overruns it *)
Lemma run_phase_some A M B (send : A -> option (list (Z * M))) (recv : A -> list (Z * M) -> option B) st Q : phase send recv st Q -> exists st', run_phase send recv st = Some st' /\ Q st'.
Proof.
  intros (sent & E & D & K). unfold run_phase. rewrite E. cbn [obind]. assert (DB : dests_okb sent = true).
  { unfold dests_okb. apply forallb_forall. intros ms Hms. apply forallb_forall. intros m Hm. specialize (D ms m Hms Hm). apply andb_true_iff. split; [apply Z.leb_le|apply Z.ltb_lt]; lia. }
  rewrite DB. destruct (K _ (arrive_delivered _ _ D)) as (st' & E' & HQ). eauto.
Qed.
Theorem C44_six_dimensions_refuted : exists mps, run_plans true 200 ex_ps c44_calls = Some mps /\ distributed ex_own ex_V [ex_E] ex_ps /\ ready true 200 ex_ps c44_calls mps /\
  forall Q, ~ trim_cancel inject_Z 200 (repeat (Some 0) 6) (repeat 100%Q 6) false (with_weights mps [None; None]) Q.
Proof.
  destruct (run_plans true 200 ex_ps c44_calls) as [mps|] eqn:E; [|vm_compute in E; discriminate]. exists mps. split; [reflexivity|]. split; [apply distributedb_ok; vm_compute; reflexivity|].
  split; [apply ready_check; [exact E|vm_compute; reflexivity..]|]. intros Q H. unfold trim_cancel in H. apply run_phase_some in H as (sa & E1 & _). vm_compute in E. inversion E; subst mps. vm_compute in E1. discriminate.
Qed.
(** *** With countGhosts the capacity counts ghost vertices but the loads do not: part 1 has weight 2 and limit 3, is sent one vertex of weight 1 and ends
    up with weight 12, because the vertex brings a ghost of weight 10 *)
Definition c44g_ps : list pdesc :=
  [mkPD [1; 2]%Z [1; 10]%Z [([(100, [1; 2]); (101, [1; 3])], [1; 1])]%Z [(3, 1)]%Z [0; 0]%Z;
   mkPD [3]%Z [1]%Z [([(101, [1; 3])], [1])]%Z [(1, 0)]%Z [1]%Z].
Definition c44g_after : option (list (graph * arr Z)) :=
  ms <- run_plans true 200 c44g_ps [[Ins 0 1]; []]%Z ;; pl <- run_trim_cancel inject_Z 200 [None] [3%Q] true (with_weights ms [Some (ainit [1%Z]); Some (ainit [1%Z])]) ;; run_migrate 200 (replan ms pl).
Theorem C44_ghosts_refuted : exists mps s0 s1, run_plans true 200 c44g_ps [[Ins 0 1]; []]%Z = Some mps /\ ready true 200 c44g_ps [[Ins 0 1]; []]%Z mps /\
  (s <- nth_error mps 1 ;; getWeight inject_Z (mp_g s) (Some (ainit [1%Z])) None true 200) = Some 2%Q /\
  c44g_after = Some [s0; s1] /\ ghosts_seen 20 s1 = Some [(2, 0)]%Z /\ getWeight inject_Z (fst s1) (Some (ainit [10%Z])) None true 200 = Some 12%Q.
Proof.
  destruct (run_plans true 200 c44g_ps [[Ins 0 1]; []]%Z) as [mps|] eqn:E; [|vm_compute in E; discriminate]. destruct c44g_after as [[|s0 [|s1 [|? ?]]]|] eqn:A; vm_compute in A; try discriminate. exists mps, s0, s1. split; [reflexivity|].
  split; [apply ready_check; [exact E|vm_compute; reflexivity..]|]. vm_compute in E. inversion E; subst mps. inversion A; subst. repeat split; vm_compute; reflexivity.
Qed.
Print Assumptions C44_six_dimensions_refuted.
Print Assumptions C44_ghosts_refuted.
