(** trim and cancel on all parts: what every part keeps, whatever the arrival orders. *)
From Verif Require Import Base GraphModel GraphSpec ConstructProofs GraphTop GraphTop2 AccessProofs Comm TagModel TagProps MetricsModel MetricsProofs MetricsProps MigrateModel MigrateSpec MigrateProofs5 MigrateTop SidesProofs SidesProps SecondAdjProps SelectorModel SelectorProofs SelectorTop.
From Coq Require Import Lqa.
Local Open Scope nat_scope.

Definition known_dims (T : list (list (edge_input * Z))) (dims : list (option nat)) : Prop := Forall (fun x => match x with Some t => t < length T | None => True end) dims.
(** what a part grants its peers *)
Record grants (val : Z -> Q) (own : Z -> nat) (V : list (Z * (Z * Z))) (T : list (list (edge_input * Z))) (dims : list (option nat)) (lims : list Q) (q : nat) (arrived acc : list (Z * list Q)) : Prop := mkGr {
  gr_nodup : NoDup (map fst acc);
  gr_keys : forall k, In k (map fst acc) <-> In k (map fst arrived);
  gr_len : forall m, In m acc -> length (snd m) = length dims;
  gr_pos : forall m i, In m acc -> (0 <= nthq (snd m) i)%Q;
  gr_room : forall i x lim, nth_error dims i = Some x -> nth_error lims i = Some lim -> (given acc i <= 0 \/ given acc i + part_weight val own V T q x <= lim)%Q;
  gr_all : (forall i x lim, nth_error dims i = Some x -> nth_error lims i = Some lim -> given arrived i + part_weight val own V T q x <= lim)%Q ->
           (forall x lim, nth_error dims (length dims - 1) = Some x -> nth_error lims (length dims - 1) = Some lim -> given arrived (length dims - 1) + part_weight val own V T q x < lim)%Q ->
           forall m, In m arrived -> In m acc }.
Lemma receive_ok val own V T ps r p g gw plan fuel dims lims arrived : distributed own V T ps -> nth_error ps r = Some p -> build_part (Z.of_nat r) true (pd_verts p) (pd_vws p) (pd_tys p) (pd_owns p) = Some g ->
  big_enough fuel V T -> known_dims T dims -> length lims = length dims -> 0 < length dims -> length dims <= 5 -> NoDup (map fst arrived) ->
  (forall m, In m arrived -> length (snd m) = length dims /\ forall i, (0 <= nthq (snd m) i)%Q) ->
  exists acc, trim_answer val fuel dims lims false (mkSP g gw plan) arrived = Some acc /\ grants val own V T dims lims r arrived acc.
Proof.
  intros HD Hp HB HF HK LL L0 L5 N HA. unfold trim_answer. cbn [sp_g sp_gw]. destruct (incoming_ok dims arrived L5 (fun m Hm => proj1 (HA m Hm)) N) as (inc & -> & PI). cbn [obind].
  unfold availability. destruct (mapM_choice _ _ (fun x : option nat * Q => w <- getWeight val g gw (fst x) false fuel ;; Some (snd x - w)%Q) (fun _ x a => a == snd x - part_weight val own V T r (fst x))%Q (combine dims lims)) as (avail & -> & La & Ha).
  { intros i (x, lim) Hx. assert (Hx' : match x with Some t => t < length T | None => True end). { apply nth_error_In, in_combine_l in Hx. eapply Forall_forall in HK; eauto. } cbn [fst snd].
    destruct (getWeight_part val own V T ps r p g gw x fuel HD Hp HB HF Hx') as (w & -> & W). cbn [obind]. eexists. split; [reflexivity|]. rewrite W. reflexivity. }
  cbn [obind]. rewrite combine_length, LL, Nat.min_id in La. set (is := forallb (fun a => Qle_bool 0 a) avail).
  assert (AV : forall i x lim, nth_error dims i = Some x -> nth_error lims i = Some lim -> (nthq avail i == lim - part_weight val own V T r x)%Q).
  { intros i x lim Hx Hl. assert (Li : i < length avail) by (rewrite La; apply nth_error_Some; congruence). destruct (nth_error avail i) as [a|] eqn:Ea; [|apply nth_error_None in Ea; lia]. unfold nthq. rewrite (nth_error_nth _ _ _ Ea).
    apply (Ha i (x, lim) a); auto. clear - Hx Hl. revert i lims Hx Hl. induction dims as [|y d IH]; intros [|i] [|z l] A B; cbn in *; try discriminate; [congruence|auto]. }
  assert (NI : NoDup (map fst inc)) by (eapply Permutation_NoDup; [apply Permutation_sym, Permutation_map, PI|exact N]).
  assert (LI : forall m, In m inc -> length (snd m) = length dims /\ forall i, (0 <= nthq (snd m) i)%Q) by (intros m Hm; apply HA; eapply Permutation_in; eauto).
  destruct (accept_shape (length dims) inc is avail [] La (fun m Hm => proj1 (LI m Hm)) NI ltac:(intros k _ [])) as (new & En & KN & LN & C1 & C2). cbn [app] in En.
  assert (KK : forall k, In k (map fst new) <-> In k (map fst arrived)). { intros k. rewrite KN. split; apply Permutation_in; [|apply Permutation_sym]; now apply Permutation_map. }
  exists (accept (is, avail) inc). split; [reflexivity|]. unfold accept. rewrite En.
  assert (AVP : is = true -> forall i, (0 <= nthq avail i)%Q). { intros E i. unfold is in E. rewrite forallb_forall in E. unfold nthq. destruct (nth_in_or_default i avail 0%Q) as [I| ->]; [apply Qle_bool_iff, E, I|lra]. }
  split; auto.
  - now rewrite KN.
  - intros m i Hm. destruct is; [|rewrite C2; auto; lra]. destruct (C1 eq_refl (AVP eq_refl) i) as (_ & C3). destruct (C3 m Hm) as [A|(m' & Hm' & A)]; auto. destruct (LI m' Hm') as (_ & B). specialize (B i). lra.
  - intros i x lim Hx Hl. destruct is.
    + right. destruct (C1 eq_refl (AVP eq_refl) i) as (A & _). rewrite (AV i x lim Hx Hl) in A. lra.
    + left. assert (given new i == 0)%Q; [|lra]. unfold given. rewrite (qsum_eq _ 0%Q); [ring|]. intros y Hy. apply in_map_iff in Hy as (m & <- & Hm). rewrite (C2 eq_refl m i Hm). reflexivity.
  - intros HS HL m Hm.
    assert (GP : forall i, (0 <= given arrived i)%Q). { intros i. apply qsum_nonneg. intros y Hy. apply in_map_iff in Hy as (m' & <- & Hm'). apply HA; auto. }
    assert (GS : forall i, i < length dims -> (given inc i <= nthq avail i)%Q /\ (i = length dims - 1 -> (given inc i < nthq avail i)%Q)).
    { intros i Hi. destruct (nth_error dims i) as [x|] eqn:Ex; [|apply nth_error_None in Ex; lia]. destruct (nth_error lims i) as [lim|] eqn:El; [|apply nth_error_None in El; lia]. rewrite (AV i x lim Ex El), (given_perm _ _ i PI). specialize (HS i x lim Ex El). split; [lra|]. intros ->. specialize (HL x lim Ex El). lra. }
    assert (EA := accept_all (length dims) inc L0 is avail [] La LI NI ltac:(intros k _ [])). rewrite En in EA. rewrite EA; [eapply Permutation_in; [apply Permutation_sym, PI|exact Hm]| |apply GS|apply GS; lia].
    intros _. unfold is. apply forallb_forall. intros a Ia. apply Qle_bool_iff. apply In_nth_error in Ia as (i & Hi). assert (Li : i < length dims) by (rewrite <- La; apply nth_error_Some; congruence). destruct (GS i Li) as (A & _). unfold nthq in A. rewrite (nth_error_nth _ _ _ Hi) in A. pose proof (given_perm _ _ i PI). specialize (GP i). lra.
Qed.

(** the parts as trim and cancel see them, and the parts with the plans they leave *)
Definition with_weights (sts : list mpart) (gws : list (option (arr Z))) : list spart := map (fun x => mkSP (mp_g (fst x)) (snd x) (mp_plan (fst x))) (combine sts gws).
Definition replan (sts : list mpart) (plans : list mplan) : list mpart := map (fun x => mkMP (mp_g (fst x)) (mp_oo (fst x)) (snd x)) (combine sts plans).
Lemma combine_nth2 A B (a : list A) (b : list B) i x y : nth_error a i = Some x -> nth_error b i = Some y -> nth_error (combine a b) i = Some (x, y).
Proof. revert i b. induction a as [|x' a IH]; intros [|i] [|y' b] H1 H2; cbn in *; try discriminate; [congruence|auto]. Qed.
Lemma combine_nth_inv A B (a : list A) (b : list B) i z : nth_error (combine a b) i = Some z -> nth_error a i = Some (fst z) /\ nth_error b i = Some (snd z).
Proof. revert i b. induction a as [|x' a IH]; intros [|i] [|y' b] H; cbn in *; try discriminate; [inversion H; auto|auto]. Qed.

Lemma F2_len A B (R : A -> B -> Prop) a b : Forall2 R a b -> length a = length b. Proof. induction 1; cbn; congruence. Qed.
Lemma F2_nth A B (R : A -> B -> Prop) a b i x y : Forall2 R a b -> nth_error a i = Some x -> nth_error b i = Some y -> R x y.
Proof. intros H. revert i. induction H; intros [|i] E1 E2; cbn in *; try discriminate; [inversion E1; inversion E2; subst; auto|eauto]. Qed.

(** part r keeps m out of its plan: cap is what the peers granted *)
Definition keeps (val : Z -> Q) (fuel : nat) (dims : list (option nat)) (s : spart) (p : pdesc) (cs : list plan_op) (plan' : mplan) (m : list (nat * Z)) (cap : zmap (list Q)) : Prop :=
  (exists b, m = filter b (fm_run cs)) /\ kept (il p (sp_g s)) (res (sp_g s)) (ew val (sp_g s)) (vw val (sp_g s) (sp_gw s)) dims cap (P0 cs) (handles m) /\
  made_plan fuel (sp_g s) (cs ++ Clr :: map (fun e => Ins (fst e) (snd e)) m) plan' /\ fm_run (cs ++ Clr :: map (fun e => Ins (fst e) (snd e)) m) = m.

Lemma trim_cancel_ok val own V T ps calls sts gws fuel dims lims : distributed own V T ps -> ready true fuel ps calls sts -> big_enough fuel V T -> weights_pos val V T -> known_dims T dims ->
  length lims = length dims -> 0 < length dims -> length dims <= 5 -> length gws = length ps ->
  trim_cancel val fuel dims lims false (with_weights sts gws) (fun plans => length plans = length ps /\
    exists (accs : nat -> list (Z * list Q)) (arrs : nat -> list (Z * list Q)) (caps : nat -> zmap (list Q)) (ms : nat -> list (nat * Z)),
      (forall q, q < length ps -> grants val own V T dims lims q (arrs q) (accs q)) /\
      (forall q k ws, q < length ps -> In (k, ws) (arrs q) -> exists r s p cs, k = Z.of_nat r /\ nth_error (with_weights sts gws) r = Some s /\ nth_error ps r = Some p /\ nth_error calls r = Some cs /\ In (Z.of_nat q) (map snd (P0 cs)) /\
          Forall2 (fun x w => w == load (il p (sp_g s)) (res (sp_g s)) (ew val (sp_g s)) (vw val (sp_g s) (sp_gw s)) dims (P0 cs) (Z.of_nat q) x)%Q dims ws) /\
      (forall q r s p cs, q < length ps -> nth_error (with_weights sts gws) r = Some s -> nth_error ps r = Some p -> nth_error calls r = Some cs -> In (Z.of_nat q) (map snd (P0 cs)) -> exists ws, In (Z.of_nat r, ws) (arrs q)) /\
      (forall q, q < length ps -> NoDup (map fst (arrs q))) /\
      (forall r q ws, r < length ps -> zfind (caps r) q = Some ws <-> exists q', q = Z.of_nat q' /\ q' < length ps /\ In (Z.of_nat r, ws) (accs q')) /\
      forall r s p cs plan', nth_error (with_weights sts gws) r = Some s -> nth_error ps r = Some p -> nth_error calls r = Some cs -> nth_error plans r = Some plan' -> keeps val fuel dims s p cs plan' (ms r) (caps r)).
Proof.
  intros HD (LS & LC & HR) HF HW HK LL L0 L5 LG. unfold trim_cancel.
  assert (LP : length (with_weights sts gws) = length ps) by (unfold with_weights; rewrite map_length, combine_length; lia).
  assert (HX : forall r s, nth_error (with_weights sts gws) r = Some s -> exists p cs, nth_error ps r = Some p /\ nth_error calls r = Some cs /\ build_part (Z.of_nat r) true (pd_verts p) (pd_vws p) (pd_tys p) (pd_owns p) = Some (sp_g s) /\ made_plan fuel (sp_g s) cs (sp_plan s) /\ (forall o, In o cs -> call_ok (sp_g s) (length ps) o)).
  { intros r s Hs. assert (Lr : r < length ps) by (rewrite <- LP; apply nth_error_Some; congruence). unfold with_weights in Hs. rewrite nth_error_map in Hs. destruct (nth_error (combine sts gws) r) as [(st, gw)|] eqn:Ec; [|discriminate]. cbn in Hs. inversion Hs; subst s. apply combine_nth_inv in Ec as (Es & Eg). cbn [fst snd] in *.
    destruct (nth_error ps r) as [p|] eqn:Ep; [|apply nth_error_None in Ep; lia]. destruct (nth_error calls r) as [cs|] eqn:Ecs; [|apply nth_error_None in Ecs; lia]. exists p, cs. destruct (HR r p cs st Ep Ecs Es) as ((B & _) & M & O). cbn [fst snd sp_g sp_plan] in *. auto. }
  assert (HDm : Forall (dim_ok (tok T)) dims) by (eapply Forall_impl; [|exact HK]; intros [t|]; auto).
  assert (NDm : dims <> []) by (intros ->; cbn in L0; lia).
  destruct (mapM_choice _ _ (trim_send val fuel dims) (fun r s out => forall p cs, nth_error ps r = Some p -> nth_error calls r = Some cs -> NoDup (map fst out) /\ (forall d, In d (map fst out) <-> In d (map snd (P0 cs))) /\
     forall m, In m out -> Forall2 (fun x w => w == load (il p (sp_g s)) (res (sp_g s)) (ew val (sp_g s)) (vw val (sp_g s) (sp_gw s)) dims (P0 cs) (fst m) x)%Q dims (snd m)) (with_weights sts gws)) as (sent & Es & Ls & Hs).
  { intros r s Hs. destruct (HX r s Hs) as (p & cs & Ep & Ec & HB & HM & HO). destruct s as [g gw plan]. cbn [sp_g sp_gw sp_plan] in *.
    destruct (s_trim_send val own V T ps r p g gw fuel HD Ep HB HF cs plan HM HO dims NDm HDm) as (out & E & A). exists out. split; auto. intros p' cs' Ep' Ec'. assert (p' = p) by congruence. assert (cs' = cs) by congruence. now subst. }
  exists sent. split; auto. rewrite LP in Ls.
  assert (HS : forall r out, nth_error sent r = Some out -> exists s p cs, nth_error (with_weights sts gws) r = Some s /\ nth_error ps r = Some p /\ nth_error calls r = Some cs /\ NoDup (map fst out) /\ (forall d, In d (map fst out) <-> In d (map snd (P0 cs))) /\
     forall m, In m out -> Forall2 (fun x w => w == load (il p (sp_g s)) (res (sp_g s)) (ew val (sp_g s)) (vw val (sp_g s) (sp_gw s)) dims (P0 cs) (fst m) x)%Q dims (snd m)).
  { intros r out Ho. assert (Lr : r < length ps) by (rewrite <- Ls; apply nth_error_Some; congruence). destruct (nth_error (with_weights sts gws) r) as [s|] eqn:E; [|apply nth_error_None in E; lia]. destruct (HX r s E) as (p & cs & Ep & Ec & _). exists s, p, cs. do 3 (split; auto). apply (Hs r s out E Ho p cs Ep Ec). }
  assert (DS : dests_ok sent). { intros out m Ho Hm. apply In_nth_error in Ho as (r & Ho). destruct (HS r out Ho) as (s & p & cs & E & Ep & Ec & _ & KO & _). destruct (HX r s E) as (p' & cs' & Ep' & Ec' & HB & HM & HO). assert (p' = p) by congruence. assert (cs' = cs) by congruence. subst p' cs'.
    assert (I : In (fst m) (map snd (P0 cs))) by (apply KO, in_map, Hm). apply in_map_iff in I as (k & <- & Hk). destruct (s_run own V T ps r p (sp_g s) HD Ep HB cs HO k Hk) as (l & _ & _ & _ & B). rewrite Ls. exact B. }
  split; auto. intros rcv DL.
  assert (LR : length rcv = length ps) by (destruct DL as (_ & A & _); congruence).
  assert (AR : forall q arr, nth_error rcv q = Some arr -> NoDup (map fst arr) /\ forall k ws, In (k, ws) arr -> exists r s p cs, k = Z.of_nat r /\ nth_error (with_weights sts gws) r = Some s /\ nth_error ps r = Some p /\ nth_error calls r = Some cs /\ In (Z.of_nat q) (map snd (P0 cs)) /\
          Forall2 (fun x w => w == load (il p (sp_g s)) (res (sp_g s)) (ew val (sp_g s)) (vw val (sp_g s) (sp_gw s)) dims (P0 cs) (Z.of_nat q) x)%Q dims ws).
  { intros q arr Ha. destruct DL as (_ & _ & DL). specialize (DL q arr Ha). split.
    - eapply Permutation_NoDup; [apply Permutation_sym, Permutation_map, DL|]. apply addressed_nodup. intros out Ho. apply In_nth_error in Ho as (r & Ho). destruct (HS r out Ho) as (s & p & cs & _ & _ & _ & A & _). exact A.
    - intros k ws I. apply (Permutation_in _ DL) in I. apply addressed_in in I as (r & out & Ho & -> & I). destruct (HS r out Ho) as (s & p & cs & E & Ep & Ec & _ & KO & FW). exists r, s, p, cs. do 4 (split; auto). split; [apply KO; apply (in_map fst) in I; exact I|]. apply (FW _ I). }
  assert (POS : forall q arr, nth_error rcv q = Some arr -> forall m, In m arr -> length (snd m) = length dims /\ forall i, (0 <= nthq (snd m) i)%Q).
  { intros q arr Ha (k, ws) I. destruct (AR q arr Ha) as (_ & A). destruct (A k ws I) as (r & s & p & cs & _ & E & Ep & Ec & _ & FW). cbn [snd]. split; [symmetry; eapply F2_len; exact FW|]. intros i. unfold nthq. destruct (nth_error ws i) as [w|] eqn:Ew; [|apply nth_error_None in Ew; rewrite nth_overflow by auto; lra]. rewrite (nth_error_nth _ _ _ Ew).
    destruct (HX r s E) as (p' & cs' & Ep' & Ec' & HB & HM & HO). assert (p' = p) by congruence. assert (cs' = cs) by congruence. subst p' cs'.
    assert (Li : i < length dims) by (rewrite (F2_len _ _ _ _ _ FW); apply nth_error_Some; congruence). destruct (nth_error dims i) as [x|] eqn:Ex; [|apply nth_error_None in Ex; lia].
    assert (W : (w == load (il p (sp_g s)) (res (sp_g s)) (ew val (sp_g s)) (vw val (sp_g s) (sp_gw s)) dims (P0 cs) (Z.of_nat q) x)%Q). { apply (F2_nth _ _ _ _ _ i x w FW Ex Ew). }
    rewrite W. destruct x as [t|]; cbn [load].
    - apply qsum_nonneg. intros y Hy. apply in_map_iff in Hy as (e & <- & He). assert (Ht : tok T t) by (eapply Forall_forall in HDm; [|eapply nth_error_In; exact Ex]; exact HDm). apply eset_in in He as (v & Hv & He & _). eapply (s_epos val own V T ps r p (sp_g s) HD Ep HB HW); [|exact Ht|exact He]. apply (s_locals own V T ps r p (sp_g s) HD Ep HB cs HO (v, Z.of_nat q) Hv).
    - apply Qmult_le_0_compat; [apply vcount_nonneg|]. eapply (vload_pos (vw val (sp_g s) (sp_gw s)) (loc p)); [|apply (s_locals own V T ps r p (sp_g s) HD Ep HB cs HO)]. intros h Hh. eapply s_vpos; eauto. }
  destruct (par2_choice _ _ _ (fun s arr => ans <- trim_answer val fuel dims lims false s arr ;; Some (s, ans)) (fun q s arr c => fst c = s /\ grants val own V T dims lims q arr (snd c)) (with_weights sts gws) rcv) as (sa & Ea & La & Ha); [congruence| |].
  { intros q s arr E Ear. destruct (HX q s E) as (p & cs & Ep & Ec & HB & HM & HO). destruct s as [g gw plan]. cbn [sp_g] in HB. destruct (receive_ok val own V T ps q p g gw plan fuel dims lims arr HD Ep HB HF HK LL L0 L5) as (acc & Eacc & GR); [apply (AR q arr Ear)|apply (POS q arr Ear)|]. rewrite Eacc. cbn [obind]. eexists. split; [reflexivity|]. auto. }
  exists sa. split; [exact Ea|]. rewrite LP in La.
  (* second phase *)
  set (arrs := fun q => nth q rcv []). set (accs := fun q => match nth_error sa q with Some c => snd c | None => [] end).
  assert (GR : forall q, q < length ps -> grants val own V T dims lims q (arrs q) (accs q) /\ nth_error rcv q = Some (arrs q)).
  { intros q Lq. unfold arrs, accs. destruct (nth_error rcv q) as [arr|] eqn:Er; [|apply nth_error_None in Er; lia]. destruct (nth_error (with_weights sts gws) q) as [s|] eqn:E; [|apply nth_error_None in E; lia]. destruct (nth_error sa q) as [c|] eqn:Ec; [|apply nth_error_None in Ec; lia]. rewrite (nth_error_nth _ _ _ Er). split; auto. apply (Ha q s arr c E Er Ec). }
  assert (SA : forall q c, nth_error sa q = Some c -> q < length ps /\ snd c = accs q /\ nth_error (with_weights sts gws) q = Some (fst c)).
  { intros q c Ec. assert (Lq : q < length ps) by (rewrite <- La; apply nth_error_Some; congruence). split; auto. unfold accs. rewrite Ec. split; auto. destruct (nth_error rcv q) as [arr|] eqn:Er; [|apply nth_error_None in Er; lia]. destruct (nth_error (with_weights sts gws) q) as [s|] eqn:E; [|apply nth_error_None in E; lia]. f_equal. symmetry. apply (Ha q s arr c E Er Ec). }
  exists (map snd sa). split. { clear. induction sa as [|c sa IH]; [reflexivity|]. cbn [mapM map]. cbn [obind]. rewrite IH. reflexivity. }
  assert (KA : forall q k, q < length ps -> In k (map fst (accs q)) <-> exists r s p cs, k = Z.of_nat r /\ nth_error (with_weights sts gws) r = Some s /\ nth_error ps r = Some p /\ nth_error calls r = Some cs /\ In (Z.of_nat q) (map snd (P0 cs))).
  { intros q k Lq. destruct (GR q Lq) as (G & Er). rewrite (gr_keys _ _ _ _ _ _ _ _ _ G). split.
    - intros I. apply in_map_iff in I as ((k', ws) & <- & I). destruct (AR q _ Er) as (_ & A). destruct (A k' ws I) as (r & s & p & cs & E & B). exists r, s, p, cs. tauto.
    - intros (r & s & p & cs & -> & E & Ep & Ec & I). destruct DL as (_ & _ & DL). specialize (DL q _ Er). assert (Lr : r < length ps) by (apply nth_error_Some; congruence). destruct (nth_error sent r) as [out|] eqn:Eo; [|apply nth_error_None in Eo; lia]. destruct (HS r out Eo) as (s' & p' & cs' & E' & Ep' & Ec' & _ & KO & _). assert (cs' = cs) by congruence. subst cs'.
      apply KO in I. apply in_map_iff in I as ((d, ws) & Ed & I). cbn in Ed. subst d. apply in_map_iff. exists (Z.of_nat r, ws). split; auto. apply (Permutation_in _ (Permutation_sym DL)). apply addressed_in. eauto. }
  split.
  { intros out m Ho Hm. rewrite map_length, La. apply in_map_iff in Ho as (c & <- & Hc). apply In_nth_error in Hc as (q & Hc). destruct (SA q c Hc) as (Lq & EA & _). rewrite EA in Hm. assert (I : In (fst m) (map fst (accs q))) by now apply in_map. apply (KA q _ Lq) in I as (r & s & p & cs & -> & _ & Ep & _). assert (r < length ps) by (apply nth_error_Some; congruence). lia. }
  intros rcv2 DL2. assert (LR2 : length rcv2 = length ps) by (destruct DL2 as (_ & A & _); rewrite map_length in A; congruence).
  assert (NS : forall out, In out (map snd sa) -> NoDup (map fst out)). { intros out Ho. apply in_map_iff in Ho as (c & <- & Hc). apply In_nth_error in Hc as (q & Hc). destruct (SA q c Hc) as (Lq & -> & _). apply (gr_nodup _ _ _ _ _ _ _ _ _ (proj1 (GR q Lq))). }
  set (caps := fun r => gather (nth r rcv2 [])).
  assert (CP : forall r q ws, r < length ps -> zfind (caps r) q = Some ws <-> exists q', q = Z.of_nat q' /\ q' < length ps /\ In (Z.of_nat r, ws) (accs q')).
  { intros r q ws Lr. unfold caps. destruct (nth_error rcv2 r) as [arr|] eqn:Er; [|apply nth_error_None in Er; lia]. rewrite (nth_error_nth _ _ _ Er). destruct DL2 as (_ & _ & DL2). specialize (DL2 r arr Er).
    rewrite gather_find; [|eapply Permutation_NoDup; [apply Permutation_sym, Permutation_map, DL2|]; now apply addressed_nodup]. split.
    - intros I. apply (Permutation_in _ DL2) in I. apply addressed_in in I as (q' & out & Ho & -> & I). exists q'. split; auto. rewrite nth_error_map in Ho. destruct (nth_error sa q') as [c|] eqn:Ec; [|discriminate]. cbn in Ho. destruct (SA q' c Ec) as (Lq & EA & _). split; auto. rewrite <- EA. congruence.
    - intros (q' & -> & Lq & I). apply (Permutation_in _ (Permutation_sym DL2)). apply addressed_in. exists q', (accs q'). split; [|auto]. rewrite nth_error_map. destruct (nth_error sa q') as [c|] eqn:Ec; [|apply nth_error_None in Ec; lia]. cbn. f_equal. apply (SA q' c Ec). }
  destruct (par2_choice _ _ _ (fun (x : spart * list (Z * list Q)) r => cancel val fuel dims (fst x) (gather r)) (fun r x _ plan' => forall p cs, nth_error ps r = Some p -> nth_error calls r = Some cs -> exists m, keeps val fuel dims (fst x) p cs plan' m (caps r)) sa rcv2) as (plans & Epl & Lpl & Hpl); [congruence| |].
  { intros r x arr Ex Er. destruct (SA r x Ex) as (Lr & _ & E). destruct (HX r (fst x) E) as (p & cs & Ep & Ec & HB & HM & HO). assert (CR : caps r = gather arr) by (unfold caps; now rewrite (nth_error_nth _ _ _ Er)). rewrite <- CR. destruct (fst x) as [g gw plan] eqn:Efx. cbn [sp_g sp_gw sp_plan] in *.
    destruct (s_cancel val own V T ps r p g gw fuel HD Ep HB HF cs plan HM HO dims (caps r) HDm) as (plan' & m & E1 & E2 & E3 & E4 & E5).
    - intros k Hk. destruct (s_run own V T ps r p g HD Ep HB cs HO k Hk) as (l & _ & _ & _ & B). set (q := Z.to_nat (snd k)). assert (Eq : snd k = Z.of_nat q) by lia. assert (Lq : q < length ps) by lia.
      assert (I : In (Z.of_nat r) (map fst (accs q))). { apply (KA q _ Lq). exists r, (mkSP g gw plan), p, cs. split; auto. split; [exact E|]. split; auto. split; auto. rewrite <- Eq. now apply in_map. }
      apply in_map_iff in I as ((k', ws) & Ek & I). cbn in Ek. subst k'. exists ws. split; [apply CP; auto; exists q; auto|]. apply (gr_len _ _ _ _ _ _ _ _ _ (proj1 (GR q Lq)) _ I).
    - exists plan'. split; auto. intros p' cs' Ep' Ec'. assert (p' = p) by congruence. assert (cs' = cs) by congruence. subst p' cs'. exists m. unfold keeps. cbn [sp_g sp_gw]. auto. }
  exists plans. split; [exact Epl|]. split; [congruence|].
  assert (CH : forall n, n <= length ps -> exists ms : nat -> list (nat * Z), forall r, r < n -> forall s p cs plan', nth_error (with_weights sts gws) r = Some s -> nth_error ps r = Some p -> nth_error calls r = Some cs -> nth_error plans r = Some plan' -> keeps val fuel dims s p cs plan' (ms r) (caps r)).
  { induction n as [|n IH]; intros Ln; [exists (fun _ => []); intros; lia|]. destruct IH as (ms & Hms); [lia|].
    destruct (nth_error ps n) as [p|] eqn:Ep; [|apply nth_error_None in Ep; lia]. destruct (nth_error calls n) as [cs|] eqn:Ec; [|apply nth_error_None in Ec; lia]. destruct (nth_error plans n) as [plan'|] eqn:El; [|apply nth_error_None in El; lia]. destruct (nth_error sa n) as [x|] eqn:Ex; [|apply nth_error_None in Ex; lia]. destruct (nth_error rcv2 n) as [arr|] eqn:Er; [|apply nth_error_None in Er; lia].
    destruct (Hpl n x arr plan' Ex Er El p cs Ep Ec) as (m & Hm). exists (fun r => if r =? n then m else ms r). intros r Lr s p' cs' plan'' Es' Ep' Ec' El'. destruct (Nat.eqb_spec r n) as [->|Nr]; [|apply Hms; auto; lia].
    assert (p' = p) by congruence. assert (cs' = cs) by congruence. assert (plan'' = plan') by congruence. subst. destruct (SA n x Ex) as (_ & _ & Ef). assert (s = fst x) by congruence. subst s. exact Hm. }
  destruct (CH (length ps) (le_n _)) as (ms & Hms). exists accs, arrs, caps, ms. split; [intros q Lq; apply GR, Lq|]. split; [intros q k ws Lq I; destruct (GR q Lq) as (_ & Er); apply (AR q _ Er), I|]. split; [|split; [|split; [exact CP|]]].
  - intros q r s p cs Lq E Ep Ec I. assert (K : In (Z.of_nat r) (map fst (accs q))) by (apply (KA q _ Lq); exists r, s, p, cs; auto). apply (gr_keys _ _ _ _ _ _ _ _ _ (proj1 (GR q Lq))) in K. apply in_map_iff in K as ((k', ws) & <- & K). eauto.
  - intros q Lq. destruct (GR q Lq) as (_ & Er). apply (AR q _ Er).
  - intros r s p cs plan' E Ep. apply Hms; auto. apply nth_error_Some. congruence.
Qed.
