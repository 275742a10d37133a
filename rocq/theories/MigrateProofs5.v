(** Migration of a distributed hypergraph: all parts together. *)
From Verif Require Import Base GraphModel CsrProofs ConstructProofs GraphSpec AccessProofs AccessProofs2 CountProofs GraphTop GraphTop2 GraphTop3 Comm TagModel TagProps MigrateModel MigrateSpec MigrateProofs1 MigrateProofs2 MigrateProofs3 MigrateProofs4.

Lemma planned_get cs l : fm_get (fm_run cs) l = planned cs l.
Proof.
  unfold fm_run, planned. assert (G : forall m a, fm_get m l = a -> fm_get (fold_left fm_op cs m) l =
    fold_left (fun acc o => match o with Ins k d => if k =? l then Some d else acc | Clr => None end) cs a).
  { induction cs as [|o cs IH]; intros m a E; cbn [fold_left]; auto. apply IH. destruct o as [k d|]; cbn; auto. rewrite fm_get_put. now rewrite E. }
  now apply G.
Qed.
Lemma fm_run_nodup cs : NoDup (map fst (fm_run cs)).
Proof.
  unfold fm_run. assert (G : forall m, NoDup (map fst m) -> NoDup (map fst (fold_left fm_op cs m))).
  { induction cs as [|o cs IH]; intros m H; cbn [fold_left]; auto. apply IH. destruct o as [k d|]; cbn; [|constructor]. rewrite fm_keys_put.
    destruct (fm_get m k) eqn:E; auto. apply fm_get_in in E. apply NoDup_app_iff. split; auto. split; [constructor; [intros []|constructor]|]. intros x Hx [<-|[]]. auto. }
  apply G. constructor.
Qed.
Lemma planned_in cs l d : planned cs l = Some d -> In (Ins l d) cs.
Proof.
  induction cs as [|o cs IH] using rev_ind; [discriminate|]. unfold planned. rewrite fold_left_app. cbn [fold_left]. intros H. apply in_app_iff.
  destruct o as [k x|]; [|discriminate]. destruct (Nat.eqb_spec k l) as [->|]; [inversion H; cbn; auto|left; now apply IH].
Qed.
Lemma list_choice A B (P : nat -> A -> B -> Prop) (l : list A) : (forall i a, nth_error l i = Some a -> exists b, P i a b) ->
  exists l', length l' = length l /\ forall i a b, nth_error l i = Some a -> nth_error l' i = Some b -> P i a b.
Proof.
  revert P. induction l as [|a l IH]; intros P H; [exists []; split; auto; intros [|i] ? ? E; discriminate|].
  destruct (H 0 a eq_refl) as (b & Hb). destruct (IH (fun i => P (S i)) (fun i x Hx => H (S i) x Hx)) as (l' & L & Hl).
  exists (b :: l'). split; [cbn; auto|]. intros [|i] x y Hx Hy; cbn in *; [inversion Hx; inversion Hy; now subst|eauto].
Qed.
Lemma Mk_ext f f' x : (forall v, In v (snd (fst x)) -> f v = f' v) -> Mk f x = Mk f' x.
Proof. intros H. unfold Mk. f_equal. now apply map_ext_in. Qed.
Lemma Mk_inj f f' x y : Mk f x = Mk f' y -> x = y.
Proof. destruct x as ((i, p), w), y as ((i', p'), w'). unfold Mk. cbn. intros E. inversion E. reflexivity. Qed.
Lemma Mk_wf f x : wfme (Mk f x). Proof. reflexivity. Qed.
Lemma map_fst_combine A B (l : list A) (l' : list B) : length l <= length l' -> map fst (combine l l') = l.
Proof. revert l'. induction l as [|a l IH]; intros [|b l'] H; cbn in *; auto; [lia|]. rewrite IH; auto. lia. Qed.

(** what part r must hold after the migration *)
Definition migrated_part (own' : Z -> nat) (V : list (Z * (Z * Z))) (E0 : list (edge_input * Z)) (nt : nat) (r : nat) (p' : pdesc) (s' : graph * arr Z) : Prop :=
  built_from true r p' s' /\ valid_input true (pd_verts p') (pd_vws p') (pd_tys p') /\ length (pd_oo p') = length (pd_verts p') /\
  Permutation (vrecs p') (filter (fun v => Nat.eqb (own' (fst v)) r) V) /\ length (pd_tys p') = nt /\
  (forall ty, nth_error (pd_tys p') 0 = Some ty -> Permutation (erecs ty) (filter (touches own' r) E0)) /\
  (nt = 1 -> forall v, In v (ghosts_of (pd_verts p') (pd_tys p')) -> zfind (pd_owns p') v = Some (Z.of_nat (own' v))).

Section Glob.
Variables (own own' : Z -> nat) (V : list (Z * (Z * Z))) (E0 : list (edge_input * Z)) (Ts : list (list (edge_input * Z))).
Variables (ps : list pdesc) (calls : list (list plan_op)) (sts : list mpart) (fuel : nat).
Hypothesis HD : distributed own V (E0 :: Ts) ps.
Hypothesis HRdy : ready true fuel ps calls sts.
Hypothesis HMv : moved_to own' ps calls.
Hypothesis HF : forall p, In p ps -> fuel_ok fuel p.
Notation n := (length ps).
Notation F := (fun v => Z.of_nat (own' v)).

Lemma h_part r p : nth_error ps r = Some p -> holds own V (E0 :: Ts) r p.
Proof. intros H. destruct HD as (_ & _ & H'). now apply H'. Qed.
Lemma h_E0 : NoDup (map eid E0) /\ forall e v, In e E0 -> In v (snd (fst e)) -> In v (map fst V).
Proof. destruct HD as ((_ & H) & _). apply H. cbn; auto. Qed.
Lemma h_nodupV : NoDup (map fst V). Proof. apply HD. Qed.
Lemma h_own v : In v (map fst V) -> own v < n. Proof. destruct HD as (_ & H & _). apply H. Qed.
Lemma vr_fst r p : nth_error ps r = Some p -> map fst (vrecs p) = pd_verts p.
Proof.
  intros H. destruct (h_part r p H) as ((_ & Lw & _) & Lo & _). unfold vrecs. apply map_fst_combine. rewrite combine_length. unfold vweights.
  rewrite app_length, repeat_length. lia.
Qed.
Lemma in_vrecs r p x : nth_error ps r = Some p -> In x (vrecs p) <-> In x V /\ own (fst x) = r.
Proof.
  intros H. destruct (h_part r p H) as (_ & _ & Pm & _). split.
  - intros Hx. apply (Permutation_in _ Pm) in Hx. apply filter_In in Hx as (Hx & E). apply Nat.eqb_eq in E. auto.
  - intros (Hx & E). apply (Permutation_in _ (Permutation_sym Pm)). apply filter_In. split; auto. now apply Nat.eqb_eq.
Qed.
Lemma in_verts r p v : nth_error ps r = Some p -> In v (pd_verts p) <-> In v (map fst V) /\ own v = r.
Proof.
  intros H. rewrite <- (vr_fst r p H). split.
  - intros Hv. apply in_map_iff in Hv as (x & <- & Hx). apply (in_vrecs r p x H) in Hx as (Hx & E). split; auto. now apply in_map.
  - intros (Hv & E). apply in_map_iff in Hv as (x & <- & Hx). apply in_map. apply (in_vrecs r p x H). auto.
Qed.
Lemma part_of_v v : In v (map fst V) -> exists p, nth_error ps (own v) = Some p /\ In v (pd_verts p).
Proof.
  intros Hv. pose proof (h_own v Hv) as L. destruct (nth_error ps (own v)) as [p|] eqn:E; [|apply nth_error_None in E; lia].
  exists p. split; auto. apply (in_verts _ _ v E). auto.
Qed.
Lemma h_range v : In v (map fst V) -> own' v < n.
Proof.
  intros Hv. destruct (part_of_v v Hv) as (p & Hp & Hin). pose proof (h_own v Hv) as L. apply In_nth_error in Hin as (l & Hl).
  destruct HRdy as (Ls & Lc & HRr). destruct (nth_error calls (own v)) as [cs|] eqn:Ec; [|apply nth_error_None in Ec; lia].
  destruct (nth_error sts (own v)) as [s|] eqn:Es; [|apply nth_error_None in Es; lia].
  specialize (HMv _ _ _ _ _ Hp Ec Hl). destruct (planned cs l) as [d|] eqn:Ep; [|lia].
  destruct (HRr _ _ _ _ Hp Ec Es) as (_ & _ & Ho). apply planned_in in Ep. apply Ho in Ep. destruct Ep as (_ & Hd). lia.
Qed.
(** type 0 of part p *)
Lemma type0 r p : nth_error ps r = Some p -> exists es ws, nth_error (map eff_ty (pd_tys p)) 0 = Some (es, ws) /\
  (forall x, In x (combine es ws) <-> In x E0 /\ touches own r x = true) /\ NoDup (map eid (combine es ws)) /\
  length es < fuel /\ (forall e, In e es -> length (snd e) < fuel) /\
  (forall v, length (flat_map (fun i => match nth_error es i with Some e => snd e | None => [] end) (incident v es)) < fuel) /\
  (forall e, In e es -> exists w, In (e, w) (combine es ws)) /\
  (forall e v, In e es -> In v (snd e) -> In v (pd_verts p) \/ In v (ghosts_of (pd_verts p) (pd_tys p))).
Proof.
  intros H. destruct (h_part r p H) as (HV & _ & _ & Lt & He & _). cbn [length] in Lt.
  destruct (nth_error (pd_tys p) 0) as [ty|] eqn:Et; [|apply nth_error_None in Et; lia].
  destruct (HF p ltac:(eapply nth_error_In; eauto)) as (_ & Hfu). destruct (Hfu ty ltac:(eapply nth_error_In; eauto)) as (F1 & F2 & F3).
  destruct ty as (es, ws). cbn [fst] in *.
  exists es, (eff_wgts ws (length es)). split; [now apply nth_eff|].
  specialize (He 0 (es, ws) E0 Et eq_refl). replace (erecs (es, ws)) with (combine es (eff_wgts ws (length es))) in He by (destruct ws; reflexivity).
  assert (LW : length (eff_wgts ws (length es)) = length es).
  { destruct HV as (_ & _ & _ & HW). destruct (HW es ws ltac:(eapply nth_error_In; eauto)) as ([->|Hw] & _); cbn; [apply repeat_length|].
    destruct ws; [cbn in *; now rewrite repeat_length|exact Hw]. }
  split; [|split; [|split; [auto|split; [auto|split; [apply F3|split]]]]].
  - intros x. split.
    + intros Hx. apply (Permutation_in _ He) in Hx. now apply filter_In in Hx.
    + intros Hx. apply (Permutation_in _ (Permutation_sym He)). now apply filter_In.
  - eapply Permutation_NoDup; [apply Permutation_map; symmetry; exact He|]. apply NoDup_filter_map, h_E0.
  - intros e Hin. apply In_nth_error in Hin as (i & Hi). assert (i < length es) by (apply nth_error_Some; congruence).
    destruct (nth_error (eff_wgts ws (length es)) i) as [w|] eqn:Ew; [|apply nth_error_None in Ew; lia].
    exists w. eapply nth_error_In. apply combine_nth_error; eauto.
  - intros e v Hin Hv. destruct (in_dec Z.eq_dec v (pd_verts p)) as [|Nv]; auto. right.
    destruct HRdy as (Ls & Lc & HRr). assert (L : r < n) by (apply nth_error_Some; congruence).
    destruct (nth_error calls r) as [cs|] eqn:Ec; [|apply nth_error_None in Ec; lia].
    destruct (nth_error sts r) as [s|] eqn:Es; [|apply nth_error_None in Es; lia].
    destruct (HRr _ _ _ _ H Ec Es) as ((HB & _) & _). pose proof (p_constructed _ _ _ _ _ _ _ HV HB) as HC.
    assert (Ha : In v (pd_verts p ++ ghosts_of (pd_verts p) (pd_tys p))).
    { apply (c_gids_iff _ _ _ _ _ _ HC). right. exists (es, ws), e. split; [eapply nth_error_In; eauto|auto]. }
    apply in_app_iff in Ha as [|]; [contradiction|auto].
Qed.

(** state of part r between the steps *)
Definition PS (pown : nat -> pdesc -> Z -> Z -> Prop) (r : nat) (p : pdesc) (s : mpart) : Prop := exists g plan mv ow,
  s = mkMP g (ainit (pd_oo p)) plan /\
  Rep g (pd_verts p) (vweights p) (ghosts_of (pd_verts p) (pd_tys p)) (map eff_ty (pd_tys p)) /\
  RepO g (ghosts_of (pd_verts p) (pd_tys p)) ow /\ hyper g = true /\ self g = Z.of_nat r /\
  PlanV (pd_verts p) (ghosts_of (pd_verts p) (pd_tys p)) plan mv own' /\
  (forall v, In v mv <-> In v (pd_verts p) /\ own' v <> r) /\
  forall v, In v (ghosts_of (pd_verts p) (pd_tys p)) -> pown r p v (ow v).
Definition own0 (r : nat) (p : pdesc) (v o : Z) : Prop := o = Z.of_nat (own v).
(** after updateGhostOwners: right for the ghosts that are pins of a type-0 edge *)
Definition own1 (r : nat) (p : pdesc) (v o : Z) : Prop :=
  forall es ws e, nth_error (map eff_ty (pd_tys p)) 0 = Some (es, ws) -> In e es -> In v (snd e) -> o = Z.of_nat (own' v).

Lemma verts_fuel r p : nth_error ps r = Some p -> length (pd_verts p) < fuel.
Proof. intros H. destruct (HF p ltac:(eapply nth_error_In; eauto)) as (L & _). exact L. Qed.

Lemma step_cleanup r p s : nth_error ps r = Some p -> nth_error sts r = Some s -> exists s', mig_cleanup fuel s = Some s' /\ PS own0 r p s'.
Proof.
  intros Hp Hs. pose proof (h_part r p Hp) as (HV & Lo & _ & _ & _ & HG). destruct HRdy as (Ls & Lc & HRr).
  assert (L : r < n) by (apply nth_error_Some; congruence).
  destruct (nth_error calls r) as [cs|] eqn:Ec; [|apply nth_error_None in Ec; lia].
  destruct (HRr _ _ _ _ Hp Ec Hs) as ((HB & Eo) & (p0 & E0' & Em) & Hok). destruct s as [g oo plan]. cbn [mp_g mp_oo mp_plan fst snd] in *. subst oo.
  destruct (part_rep _ _ _ _ _ _ _ HV HB) as (R & RO & Hh & Hs').
  destruct (plan_run _ _ _ _ _ g cs fuel (p_constructed _ _ _ _ _ _ _ HV HB) (verts_fuel r p Hp)) as (q0 & q & A1 & A2 & A3).
  { intros o Ho. apply Hok in Ho. destruct o; cbn in *; [|auto]. destruct Ho. split; auto. lia. }
  assert (q0 = p0) by congruence. subst q0. assert (q = plan) by congruence. subst q.
  destruct (cleanup_ok g _ _ _ _ r (pd_oo p) R Hs' Lo fuel plan (fm_run cs) own' (verts_fuel r p Hp) A3 (fm_run_nodup cs)) as (plan' & mv & Ecl & PV & MV).
  { intros l v Hl. rewrite planned_get. exact (HMv _ _ _ _ _ Hp Ec Hl). }
  exists (mkMP g (ainit (pd_oo p)) plan'). split; [exact Ecl|]. exists g, plan', mv, (look (pd_owns p)).
  split; [reflexivity|]. split; [exact R|]. split; [exact RO|]. split; [auto|]. split; [auto|]. split; [exact PV|]. split; [exact MV|].
  intros v Hv. unfold own0, look. now rewrite (HG v Hv).
Qed.

Lemma own0_now r p ow v : nth_error ps r = Some p -> (forall v, In v (ghosts_of (pd_verts p) (pd_tys p)) -> own0 r p v (ow v)) ->
  In v (pd_verts p) \/ In v (ghosts_of (pd_verts p) (pd_tys p)) -> own_now (pd_verts p) ow r v = Z.of_nat (own v).
Proof.
  intros Hp Ho Hv. unfold own_now. destruct (memZ v (pd_verts p)) eqn:Em.
  - apply memZ_In, (in_verts r p v Hp) in Em as (_ & ->). reflexivity.
  - destruct Hv as [Hv|Hv]; [apply memZ_In in Hv; congruence|]. now apply Ho.
Qed.
(** what updateGhostOwners sends *)
Lemma step_upd_send r p s : nth_error ps r = Some p -> PS own0 r p s ->
  exists ms, upd_send fuel s = Some ms /\ forall d x, In (d, x) ms <->
    exists v o e, In v (map fst V) /\ own v = r /\ own' v <> r /\ In e E0 /\ In v (snd (fst e)) /\ In o (snd (fst e)) /\ own o <> r /\ d = Z.of_nat (own o) /\ x = (v, Z.of_nat (own' v)).
Proof.
  intros Hp (g & plan & mv & ow & -> & R & RO & Hh & Hs & PV & MV & Hg). pose proof (h_part r p Hp) as (_ & Lo & _).
  destruct (type0 r p Hp) as (es & ws & Et & Hx & _ & _ & _ & Fu & Wt & Pa).
  destruct (upd_send_ok g _ _ _ _ ow r (pd_oo p) R RO Hh Hs Lo es ws Et (LW0 _ _ _ _ _ R es ws Et) fuel plan mv own' PV Fu) as (ms & E & Hm).
  exists ms. split; [exact E|]. intros d x. rewrite Hm. split.
  - intros (v & o & e & Hv & He & Hve & Hoe & Hne & -> & ->). rewrite (own0_now r p ow o Hp Hg (Pa e o He Hoe)) in *.
    apply MV in Hv as (Hv & Hd). apply (in_verts r p v Hp) in Hv as (Hv & Eo). destruct (Wt e He) as (w & Hw). apply Hx in Hw as (Hw & _).
    exists v, o, (e, w). cbn [fst]. repeat split; auto.
  - intros (v & o & e & HvV & Eo & Hd & He & Hve & Hoe & Hne & -> & ->).
    assert (Hin : In e (combine es ws)). { apply Hx. split; auto. apply existsb_exists. exists v. split; auto. now apply Nat.eqb_eq. }
    destruct e as (e, w). apply in_combine_l in Hin. cbn [fst] in *.
    exists v, o, e. rewrite (own0_now r p ow o Hp Hg (Pa e o Hin Hoe)). repeat split; auto; [|lia]. apply MV. split; auto. apply (in_verts r p v Hp). auto.
Qed.
Lemma step_upd_recv r p s arr : nth_error ps r = Some p -> PS own0 r p s ->
  (forall q x, In (q, x) arr <-> exists v o e, In v (map fst V) /\ q = Z.of_nat (own v) /\ own' v <> own v /\ In e E0 /\ In v (snd (fst e)) /\ In o (snd (fst e)) /\
     own o <> own v /\ own o = r /\ x = (v, Z.of_nat (own' v))) ->
  exists s', upd_recv s arr = Some s' /\ PS own1 r p s'.
Proof.
  intros Hp (g & plan & mv & ow & -> & R & RO & Hh & Hs & PV & MV & Hg) HA.
  destruct (type0 r p Hp) as (es & ws & Et & Hx & _ & _ & _ & Fu & Wt & Pa).
  destruct (upd_recv_ok g _ _ _ _ ow (ainit (pd_oo p)) plan R RO arr) as (g' & E & R' & RO' & Hh' & Hs').
  { intros q v x Hin. apply HA in Hin as (v' & o & e & HvV & -> & Hd & He & Hve & Hoe & Hne & Eo & Ex). inversion Ex; subst v' x.
    assert (Hin : In e (combine es ws)). { apply Hx. split; auto. apply existsb_exists. exists o. split; auto. now apply Nat.eqb_eq. }
    destruct e as (e, w). apply in_combine_l in Hin. cbn [fst] in *. destruct (Pa e v Hin Hve) as [Hl|]; auto.
    apply (in_verts r p v Hp) in Hl as (_ & El). lia. }
  exists (mkMP g' (ainit (pd_oo p)) plan). split; [exact E|]. exists g', plan, mv, (fun v => last_val v arr (ow v)).
  split; [reflexivity|]. split; [exact R'|]. split; [exact RO'|]. split; [congruence|]. split; [congruence|]. split; [exact PV|]. split; [exact MV|].
  intros v Hv es' ws' e Et' He Hve. rewrite Et in Et'. inversion Et'; subst es' ws'.
  assert (Hnl : ~ In v (pd_verts p)).
  { pose proof (rp_nd _ _ _ _ _ R) as N. apply NoDup_app_iff in N as (_ & _ & N). intros Hl. exact (N v Hl Hv). }
  destruct (Wt e He) as (w & Hw). apply Hx in Hw as (HwE & Ht). apply existsb_exists in Ht as (o & Ho & Eo). apply Nat.eqb_eq in Eo. cbn [fst] in Ho.
  assert (HvV : In v (map fst V)) by (apply (proj2 h_E0 (e, w) v); auto).
  assert (Hvr : own v <> r) by (intros Er; apply Hnl, (in_verts r p v Hp); auto).
  destruct (last_val_spec v arr (ow v)) as [(q & x & Hin & ->)|(N & ->)].
  - apply HA in Hin as (v' & o' & e' & _ & _ & _ & _ & _ & _ & _ & _ & Ex). inversion Ex; subst. reflexivity.
  - rewrite (Hg v Hv). f_equal. destruct (Nat.eq_dec (own' v) (own v)) as [|Nm]; auto. exfalso.
    apply (N (Z.of_nat (own v)) (Z.of_nat (own' v))). apply HA. exists v, o, (e, w). cbn [fst]. repeat split; auto. lia.
Qed.

(** the local data after setup *)
Notation nt := (S (length Ts)).
Notation keeps r x := (forallb (fun v => negb (Nat.eqb (own v) r) || Nat.eqb (own' v) r) (snd (fst x))).
Definition WS (PV : list (Z * (Z * Z)) -> Prop) (PE : list (edge_input * Z) -> Prop) (r : nat) (p : pdesc) (w : mwork) : Prop :=
  PS own1 r p (w_part w) /\ PV (w_verts w) /\ length (w_edges w) = nt /\ Forall (Forall wfme) (w_edges w) /\
  exists xs, nth_error (w_edges w) 0 = Some (map (Mk F) xs) /\ NoDup (map eid xs) /\ PE xs /\
    (nt = 1 -> agrees F (w_gown w) /\ forall x, In x xs -> covers F (Z.of_nat r) (w_gown w) (Mk F x)).
Definition keptV r (p : pdesc) (l : list (Z * (Z * Z))) := l = filter (fun x => Nat.eqb (own' (fst x)) r) (vrecs p).
Definition keptE r (xs : list (edge_input * Z)) := forall x, In x xs <-> In x E0 /\ touches own r x = true /\ keeps r x = true.
Definition allV r (l : list (Z * (Z * Z))) := Permutation l (filter (fun x => Nat.eqb (own' (fst x)) r) V).
Definition allE r (xs : list (edge_input * Z)) := forall x, In x xs <-> In x E0 /\ touches own' r x = true.

Lemma moved_keeps r p mv x : nth_error ps r = Some p -> (forall v, In v mv <-> In v (pd_verts p) /\ own' v <> r) -> In x E0 ->
  negb (existsb (fun v => memZ v mv) (snd (fst x))) = keeps r x.
Proof.
  intros Hp MV Hx. apply eq_true_iff_eq. rewrite negb_true_iff, forallb_forall. split.
  - intros Hn v Hv. destruct (Nat.eqb_spec (own v) r) as [Er|]; auto. cbn. apply Nat.eqb_eq. destruct (Nat.eq_dec (own' v) r) as [|Ne]; auto. exfalso.
    assert (existsb (fun v => memZ v mv) (snd (fst x)) = true); [|congruence]. apply existsb_exists. exists v. split; auto. apply memZ_In, MV. split; auto.
    apply (in_verts r p v Hp). split; auto. apply (proj2 h_E0 x v); auto.
  - intros Hk. destruct (existsb (fun v => memZ v mv) (snd (fst x))) eqn:Ex; auto. exfalso. apply existsb_exists in Ex as (v & Hv & Hm). apply memZ_In, MV in Hm as (Hl & Hd).
    apply (in_verts r p v Hp) in Hl as (_ & Er). specialize (Hk v Hv). rewrite Er, Nat.eqb_refl in Hk. cbn in Hk. apply Nat.eqb_eq in Hk. contradiction.
Qed.
Lemma newown_F r p ow mv es ws e v : nth_error ps r = Some p -> (forall v, In v mv <-> In v (pd_verts p) /\ own' v <> r) ->
  (forall v, In v (ghosts_of (pd_verts p) (pd_tys p)) -> own1 r p v (ow v)) -> nth_error (map eff_ty (pd_tys p)) 0 = Some (es, ws) -> In e es -> In v (snd e) ->
  In v (pd_verts p) \/ In v (ghosts_of (pd_verts p) (pd_tys p)) -> newown (pd_verts p) ow r mv own' v = Z.of_nat (own' v).
Proof.
  intros Hp MV Hg Et He Hv Ha. unfold newown. destruct (memZ v mv) eqn:Em; auto. unfold own_now. destruct (memZ v (pd_verts p)) eqn:El.
  - f_equal. destruct (Nat.eq_dec (own' v) r) as [|Ne]; auto. exfalso. apply memZ_In in El. assert (In v mv) by (apply MV; auto). apply memZ_In in H. congruence.
  - destruct Ha as [Hl|Hgh]; [apply memZ_In in Hl; congruence|]. eapply Hg; eauto.
Qed.

Lemma step_setup r p s : nth_error ps r = Some p -> PS own1 r p s -> exists w, mig_setup fuel nt s = Some w /\ WS (keptV r p) (keptE r) r p w.
Proof.
  intros Hp HPS. pose proof HPS as (g & plan & mv & ow & -> & R & RO & Hh & Hs & PV & MV & Hg). pose proof (h_part r p Hp) as (HV & Lo & _ & Lt & _).
  destruct (type0 r p Hp) as (es & ws & Et & Hx & Nd & Fe & Fp & Fu & Wt & Pa). unfold mig_setup.
  rewrite (kept_verts_ok g _ _ _ _ r (pd_oo p) R Hs Lo plan mv own' PV MV fuel (verts_fuel r p Hp)). cbn [obind].
  assert (KE : exists ls, mapM (kept_edges fuel (mkMP g (ainit (pd_oo p)) plan)) (seq 0 nt) = Some ls /\ length ls = nt /\ Forall (Forall wfme) ls).
  { assert (KT : forall t, t < nt -> exists l, kept_edges fuel (mkMP g (ainit (pd_oo p)) plan) t = Some l /\ Forall wfme l).
    { intros t Htl. destruct (nth_error (pd_tys p) t) as [(es1, ws1)|] eqn:E1; [|apply nth_error_None in E1; cbn [length] in Lt; lia].
      destruct (HF p ltac:(eapply nth_error_In; eauto)) as (_ & Hfu). destruct (Hfu _ ltac:(eapply nth_error_In; exact E1)) as (G1 & G2 & _).
      rewrite (kept_edges_ok g _ _ _ _ ow r (pd_oo p) R RO Hh Hs Lo plan mv own' PV fuel t es1 _ (nth_eff _ _ _ _ E1) G1 G2).
      eexists. split; [reflexivity|]. apply Forall_forall. intros m Hm. apply in_map_iff in Hm as (x & <- & _). apply Mk_wf. }
    assert (Els : exists ls, mapM (kept_edges fuel (mkMP g (ainit (pd_oo p)) plan)) (seq 0 nt) = Some ls); [apply mapM_forall|destruct Els as (ls & Els)].
    { intros t Ht. apply in_seq in Ht. destruct (KT t ltac:(lia)) as (l & E & _). eauto. }
    exists ls. split; [exact Els|]. split; [apply mapM_length in Els; now rewrite Els, seq_length|].
    apply Forall_forall. intros l Hl. apply In_nth_error in Hl as (i & Hi).
    assert (Li : i < nt). { apply mapM_length in Els. rewrite seq_length in Els. rewrite <- Els. apply nth_error_Some. congruence. }
    destruct (mapM_nth _ _ _ _ _ _ i Els (nth_error_seq 0 nt i Li)) as (y & Hy & Ey). destruct (KT (0 + i) Li) as (l' & El & W). cbn [Nat.add] in *; assert (l = l') by congruence. now subst. }
  destruct KE as (ls & Els & Lls & Wls). rewrite Els. cbn [obind]. eexists. split; [reflexivity|]. split; [exact HPS|]. cbn [w_verts w_edges w_gown w_part].
  split; [|split; [exact Lls|split; [exact Wls|]]].
  - unfold keptV, vrecs. apply filter_ext_in. intros x Hxv. destruct (Nat.eqb_spec (own' (fst x)) r) as [Er|Ne].
    + apply negb_true_iff. destruct (memZ (fst x) mv) eqn:Em; auto. apply memZ_In, MV in Em. tauto.
    + apply negb_false_iff, memZ_In, MV. split; auto. rewrite <- (vr_fst r p Hp). now apply in_map.
  - assert (N0 : nth_error ls 0 = Some (map (Mk F) (filter (fun x => keeps r x) (combine es ws)))).
    { destruct (mapM_nth _ _ _ _ _ _ 0 Els (nth_error_seq 0 nt 0 ltac:(lia))) as (y & Hy & Ey). cbn [Nat.add] in Ey.
      rewrite (kept_edges_ok g _ _ _ _ ow r (pd_oo p) R RO Hh Hs Lo plan mv own' PV fuel 0 es ws Et Fe Fp) in Ey. inversion Ey; subst y. rewrite Hy. f_equal.
      rewrite (filter_ext_in (fun x => negb (existsb (fun v => memZ v mv) (snd (fst x)))) (fun x => keeps r x)).
      2: { intros x Hxin. apply Hx in Hxin as (Hxe & _). apply (moved_keeps r p mv x Hp MV Hxe). }
      apply map_ext_in. intros x Hxin. apply filter_In in Hxin as (Hxin & Hk). apply Mk_ext. intros v Hv.
      pose proof (proj1 (Hx x) Hxin) as (HxE & _). destruct x as (e, w). cbn [fst] in *. apply in_combine_l in Hxin.
      rewrite <- (newown_F r p ow mv es ws e v Hp MV Hg Et Hxin Hv (Pa e v Hxin Hv)). unfold newown.
      destruct (memZ v mv) eqn:Em; auto. exfalso.
      pose proof (moved_keeps r p mv (e, w) Hp MV HxE) as K. cbn [fst] in K. rewrite Hk in K. apply negb_true_iff in K.
      assert (existsb (fun v => memZ v mv) (snd e) = true) by (apply existsb_exists; eauto). congruence. }
    exists (filter (fun x => keeps r x) (combine es ws)). split; [exact N0|]. split; [apply NoDup_filter_map, Nd|]. split.
    + intros x. rewrite filter_In, Hx. tauto.
    + intros En. assert (Els1 : ls = [map (Mk F) (filter (fun x => keeps r x) (combine es ws))]).
      { destruct ls as [|a [|b ls]]; cbn in Lls; [lia| |lia]. cbn in N0. inversion N0. reflexivity. }
      rewrite Els1. cbn [concat mp_g]. rewrite app_nil_r. rewrite Hs.
      destruct (note_all F (Z.of_nat r) (filter (fun x => keeps r x) (combine es ws)) []) as (A1 & _ & C1); [intros v o; discriminate|]. auto.
Qed.

(** vertices *)
Lemma step_vert_send r p w PE : nth_error ps r = Some p -> WS (keptV r p) PE r p w ->
  exists ms, vert_send w = Some ms /\ NoDup (map snd ms) /\
    forall d x, In (d, x) ms <-> In x V /\ own (fst x) = r /\ own' (fst x) <> r /\ d = Z.of_nat (own' (fst x)).
Proof.
  intros Hp ((g & plan & mv & ow & Ew & R & RO & Hh & Hs & PV & MV & Hg) & _). pose proof (h_part r p Hp) as (HV & Lo & _).
  pose proof (vert_send_ok g _ _ _ _ r (pd_oo p) R Lo plan mv own' PV MV w Ew) as E. eexists. split; [exact E|].
  assert (VR : forall v, In v (pd_verts p) -> In (vrec (pd_verts p) (vweights p) (pd_oo p) v) (vrecs p)).
  { intros v Hv. unfold vrecs. rewrite (recs_eq g _ _ _ _ r (pd_oo p) R Lo). now apply in_map. }
  split.
  - rewrite map_map. cbn [snd]. apply (NoDup_map_inv fst). rewrite map_map. cbn [vrec fst]. rewrite map_id. apply PV.
  - intros d x. rewrite in_map_iff. split.
    + intros (v & Ex & Hv). inversion Ex; subst. apply MV in Hv as (Hv & Hd). pose proof (VR v Hv) as Hx. apply (in_vrecs r p _ Hp) in Hx as (Hx & Eo). cbn [vrec fst] in *. auto.
    + intros (Hx & Eo & Hd & ->). assert (Hin : In x (vrecs p)) by (apply (in_vrecs r p x Hp); auto).
      assert (Hv : In (fst x) (pd_verts p)) by (rewrite <- (vr_fst r p Hp); now apply in_map).
      exists (fst x). split; [|apply MV; auto]. f_equal. apply (NoDup_map_key _ _ fst V); [apply h_nodupV|now apply (in_vrecs r p _ Hp), VR|exact Hx|reflexivity].
Qed.
Lemma step_vert_recv r p w arr PE : nth_error ps r = Some p -> WS (keptV r p) PE r p w -> NoDup (map snd arr) ->
  (forall q x, In (q, x) arr -> In x V /\ own (fst x) <> own' (fst x) /\ own' (fst x) = r) ->
  (forall x, In x V -> own (fst x) <> own' (fst x) -> own' (fst x) = r -> exists q, In (q, x) arr) ->
  exists w', vert_recv w arr = Some w' /\ WS (allV r) PE r p w'.
Proof.
  intros Hp (HPS & KV & WR) ND A1 A2. eexists. split; [reflexivity|]. split; [exact HPS|]. split; [|exact WR]. cbn [w_verts].
  pose proof h_nodupV as NV. unfold keptV in KV. rewrite KV. pose proof (h_part r p Hp) as ((NDp & _) & _).
  assert (NDr : NoDup (vrecs p)) by (apply (NoDup_map_inv fst); rewrite (vr_fst r p Hp); exact NDp).
  apply perm_by_mem.
  - apply NoDup_app_iff. split; [now apply NoDup_filter|]. split; [exact ND|]. intros x Hx Hy. apply filter_In in Hx as (Hx & _). apply (in_vrecs r p x Hp) in Hx as (_ & Er).
    apply in_map_iff in Hy as ((q, y) & <- & Hy). cbn [snd] in *. apply A1 in Hy as (_ & Hne & E'). congruence.
  - apply NoDup_filter. now apply (NoDup_map_inv fst).
  - intros x. rewrite in_app_iff, !filter_In, Nat.eqb_eq, (in_vrecs r p x Hp). split.
    + intros [((Hx & _) & E)|Hin]; [auto|]. apply in_map_iff in Hin as ((q, y) & <- & Hy). apply A1 in Hy as (Hy & _ & E). auto.
    + intros (Hx & E). destruct (Nat.eq_dec (own (fst x)) r) as [Er|Ne]; [left; auto|right]. destruct (A2 x Hx ltac:(congruence) E) as (q & Hq). apply in_map_iff. exists (q, x). auto.
Qed.

(** edges *)
Lemma step_edge_send r p w (P : list (Z * (Z * Z)) -> Prop) PE : nth_error ps r = Some p -> WS P PE r p w ->
  exists ms, edge_send fuel w = Some ms /\
    forall d m, In (d, m) ms <-> exists x, In x E0 /\ touches own r x = true /\ keeps r x = false /\ m = Mk F x /\ exists v, In v (snd (fst x)) /\ d = Z.of_nat (own' v).
Proof.
  intros Hp ((g & plan & mv & ow & Ew & R & RO & Hh & Hs & PV & MV & Hg) & _). pose proof (h_part r p Hp) as (HV & Lo & _).
  destruct (type0 r p Hp) as (es & ws & Et & Hx & Nd & Fe & Fp & Fu & Wt & Pa).
  destruct (edge_send_ok g _ _ _ _ ow r (pd_oo p) R RO Hh Hs Lo plan mv own' PV MV es ws Et fuel w Ew Fu) as (ms & E & Hm).
  exists ms. split; [exact E|]. intros d m. rewrite Hm.
  assert (NO : forall x v, In x (combine es ws) -> In v (snd (fst x)) -> newown (pd_verts p) ow r mv own' v = F v).
  { intros (e, w0) v Hin Hv. apply in_combine_l in Hin. cbn [fst] in Hv. apply (newown_F r p ow mv es ws e v Hp MV Hg Et Hin Hv (Pa e v Hin Hv)). }
  split.
  - intros (x & Hin & Hmv & -> & Hd). pose proof (proj1 (Hx x) Hin) as (HxE & Ht). exists x. split; auto. split; auto. split.
    + rewrite <- (moved_keeps r p mv x Hp MV HxE). apply negb_false_iff. exact Hmv.
    + split; [apply Mk_ext; intros v Hv; now apply (NO x v)|]. apply in_map_iff in Hd as (v & <- & Hv). exists v. split; [auto|now apply (NO x v)].
  - intros (x & HxE & Ht & Hk & -> & v & Hv & ->). assert (Hin : In x (combine es ws)) by (apply Hx; auto). exists x. split; auto. split.
    + rewrite <- (moved_keeps r p mv x Hp MV HxE) in Hk. now apply negb_false_iff in Hk.
    + split; [apply Mk_ext; intros u Hu; symmetry; now apply (NO x u)|]. apply in_map_iff. exists v. split; [now apply (NO x v)|auto].
Qed.
Definition arrivedE r (arr : list (Z * medge)) : Prop := forall q m, In (q, m) arr <->
  exists i x, q = Z.of_nat i /\ i < n /\ In x E0 /\ touches own i x = true /\ keeps i x = false /\ m = Mk F x /\ touches own' r x = true.
Lemma step_edge_recv0 r p w arr : nth_error ps r = Some p -> WS (allV r) (keptE r) r p w -> arrivedE r arr ->
  exists w', edge_recv 0 w arr = Some w' /\ WS (allV r) (allE r) r p w'.
Proof.
  intros Hp (HPS & KV & Lw & Ww & xs & N0 & Nd & KE & G1) HA. unfold edge_recv. rewrite N0. cbn [obind].
  assert (HH : hyper (mp_g (w_part w)) = true /\ self (mp_g (w_part w)) = Z.of_nat r).
  { destruct HPS as (g & plan & mv & ow & -> & _ & _ & Hh & Hs & _). auto. }
  destruct HH as (-> & ->).
  assert (Main : forall m, (nt = 1 -> agrees F m /\ forall x, In x xs -> covers F (Z.of_nat r) m (Mk F x)) ->
    exists xs' m', fold_left (recv_one true (Z.of_nat r)) arr (map (Mk F) xs, m) = (map (Mk F) xs', m') /\ NoDup (map eid xs') /\ allE r xs' /\
     (nt = 1 -> agrees F m' /\ forall x, In x xs' -> covers F (Z.of_nat r) m' (Mk F x))).
  { intros m Hm.
    assert (HX : forall s e, In (s, e) arr -> exists x, In x E0 /\ e = Mk F x).
    { intros s e Hin. apply HA in Hin as (i & x & _ & _ & Hx & _ & _ & -> & _). eauto. }
    assert (Fin : forall xs', incl xs xs' -> (forall x, In x xs' -> In x xs \/ exists s, In (s, Mk F x) arr) ->
       (forall s e, In (s, e) arr -> exists x, In x xs' /\ me_id e = eid x) -> allE r xs').
    { intros xs' I1 I2 I3. assert (SE : forall x, In x xs' -> In x E0 /\ touches own' r x = true).
      { intros x Hx. destruct (I2 x Hx) as [Hk|(s & Hs)].
        - apply KE in Hk as (HxE & Ht & Hk). split; auto. apply existsb_exists in Ht as (v & Hv & Ev). apply Nat.eqb_eq in Ev.
          rewrite forallb_forall in Hk. specialize (Hk v Hv). rewrite Ev, Nat.eqb_refl in Hk. cbn in Hk. apply existsb_exists. eauto.
        - apply HA in Hs as (i & y & _ & _ & Hy & _ & _ & Em & Ht). apply Mk_inj in Em. subst y. auto. }
      intros x. split; [apply SE|]. intros (HxE & Ht).
      assert (Arr : forall u, In u (snd (fst x)) -> own' u <> own u -> In x xs').
      { intros u Hu Hne. assert (HuV : In u (map fst V)) by (apply (proj2 h_E0 x u); auto). pose proof (h_own u HuV) as Lu.
        assert (Hin : In (Z.of_nat (own u), Mk F x) arr).
        { apply HA. exists (own u), x. split; auto. split; auto. split; auto. split; [apply existsb_exists; exists u; split; auto; apply Nat.eqb_refl|]. split; [|auto].
          destruct (keeps (own u) x) eqn:Ek; auto. rewrite forallb_forall in Ek. specialize (Ek u Hu). rewrite Nat.eqb_refl in Ek. cbn in Ek. apply Nat.eqb_eq in Ek. contradiction. }
        destruct (I3 _ _ Hin) as (y & Hy & Ey). cbn [Mk me_id] in Ey. destruct (SE y Hy) as (HyE & _).
        assert (x = y); [|now subst]. apply (NoDup_map_key _ _ eid E0); [apply h_E0|auto|auto|exact Ey]. }
      apply existsb_exists in Ht as (v & Hv & Ev). apply Nat.eqb_eq in Ev.
      destruct (Nat.eq_dec (own v) r) as [Er|Ne]; [|apply (Arr v Hv); congruence].
      destruct (keeps r x) eqn:Ek.
      - apply I1, KE. split; auto. split; auto. apply existsb_exists. exists v. split; auto. now apply Nat.eqb_eq.
      - assert (exists u, In u (snd (fst x)) /\ own u = r /\ own' u <> r) as (u & Hu & Eu & Hne).
        { clear - Ek. induction (snd (fst x)) as [|u l IH]; cbn in Ek; [discriminate|]. apply andb_false_iff in Ek as [Ek|Ek].
          - exists u. apply orb_false_iff in Ek as (E1 & E2). apply negb_false_iff, Nat.eqb_eq in E1. apply Nat.eqb_neq in E2. cbn; auto.
          - destruct (IH Ek) as (u' & ? & ?). exists u'. cbn; auto. }
        apply (Arr u Hu). congruence. }
    destruct (Nat.eq_dec nt 1) as [E1|N1].
    - destruct (Hm E1) as (A & C). destruct (recv_fold F (Z.of_nat r) arr E0 HX xs m Nd A C) as (xs' & m' & E & ND' & A' & C' & I1 & I2 & I3).
      exists xs', m'. split; [exact E|]. split; [exact ND'|]. split; [now apply Fin|auto].
    - (* the collected edges do not depend on the owner map *)
      assert (Ind : forall l ys m1 m2, fst (fold_left (recv_one true (Z.of_nat r)) l (ys, m1)) = fst (fold_left (recv_one true (Z.of_nat r)) l (ys, m2))).
      { clear. induction l as [|e l IH]; intros ys m1 m2; cbn [fold_left]; [reflexivity|]. unfold recv_one at 2 4. cbn [fst snd]. destruct (true && existsb _ ys); apply IH. }
      destruct (note_all F (Z.of_nat r) xs []) as (A & _ & C); [intros v o; discriminate|].
      destruct (recv_fold F (Z.of_nat r) arr E0 HX xs _ Nd A C) as (xs' & m' & E & ND' & A' & C' & I1 & I2 & I3).
      destruct (fold_left (recv_one true (Z.of_nat r)) arr (map (Mk F) xs, m)) as [ys m2] eqn:E2.
      exists xs', m2. split; [|split; [exact ND'|split; [now apply Fin|intros; contradiction]]]. f_equal.
      pose proof (Ind arr (map (Mk F) xs) m (fold_left (note_owners (Z.of_nat r)) (map (Mk F) xs) [])) as I. rewrite E2, E in I. exact I. }
  destruct (Main (w_gown w) G1) as (xs' & m' & -> & ND' & AE & G2). eexists. split; [reflexivity|].
  split; [exact HPS|]. cbn [w_verts w_edges w_gown]. split; [exact KV|]. split; [now rewrite upd_length|]. split.
  - destruct (w_edges w) as [|a l]; [discriminate|]. cbn. inversion Ww; subst. constructor; auto. apply Forall_forall. intros e He. apply in_map_iff in He as (x & <- & _). apply Mk_wf.
  - exists xs'. split; [apply nth_error_upd_eq; lia|]. auto.
Qed.
Lemma step_edge_recv r p w arr t : nth_error ps r = Some p -> 0 < t < nt -> WS (allV r) (allE r) r p w -> arrivedE r arr ->
  exists w', edge_recv t w arr = Some w' /\ WS (allV r) (allE r) r p w'.
Proof.
  intros Hp Ht (HPS & KV & Lw & Ww & xs & N0 & Nd & KE & G1) HA. unfold edge_recv.
  destruct (nth_error (w_edges w) t) as [es|] eqn:Et; [|apply nth_error_None in Et; lia]. cbn [obind].
  assert (HH : hyper (mp_g (w_part w)) = true). { destruct HPS as (g & plan & mv & ow & -> & _ & _ & Hh & Hs & _). auto. } rewrite HH.
  pose proof (recv_fold_wf (self (mp_g (w_part w))) arr) as RW. specialize (RW ltac:(intros s m Hin; apply HA in Hin as (i & x & _ & _ & _ & _ & _ & -> & _); apply Mk_wf) es (w_gown w)).
  rewrite Forall_forall in Ww. specialize (RW (Ww es (nth_error_In _ _ Et))).
  destruct (fold_left _ arr (es, w_gown w)) as [es' m']. cbn [fst] in RW. eexists. split; [reflexivity|].
  split; [exact HPS|]. cbn [w_verts w_edges w_gown]. split; [exact KV|]. split; [now rewrite upd_length|]. split.
  - apply Forall_forall. intros l Hl. apply In_nth_error in Hl as (i & Hi). destruct (Nat.eq_dec t i) as [<-|Ne].
    + rewrite nth_error_upd_eq in Hi by lia. inversion Hi; now subst.
    + rewrite nth_error_upd_neq in Hi by auto. apply Ww. eapply nth_error_In; eauto.
  - exists xs. rewrite nth_error_upd_neq by lia. split; [exact N0|]. split; auto. split; auto. intros; lia.
Qed.
Lemma step_build r p w : nth_error ps r = Some p -> WS (allV r) (allE r) r p w -> exists s', mig_build w = Some s' /\ migrated_part own' V E0 nt r (pd_of w) s'.
Proof.
  intros Hp (HPS & KV & Lw & Ww & xs & N0 & Nd & KE & G1). pose proof (h_part r p Hp) as ((_ & _ & L7 & _) & _ & _ & Lt & _). cbn [length] in Lt.
  destruct HPS as (g & plan & mv & ow & Ew & _ & _ & Hh & Hs & _).
  assert (NDw : NoDup (map fst (w_verts w))).
  { eapply Permutation_NoDup; [apply Permutation_map; symmetry; exact KV|]. apply NoDup_filter_map, h_nodupV. }
  destruct (mig_build_built w r) as (s' & E & B); auto; try (rewrite Ew; auto); try lia.
  exists s'. split; [exact E|]. split; [exact B|]. pose proof (pd_of_valid w NDw ltac:(lia)) as HV'. split; [exact HV'|].
  split; [cbn; now rewrite !map_length|]. split; [rewrite pd_of_vrecs; exact KV|]. split; [cbn; now rewrite map_length|].
  assert (PE : Permutation xs (filter (touches own' r) E0)).
  { apply perm_by_mem; [now apply (NoDup_map_inv eid)|apply NoDup_filter; apply (NoDup_map_inv eid); apply h_E0|]. intros x. rewrite filter_In. apply KE. }
  assert (T0 : nth_error (pd_tys (pd_of w)) 0 = Some (ty_of (map (Mk F) xs))) by (cbn [pd_of pd_tys]; now rewrite nth_error_map, N0).
  split.
  - intros ty Hty. rewrite T0 in Hty. inversion Hty; subst ty. rewrite ty_of_erecs. exact PE.
  - intros E1 v Hv. destruct (G1 E1) as (A & C).
    destruct B as (B & _). pose proof (p_constructed _ _ _ _ _ _ _ HV' B) as HC. pose proof (c_ghost_not_local _ _ _ _ _ _ HC v Hv) as Hnl.
    assert (Ha : In v (pd_verts (pd_of w) ++ ghosts_of (pd_verts (pd_of w)) (pd_tys (pd_of w)))) by (apply in_app_iff; auto).
    apply (c_gids_iff _ _ _ _ _ _ HC) in Ha as [Hl|(ty & e & Hty & He & Hve)]; [contradiction|].
    assert (ty = ty_of (map (Mk F) xs)).
    { cbn [pd_of pd_tys] in Hty. destruct (w_edges w) as [|a [|b l]]; cbn in Lw; try lia. cbn in N0, Hty. inversion N0; subst a. destruct Hty as [<-|[]]. reflexivity. }
    subst ty. cbn [ty_of fst] in He. apply in_map_iff in He as (m & <- & Hm). apply in_map_iff in Hm as (x & <- & Hx). cbn [Mk me_pins me_id snd] in Hve.
    pose proof (proj1 (KE x) Hx) as (HxE & _). assert (HvV : In v (map fst V)) by (apply (proj2 h_E0 x v); auto).
    assert (Hne : F v <> Z.of_nat r).
    { intros Eq. apply Hnl. cbn [pd_of pd_verts]. assert (Er : own' v = r) by lia. apply in_map_iff in HvV as (y & <- & Hy). apply in_map.
      apply (Permutation_in _ (Permutation_sym KV)). apply filter_In. split; auto. now apply Nat.eqb_eq. }
    specialize (C x Hx v Hve Hne). destruct (zfind (w_gown w) v) as [o|] eqn:Ez; [|congruence]. cbn [pd_of pd_owns]. rewrite Ez. f_equal. now apply A.
Qed.

(** the whole migration *)
Lemma edge_phase_gen t ws (PB : nat -> pdesc -> mwork -> Prop) (PE : nat -> list (edge_input * Z) -> Prop) (Q : list mwork -> Prop) : length ws = n ->
  (forall r p w, nth_error ps r = Some p -> nth_error ws r = Some w -> WS (allV r) (PE r) r p w) ->
  (forall r p w arr, nth_error ps r = Some p -> WS (allV r) (PE r) r p w -> arrivedE r arr -> exists w', edge_recv t w arr = Some w' /\ PB r p w') ->
  (forall ws', length ws' = n -> (forall r p w, nth_error ps r = Some p -> nth_error ws' r = Some w -> PB r p w) -> Q ws') ->
  phase (edge_send fuel) (edge_recv t) ws Q.
Proof.
  intros Lw HW HRc HQ.
  assert (PP : forall i w, nth_error ws i = Some w -> exists p, nth_error ps i = Some p).
  { intros i w Hi. destruct (nth_error ps i) eqn:E; eauto. apply nth_error_None in E. assert (i < length ws) by (apply nth_error_Some; congruence). lia. }
  apply phase_intro with (PB := fun i w' => forall p, nth_error ps i = Some p -> PB i p w').
  - intros i w Hi. destruct (PP i w Hi) as (p & Hp). destruct (step_edge_send i p w _ _ Hp (HW i p w Hp Hi)) as (ms & E & Hm). exists ms. split; [exact E|].
    intros (d, m) Hin. apply Hm in Hin as (x & HxE & _ & _ & _ & v & Hv & ->). cbn [fst]. rewrite Lw. pose proof (h_range v (proj2 h_E0 x v HxE Hv)). lia.
  - intros sent rcv Es Dl i w arr Hi Ha. destruct (PP i w Hi) as (p & Hp).
    destruct (HRc i p w arr Hp (HW i p w Hp Hi)) as (w' & E & B).
    + intros q m. rewrite (arrived_in _ _ _ _ _ _ _ _ _ _ Es Dl Ha). split.
      * intros (j & a & ms & Hj & Em & -> & Hin). destruct (PP j a Hj) as (pj & Hpj). destruct (step_edge_send j pj a _ _ Hpj (HW j pj a Hpj Hj)) as (ms' & E' & Hm).
        assert (ms' = ms) by congruence. subst ms'. apply Hm in Hin as (x & HxE & Ht & Hk & -> & v & Hv & Ed).
        exists j, x. split; auto. split; [apply nth_error_Some; congruence|]. split; auto. split; auto. split; auto. split; auto.
        apply existsb_exists. exists v. split; auto. apply Nat.eqb_eq. lia.
      * intros (j & x & -> & Lj & HxE & Ht & Hk & -> & Ht'). destruct (nth_error ps j) as [pj|] eqn:Hpj; [|apply nth_error_None in Hpj; lia].
        destruct (nth_error ws j) as [a|] eqn:Hj; [|apply nth_error_None in Hj; lia].
        destruct (step_edge_send j pj a _ _ Hpj (HW j pj a Hpj Hj)) as (ms & E' & Hm). exists j, a, ms. split; auto. split; auto. split; auto.
        apply Hm. exists x. split; auto. split; auto. split; auto. split; auto. apply existsb_exists in Ht' as (v & Hv & Ev). apply Nat.eqb_eq in Ev. exists v. split; [auto|now rewrite Ev].
    + exists w'. split; auto. intros p' Hp'. assert (p' = p) by congruence. now subst.
  - intros ws' L' H. apply HQ; [congruence|]. intros r p w Hp Hw. now apply (H r w Hw).
Qed.
Lemma edge_phases_rest (Q : list mwork -> Prop) : forall ts ws, (forall t, In t ts -> 0 < t < nt) -> length ws = n ->
  (forall r p w, nth_error ps r = Some p -> nth_error ws r = Some w -> WS (allV r) (allE r) r p w) ->
  (forall ws', length ws' = n -> (forall r p w, nth_error ps r = Some p -> nth_error ws' r = Some w -> WS (allV r) (allE r) r p w) -> Q ws') ->
  edge_phases fuel ts ws Q.
Proof.
  induction ts as [|t ts IH]; intros ws Ht Lw HW HQ; cbn [edge_phases]; [now apply HQ|].
  apply (edge_phase_gen t ws (fun r p w => WS (allV r) (allE r) r p w) allE); auto.
  - intros r p w arr Hp Hw Ha. apply (step_edge_recv r p w arr t); auto. apply Ht; cbn; auto.
  - intros ws' L' H'. apply IH; auto. intros; apply Ht; cbn; auto.
Qed.

Theorem migrate_ok : migrate fuel sts (fun sts' => length sts' = n /\ exists ps', length ps' = n /\
  forall r p' s', nth_error ps' r = Some p' -> nth_error sts' r = Some s' -> migrated_part own' V E0 nt r p' s').
Proof.
  assert (Lsts : length sts = n) by (apply HRdy).
  assert (PPg : forall A (l : list A) i w, length l = n -> nth_error l i = Some w -> exists p, nth_error ps i = Some p).
  { intros A l i w L Hi. destruct (nth_error ps i) eqn:E; eauto. apply nth_error_None in E. assert (i < length l) by (apply nth_error_Some; congruence). lia. }
  assert (Ent : 0 < n -> max_types sts = nt).
  { intros Hn. unfold max_types. destruct HRdy as (_ & Lc & HRr).
    assert (A : forall x, In x (map (fun s => ntypes (mp_g s)) sts) -> x = nt).
    { intros x Hx. apply in_map_iff in Hx as (s & <- & Hs). apply In_nth_error in Hs as (i & Hi). destruct (PPg _ sts i s Lsts Hi) as (p & Hp).
      assert (L : i < n) by (apply nth_error_Some; congruence). destruct (nth_error calls i) as [cs|] eqn:Ec; [|apply nth_error_None in Ec; lia].
      destruct (HRr _ _ _ _ Hp Ec Hi) as ((HB & _) & _). pose proof (h_part i p Hp) as (HV & _ & _ & Lt & _).
      cbn [fst] in HB. rewrite (c_ntypes _ _ _ _ _ _ (p_constructed _ _ _ _ _ _ _ HV HB)). exact Lt. }
    assert (Ne : map (fun s => ntypes (mp_g s)) sts <> []) by (destruct sts; cbn in *; [lia|discriminate]).
    clear - A Ne. induction (map (fun s => ntypes (mp_g s)) sts) as [|x l IH]; [congruence|]. cbn [fold_right]. rewrite (A x (or_introl eq_refl)).
    destruct l as [|y l]; [cbn; lia|]. rewrite IH; [lia|intros; apply A; cbn; auto|discriminate]. }
  unfold migrate. destruct (Nat.eq_dec n 0) as [Z0|Nz].
  { assert (sts = []) by (apply length_zero_iff_nil; lia). rewrite H. cbn [max_types map fold_right seq edge_phases].
    assert (DZ : forall M (l : list (list (Z * M))), delivered [] l -> l = []) by (intros M l (_ & L & _); now apply length_zero_iff_nil).
    exists []. split; [reflexivity|]. exists []. split; [reflexivity|]. split; [intros ms m []|]. intros rcv D. apply DZ in D. subst rcv.
    exists []. split; [reflexivity|]. exists []. split; [reflexivity|]. exists []. split; [reflexivity|]. split; [intros ms m []|]. intros rcv D. apply DZ in D. subst rcv.
    exists []. split; [reflexivity|]. exists []. split; [reflexivity|]. rewrite Z0. split; [reflexivity|]. exists []. split; [reflexivity|].
    intros [|r] p' s' Hp'; discriminate. }
  rewrite (Ent ltac:(lia)).
  apply local_intro with (PB := fun i s => forall p, nth_error ps i = Some p -> PS own0 i p s).
  { intros i s Hi. destruct (PPg _ sts i s Lsts Hi) as (p & Hp). destruct (step_cleanup i p s Hp Hi) as (s' & E & B). exists s'. split; auto. intros p' Hp'. assert (p' = p) by congruence. now subst. }
  intros s0 L0 H0. rewrite Lsts in L0.
  apply phase_intro with (PB := fun i s => forall p, nth_error ps i = Some p -> PS own1 i p s).
  { intros i s Hi. destruct (PPg _ s0 i s L0 Hi) as (p & Hp). destruct (step_upd_send i p s Hp (H0 i s Hi p Hp)) as (ms & E & Hm). exists ms. split; [exact E|].
    intros (d, x) Hin. apply Hm in Hin as (v & o & e & _ & _ & _ & He & _ & Ho & _ & -> & _). cbn [fst]. rewrite L0. pose proof (h_own o (proj2 h_E0 e o He Ho)). lia. }
  { intros sent rcv Es Dl i s arr Hi Ha. destruct (PPg _ s0 i s L0 Hi) as (p & Hp).
    destruct (step_upd_recv i p s arr Hp (H0 i s Hi p Hp)) as (s' & E & B).
    - intros q x. rewrite (arrived_in _ _ _ _ _ _ _ _ _ _ Es Dl Ha). split.
      + intros (j & a & ms & Hj & Em & -> & Hin). destruct (PPg _ s0 j a L0 Hj) as (pj & Hpj). destruct (step_upd_send j pj a Hpj (H0 j a Hj pj Hpj)) as (ms' & E' & Hm).
        assert (ms' = ms) by congruence. subst ms'. apply Hm in Hin as (v & o & e & HvV & Eo & Hd & He & Hve & Hoe & Hne & Ed & ->).
        exists v, o, e. subst j. repeat split; auto. lia.
      + intros (v & o & e & HvV & -> & Hd & He & Hve & Hoe & Hne & Eo & ->). pose proof (h_own v HvV) as Lv.
        destruct (nth_error ps (own v)) as [pj|] eqn:Hpj; [|apply nth_error_None in Hpj; lia]. destruct (nth_error s0 (own v)) as [a|] eqn:Hj; [|apply nth_error_None in Hj; lia].
        destruct (step_upd_send (own v) pj a Hpj (H0 _ a Hj pj Hpj)) as (ms & E' & Hm). exists (own v), a, ms. split; auto. split; auto. split; auto. apply Hm.
        exists v, o, e. repeat split; auto; now rewrite Eo.
    - exists s'. split; auto. intros p' Hp'. assert (p' = p) by congruence. now subst. }
  intros s1 L1 H1. rewrite L0 in L1.
  apply local_intro with (PB := fun i w => forall p, nth_error ps i = Some p -> WS (keptV i p) (keptE i) i p w).
  { intros i s Hi. destruct (PPg _ s1 i s L1 Hi) as (p & Hp). destruct (step_setup i p s Hp (H1 i s Hi p Hp)) as (w & E & B). exists w. split; auto. intros p' Hp'. assert (p' = p) by congruence. now subst. }
  intros ws Lw HW. rewrite L1 in Lw.
  apply phase_intro with (PB := fun i w => forall p, nth_error ps i = Some p -> WS (allV i) (keptE i) i p w).
  { intros i w Hi. destruct (PPg _ ws i w Lw Hi) as (p & Hp). destruct (step_vert_send i p w _ Hp (HW i w Hi p Hp)) as (ms & E & _ & Hm). exists ms. split; [exact E|].
    intros (d, x) Hin. apply Hm in Hin as (Hx & _ & _ & ->). cbn [fst]. rewrite Lw. pose proof (h_range (fst x) (in_map fst _ _ Hx)). lia. }
  { intros sent rcv Es Dl i w arr Hi Ha. destruct (PPg _ ws i w Lw Hi) as (p & Hp).
    destruct (step_vert_recv i p w arr _ Hp (HW i w Hi p Hp)) as (w' & E & B).
    - apply (arrived_nodup _ _ _ _ _ _ _ _ Es Dl Ha).
      + intros j a ms Hj Em. destruct (PPg _ ws j a Lw Hj) as (pj & Hpj). destruct (step_vert_send j pj a _ Hpj (HW j a Hj pj Hpj)) as (ms' & E' & Nd & _).
        assert (ms' = ms) by congruence. subst ms'. now apply NoDup_filter_map.
      + intros j k a b ms ms' m Hj Hk Ea Eb Hin Hin'. destruct (PPg _ ws j a Lw Hj) as (pj & Hpj). destruct (PPg _ ws k b Lw Hk) as (pk & Hpk).
        destruct (step_vert_send j pj a _ Hpj (HW j a Hj pj Hpj)) as (m1 & E1 & _ & Q1). destruct (step_vert_send k pk b _ Hpk (HW k b Hk pk Hpk)) as (m2 & E2 & _ & Q2).
        assert (m1 = ms) by congruence. assert (m2 = ms') by congruence. subst m1 m2. apply Q1 in Hin as (_ & E3 & _). apply Q2 in Hin' as (_ & E4 & _). congruence.
    - intros q x Hin. apply (arrived_in _ _ _ _ _ _ _ _ _ _ Es Dl Ha) in Hin as (j & a & ms & Hj & Em & -> & Hin). destruct (PPg _ ws j a Lw Hj) as (pj & Hpj).
      destruct (step_vert_send j pj a _ Hpj (HW j a Hj pj Hpj)) as (m1 & E1 & _ & Q1). assert (m1 = ms) by congruence. subst m1. apply Q1 in Hin as (Hx & Eo & Hd & Ed). split; auto. split; [congruence|lia].
    - intros x Hx Hne Er. assert (HV : In (fst x) (map fst V)) by (now apply in_map). pose proof (h_own _ HV) as Lv.
      destruct (nth_error ps (own (fst x))) as [pj|] eqn:Hpj; [|apply nth_error_None in Hpj; lia]. destruct (nth_error ws (own (fst x))) as [a|] eqn:Hj; [|apply nth_error_None in Hj; lia].
      destruct (step_vert_send _ pj a _ Hpj (HW _ a Hj pj Hpj)) as (ms & E1 & _ & Q1). exists (Z.of_nat (own (fst x))). apply (arrived_in _ _ _ _ _ _ _ _ _ _ Es Dl Ha).
      exists (own (fst x)), a, ms. split; auto. split; auto. split; auto. apply Q1. repeat split; auto; now rewrite Er.
    - exists w'. split; auto. intros p' Hp'. assert (p' = p) by congruence. now subst. }
  intros ws1 Lw1 HW1. rewrite Lw in Lw1. cbn [seq edge_phases].
  apply (edge_phase_gen 0 ws1 (fun r p w => WS (allV r) (allE r) r p w) keptE); auto.
  { intros r p w arr Hp Hw Ha. apply (step_edge_recv0 r p w arr); auto. }
  intros ws2 Lw2 HW2. apply edge_phases_rest; auto.
  { intros t Ht. apply in_seq in Ht. lia. }
  intros ws3 Lw3 HW3.
  apply local_intro with (PB := fun i s' => exists p', migrated_part own' V E0 nt i p' s').
  { intros i w Hi. destruct (PPg _ ws3 i w Lw3 Hi) as (p & Hp). destruct (step_build i p w Hp (HW3 i p w Hp Hi)) as (s' & E & B). exists s'. split; eauto. }
  intros st' Ls' HS'. rewrite Lw3 in Ls'. split; [exact Ls'|].
  destruct (list_choice _ _ (fun i s' p' => migrated_part own' V E0 nt i p' s') st' HS') as (ps' & Lp & HPp).
  exists ps'. split; [congruence|]. intros r p' s' Hp' Hs'. eapply HPp; eauto.
Qed.
End Glob.
