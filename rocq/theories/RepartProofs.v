(** Proofs for getPartition, repartition and the coordinates of migrating vertices. *)
From Verif Require Import Base GraphModel CsrProofs ConstructProofs GraphSpec AccessProofs AccessProofs2 CountProofs GraphTop GraphTop2 GraphTop3 Comm TagModel TagProps MigrateModel MigrateSpec RepartModel MigrateProofs1 MigrateProofs2 MigrateProofs3 MigrateProofs5 MigrateTop.

(* ---------------- coordinates ---------------- *)
(** records that arrive with the same sequence of senders and in sending order per sender arrive in the same order *)
Lemma same_senders A B : forall (r1 : list (Z * A)) (r2 : list (Z * B)) (R : A -> B -> Prop),
  map fst r1 = map fst r2 ->
  (forall s, Forall2 R (map snd (filter (fun x => Z.eqb (fst x) s) r1)) (map snd (filter (fun x => Z.eqb (fst x) s) r2))) ->
  Forall2 R (map snd r1) (map snd r2).
Proof.
  induction r1 as [|(s, a) r1 IH]; intros [|(s', b) r2] R E H; cbn in E; try discriminate; [constructor|]. inversion E; subst s'. cbn [map snd].
  assert (Hab : R a b /\ forall s', Forall2 R (map snd (filter (fun x => Z.eqb (fst x) s') r1)) (map snd (filter (fun x => Z.eqb (fst x) s') r2))).
  { split.
    - specialize (H s). cbn [filter fst] in H. rewrite Z.eqb_refl in H. cbn [map snd] in H. now inversion H.
    - intros s'. specialize (H s'). cbn [filter fst] in H. destruct (Z.eqb s s'); auto. cbn [map snd] in H. now inversion H. }
  destruct Hab. constructor; auto.
Qed.
Lemma mapM_rel X A B (f : X -> option A) (g : X -> option B) (R : A -> B -> Prop) l a b : (forall x y z, In x l -> f x = Some y -> g x = Some z -> R y z) ->
  mapM f l = Some a -> mapM g l = Some b -> Forall2 R a b.
Proof.
  revert a b. induction l as [|x l IH]; intros a b H E1 E2; cbn in *; [inversion E1; inversion E2; constructor|].
  destruct (f x) eqn:Ef; [|discriminate]. destruct (g x) eqn:Eg; [|discriminate]. cbn in *. destruct (mapM f l); [|discriminate]. destruct (mapM g l); [|discriminate].
  cbn in *. inversion E1; inversion E2; subst. constructor; [eapply H; eauto|apply IH; auto]. intros; eapply H; eauto.
Qed.
Lemma Forall2_filter_map A B (R : A -> B -> Prop) (l1 : list (Z * A)) (l2 : list (Z * B)) k :
  Forall2 (fun x y => fst x = fst y /\ R (snd x) (snd y)) l1 l2 -> Forall2 R (map snd (filter (fun x => Z.eqb (fst x) k) l1)) (map snd (filter (fun x => Z.eqb (fst x) k) l2)).
Proof. induction 1 as [|x y l1 l2 (E & HR) H IH]; cbn; [constructor|]. rewrite E. destruct (Z.eqb (fst y) k); cbn; auto. Qed.
Lemma Forall2_map_eq A B (f : A -> B) l1 l2 : Forall2 (fun x y => y = f x) l1 l2 -> l2 = map f l1.
Proof. induction 1; cbn; congruence. Qed.

Section Coord.
Context {C : Type} (f : Z -> C).
Definition coords_right (s : mpart) (crd : arr C) : Prop := forall h v c, vgid (mp_g s) h = Some v -> coord_of (mp_g s) crd h = Some c -> c = f v.
Lemma kept_aligned fuel s crd vs cs : coords_right s crd -> kept_verts fuel s = Some vs -> kept_coords fuel crd s = Some cs -> cs = map (fun x => f (fst x)) vs.
Proof.
  intros H. unfold kept_verts, kept_coords. destruct (affected_verts s) as [av|]; [|discriminate]. cbn [obind]. destruct (all_verts (mp_g s) fuel) as [hs|]; [|discriminate]. cbn [obind].
  intros E1 E2. apply Forall2_map_eq. eapply (mapM_rel _ _ _ _ _ (fun (x : Z * (Z * Z)) y => y = f (fst x))); [|exact E1|exact E2]. cbv beta. intros h y z _ Ey Ez.
  destruct (vgid (mp_g s) h) as [v|] eqn:Ev; [|discriminate]. cbn [obind] in Ey. destruct (vweight (mp_g s) h); [|discriminate]. cbn [obind] in Ey.
  destruct (originalOwner (mp_g s) (mp_oo s) h); [|discriminate]. inversion Ey; subst. cbn. eapply H; eauto.
Qed.
Lemma sent_aligned w crd ms cs : coords_right (w_part w) crd -> vert_send w = Some ms -> coord_send (w_part w, crd) = Some cs ->
  Forall2 (fun x y => fst x = fst y /\ snd y = f (fst (snd x))) ms cs.
Proof.
  intros H. unfold vert_send, coord_send. cbn [fst snd]. intros E1 E2. eapply mapM_rel; [|exact E1|exact E2]. cbv beta. intros h y z _ Ey Ez.
  destruct (vgid (mp_g (w_part w)) h) as [v|] eqn:Ev; [|discriminate]. cbn [obind] in Ey. destruct (vweight (mp_g (w_part w)) h); [|discriminate]. cbn [obind] in Ey.
  destruct (originalOwner (mp_g (w_part w)) (mp_oo (w_part w)) h); [|discriminate]. cbn [obind] in Ey. destruct (coord_of (mp_g (w_part w)) crd h) as [c|] eqn:Ec; [|discriminate]. cbn [obind] in Ez.
  destruct (plan_get (mp_g (w_part w)) (mp_plan (w_part w)) h); [|discriminate]. cbn [obind] in *. inversion Ey; inversion Ez; subst. cbn. split; auto. eapply H; eauto.
Qed.
Lemma coords_aligned fuel (sts : list (mwork * arr C)) sentV sentC q rV rC w crd kc w' :
  (forall w crd, In (w, crd) sts -> coords_right (w_part w) crd) ->
  mapM (fun x => vert_send (fst x)) sts = Some sentV -> mapM (fun x => coord_send (w_part (fst x), snd x)) sts = Some sentC ->
  fifo sentV q rV -> fifo sentC q rC -> map fst rV = map fst rC ->
  nth_error sts q = Some (w, crd) -> kept_verts fuel (w_part w) = Some (w_verts w) -> kept_coords fuel crd (w_part w) = Some kc ->
  vert_recv w rV = Some w' -> new_coords kc rC = map (fun x => f (fst x)) (w_verts w').
Proof.
  intros HC EV EC (FV1 & FV) (FC1 & FC) ES Hq KV KC ER. inversion ER; subst w'. cbn [w_verts]. unfold new_coords. rewrite map_app. f_equal.
  - eapply kept_aligned; eauto. apply HC. eapply nth_error_In; eauto.
  - apply Forall2_map_eq. apply (same_senders _ _ rV rC (fun x y => y = f (fst x)) ES). intros s.
    pose proof (mapM_length _ _ _ _ _ EV) as LV. pose proof (mapM_length _ _ _ _ _ EC) as LC.
    assert (NO : (forall i, i < length sts -> s <> Z.of_nat i) -> filter (fun x : Z * (Z * (Z * Z)) => Z.eqb (fst x) s) rV = [] /\ filter (fun x : Z * C => Z.eqb (fst x) s) rC = []).
    { intros N. split.
      - destruct (filter _ rV) as [|(z, x) l] eqn:E; auto. exfalso. assert (I : In (z, x) ((z, x) :: l)) by (cbn; auto). rewrite <- E in I. apply filter_In in I as (I & Ez). cbn [fst] in Ez. apply Z.eqb_eq in Ez. subst z.
        destruct (FV1 _ _ I) as (i & Li & ->). apply (N i); auto. congruence.
      - destruct (filter _ rC) as [|(z, x) l] eqn:E; auto. exfalso. assert (I : In (z, x) ((z, x) :: l)) by (cbn; auto). rewrite <- E in I. apply filter_In in I as (I & Ez). cbn [fst] in Ez. apply Z.eqb_eq in Ez. subst z.
        destruct (FC1 _ _ I) as (i & Li & ->). apply (N i); auto. congruence. }
    destruct (lt_dec (Z.to_nat s) (length sts)) as [L|L]; [destruct (Z_le_gt_dec 0 s) as [L0|L0]|].
    + destruct (nth_error sts (Z.to_nat s)) as [(wi, ci)|] eqn:Es; [|apply nth_error_None in Es; lia].
      destruct (mapM_nth _ _ _ _ _ _ _ EV Es) as (mv & Hmv & E1). destruct (mapM_nth _ _ _ _ _ _ _ EC Es) as (mc & Hmc & E2). cbn [fst snd] in *.
      pose proof (FV _ _ Hmv) as A. pose proof (FC _ _ Hmc) as B. rewrite Z2Nat.id in A, B by lia. rewrite A, B.
      apply Forall2_filter_map. eapply sent_aligned; eauto. apply HC. eapply nth_error_In; eauto.
    + destruct NO as (-> & ->); [intros; lia|constructor].
    + destruct NO as (-> & ->); [intros; lia|constructor].
Qed.
End Coord.

(* ---------------- getPartition ---------------- *)
Lemma insert_all (l : list (Z * Z)) : forall m, (forall a b v, In (a, v) l -> In (b, v) l -> a = b) -> forall v s,
  zfind (fold_left (fun m sv => match zfind m (snd sv) with Some _ => m | None => zset m (snd sv) (fst sv) end) l m) v = Some s <->
  zfind m v = Some s \/ (zfind m v = None /\ In (s, v) l).
Proof.
  induction l as [|(a, u) l IH]; intros m H v s; cbn [fold_left].
  - cbn. split; [auto|intros [?|(? & [])]; auto].
  - rewrite IH by (intros; eapply H; cbn; eauto). cbn [fst snd]. destruct (Z.eq_dec u v) as [->|N].
    + destruct (zfind m v) as [x|] eqn:E.
      * rewrite E. split; [intros [?|(? & ?)]; [auto|discriminate]|intros [?|(? & ?)]; [auto|discriminate]].
      * rewrite zfind_zset_eq. split.
        -- intros [X|(X & _)]; [|discriminate]. inversion X; subst. right. cbn; auto.
        -- intros [X|(_ & [X|X])]; [discriminate|inversion X; auto|]. left. f_equal. eapply (H a s v); cbn; auto.
    + assert (F : zfind (match zfind m u with Some _ => m | None => zset m u a end) v = zfind m v).
      { destruct (zfind m u); auto. now apply zfind_zset_neq. }
      rewrite F. cbn [In]. split.
      * intros [X|(X & Y)]; auto.
      * intros [X|(X & [Y|Y])]; auto. inversion Y; congruence.
Qed.

Lemma NoDup_flat_map_parts : forall ps : list pdesc, (forall i p, nth_error ps i = Some p -> NoDup (pd_verts p) /\
  forall j q v, nth_error ps j = Some q -> In v (pd_verts p) -> In v (pd_verts q) -> i = j) -> NoDup (flat_map pd_verts ps).
Proof.
  induction ps as [|a ps IH]; intros H; cbn; [constructor|]. apply NoDup_app_iff. split; [apply (H 0 a eq_refl)|]. split.
  - apply IH. intros i p Hi. split; [apply (H (S i) p Hi)|]. intros j q v Hj Hv Hw. destruct (H (S i) p Hi) as (_ & X). specialize (X (S j) q v Hj Hv Hw). lia.
  - intros v Hv Hw. apply in_flat_map in Hw as (q & Hq & Hw). apply In_nth_error in Hq as (j & Hj). destruct (H 0 a eq_refl) as (_ & X). specialize (X (S j) q v Hj Hv Hw). lia.
Qed.
(** part r was built from p (any mode) *)
Definition built_parts (hg : bool) (fuel : nat) (ps : list pdesc) (sts : list (graph * arr Z)) : Prop :=
  length sts = length ps /\
  forall r p s, nth_error ps r = Some p -> nth_error sts r = Some s ->
    built_from hg r p s /\ valid_input hg (pd_verts p) (pd_vws p) (pd_tys p) /\ length (pd_oo p) = length (pd_verts p) /\ length (pd_verts p) < fuel.
Lemma part_send_ok hg fuel ps sts r p s : built_parts hg fuel ps sts -> nth_error ps r = Some p -> nth_error sts r = Some s ->
  part_send fuel s = Some (combine (pd_oo p) (pd_verts p)).
Proof.
  intros (L & H) Hp Hs. destruct (H r p s Hp Hs) as ((B & Eo) & HV & Lo & Lf). destruct s as (g, oo). cbn [fst snd] in *. subst oo.
  destruct (part_rep _ _ _ _ _ _ _ HV B) as (R & _). pose proof (p_constructed _ _ _ _ _ _ _ HV B) as HC.
  unfold part_send. cbn [fst snd]. rewrite (all_verts_ok _ _ _ _ _ R) by auto. cbn [obind]. rewrite mapM_map.
  destruct (c_counts _ _ _ _ _ _ HC) as (Hn & _).
  replace (length (pd_verts p)) with (length (combine (pd_oo p) (pd_verts p))) by (rewrite combine_length; lia). rewrite <- (map_id (combine _ _)) at 2.
  apply mapM_seq_nth. intros i (o, v) Hi. apply combine_nth_inv in Hi as (H1 & H2).
  assert (Li : i < length (pd_verts p)) by (apply nth_error_Some; congruence).
  replace (S i) with (getVertex i) by (unfold getVertex; lia). rewrite (c_vgid _ _ _ _ _ _ HC i v) by (rewrite nth_error_app1; auto). cbn [obind].
  unfold originalOwner. unfold getVertex. rewrite Nat.add_1_r. cbn [vlid obind]. replace (nlv g + ngv g <=? i) with false by (symmetry; apply Nat.leb_gt; lia).
  assert (Ea : aget (ainit (pd_oo p)) i = Some o). { unfold aget, ainit. rewrite nth_error_map, H1. reflexivity. }
  rewrite Ea. reflexivity.
Qed.
Lemma in_combine_nth A B (l1 : list A) (l2 : list B) a b : In (a, b) (combine l1 l2) <-> exists i, nth_error l1 i = Some a /\ nth_error l2 i = Some b.
Proof.
  split.
  - intros H. apply In_nth_error in H as (i & Hi). exists i. now apply combine_nth_inv.
  - revert l2. induction l1 as [|x l1 IH]; intros [|y l2] ([|i] & H1 & H2); cbn in *; try discriminate; [inversion H1; inversion H2; auto|right; apply IH; eauto].
Qed.
Lemma disjoint_parts : forall (ps : list pdesc) i j p q v, NoDup (flat_map pd_verts ps) -> nth_error ps i = Some p -> nth_error ps j = Some q ->
  In v (pd_verts p) -> In v (pd_verts q) -> i = j.
Proof.
  induction ps as [|a ps IH]; intros i j p q v N Hi Hj Hv Hw; [destruct i; discriminate|]. cbn in N. apply NoDup_app_iff in N as (N1 & N2 & N3).
  assert (F : forall k x, nth_error ps k = Some x -> In v (pd_verts x) -> In v (flat_map pd_verts ps)).
  { intros k x Hk Hx. apply in_flat_map. exists x. split; auto. eapply nth_error_In; eauto. }
  destruct i as [|i], j as [|j]; cbn in *; auto.
  - inversion Hi; subst. exfalso. eapply N3; eauto.
  - inversion Hj; subst. exfalso. eapply N3; eauto.
  - f_equal. eapply IH; eauto.
Qed.
Theorem getPartition_ok hg fuel ps sts : built_parts hg fuel ps sts -> NoDup (flat_map pd_verts ps) ->
  (forall p o, In p ps -> In o (pd_oo p) -> (0 <= o < Z.of_nat (length ps))%Z) ->
  getPartition fuel sts (fun ms => length ms = length ps /\ forall q m, nth_error ms q = Some m -> forall v r,
    zfind m v = Some r <-> exists i p l, r = Z.of_nat i /\ nth_error ps i = Some p /\ nth_error (pd_verts p) l = Some v /\ nth_error (pd_oo p) l = Some (Z.of_nat q)).
Proof.
  intros HB ND HO. pose proof HB as (L & HB').
  assert (PG : forall i s, nth_error sts i = Some s -> exists p, nth_error ps i = Some p).
  { intros i s Hi. destruct (nth_error ps i) eqn:E; eauto. apply nth_error_None in E. assert (i < length sts) by (apply nth_error_Some; congruence). lia. }
  apply phase_intro with (PB := fun q m => forall v r, zfind m v = Some r <-> exists i p l, r = Z.of_nat i /\ nth_error ps i = Some p /\ nth_error (pd_verts p) l = Some v /\ nth_error (pd_oo p) l = Some (Z.of_nat q)).
  - intros i s Hs. destruct (PG i s Hs) as (p & Hp). eexists. split; [apply (part_send_ok hg fuel ps sts i p s HB Hp Hs)|].
    intros (o, v) Hin. cbn [fst]. apply in_combine_l in Hin. rewrite L. apply (HO p o); auto. eapply nth_error_In; eauto.
  - intros sent rcv Es Dl q s arr Hs Ha. eexists. split; [reflexivity|].
    assert (AI : forall z v, In (z, v) arr <-> exists i p l, z = Z.of_nat i /\ nth_error ps i = Some p /\ nth_error (pd_verts p) l = Some v /\ nth_error (pd_oo p) l = Some (Z.of_nat q)).
    { intros z v. rewrite (arrived_in _ _ _ _ _ _ _ _ _ _ Es Dl Ha). split.
      - intros (i & a & ms & Hi & Em & -> & Hin). destruct (PG i a Hi) as (p & Hp). rewrite (part_send_ok hg fuel ps sts i p a HB Hp Hi) in Em. inversion Em; subst.
        apply in_combine_nth in Hin as (l & H1 & H2). exists i, p, l. auto.
      - intros (i & p & l & -> & Hp & Hv & Ho). destruct (nth_error sts i) as [a|] eqn:Hi; [|apply nth_error_None in Hi; assert (i < length ps) by (apply nth_error_Some; congruence); lia].
        exists i, a, (combine (pd_oo p) (pd_verts p)). split; auto. split; [apply (part_send_ok hg fuel ps sts i p a HB Hp Hi)|]. split; auto. apply in_combine_nth. eauto. }
    intros v r. rewrite insert_all.
    + cbn. rewrite AI. split; [intros [?|(_ & ?)]; [discriminate|auto]|auto].
    + intros a b u Hu Hw. apply AI in Hu as (i & p & l & -> & Hp & Hv & _). apply AI in Hw as (j & p' & l' & -> & Hp' & Hv' & _). f_equal.
      eapply (disjoint_parts ps i j p p' u ND Hp Hp'); eapply nth_error_In; eauto.
  - intros ms Lm Hm. split; [congruence|auto].
Qed.

(* ---------------- repartition ---------------- *)
Definition repart_calls (partition : list Z) (n : nat) : list plan_op := map (fun i => Ins i (nth i partition (-1)%Z)) (seq 0 n).
Lemma planned_repart partition n l : l < n -> planned (repart_calls partition n) l = Some (nth l partition (-1)%Z).
Proof.
  intros H. unfold repart_calls, planned. induction n as [|n IH]; [lia|]. rewrite seq_S, map_app, fold_left_app. cbn [map fold_left plus].
  destruct (Nat.eqb_spec n l) as [->|N]; auto. apply IH. lia.
Qed.
Lemma repart_plan_ok hg fuel r p g oo partition n : build_part (Z.of_nat r) hg (pd_verts p) (pd_vws p) (pd_tys p) (pd_owns p) = Some g ->
  valid_input hg (pd_verts p) (pd_vws p) (pd_tys p) -> length (pd_verts p) < fuel -> length (pd_oo p) = length (pd_verts p) ->
  (oo = Some (ainit (pd_oo p)) \/ oo = None /\ pd_oo p = repeat (Z.of_nat r) (length (pd_verts p))) ->
  length partition = length (pd_verts p) -> (forall d, In d partition -> (0 <= d < Z.of_nat n)%Z) ->
  exists m, repart_plan fuel (g, oo, partition) = Some m /\ built_from hg r p (mp_g m, mp_oo m) /\ mp_g m = g /\
    made_plan fuel g (repart_calls partition (length (pd_verts p))) (mp_plan m) /\ forall o, In o (repart_calls partition (length (pd_verts p))) -> call_ok g n o.
Proof.
  intros B HV Lf Lo Hoo Lp Hd. pose proof (p_constructed _ _ _ _ _ _ _ HV B) as HC. destruct (part_rep _ _ _ _ _ _ _ HV B) as (R & RO & Hh & Hs).
  destruct (c_counts _ _ _ _ _ _ HC) as (Hn & _).
  assert (OK : forall o, In o (repart_calls partition (length (pd_verts p))) -> call_ok g n o).
  { intros o Ho. apply in_map_iff in Ho as (i & <- & Hi). apply in_seq in Hi. cbn. split; [lia|]. apply Hd. apply nth_In. lia. }
  destruct (plan_run _ _ _ _ _ g (repart_calls partition (length (pd_verts p))) fuel HC Lf) as (p0 & q & A1 & A2 & _).
  { intros o Ho. apply OK in Ho. destruct o; cbn in *; auto. destruct Ho. split; auto. lia. }
  assert (ES : setOriginalOwners g oo = Some (ainit (pd_oo p))).
  { destruct Hoo as [->|(-> & E)]; [reflexivity|]. cbn [setOriginalOwners]. rewrite E, Hn.
    assert (G : forall m a k, k = length a -> foldM (fun x i => aset x i (self g)) (seq k m) (a ++ anew m) = Some (a ++ repeat (Some (self g)) m)).
    { induction m as [|m IH]; intros a k ->; cbn [seq foldM]; [unfold anew; cbn; now rewrite app_nil_r|].
      unfold aset. unfold anew. cbn [repeat]. rewrite app_length. cbn [length]. replace (length a <? length a + S (length (repeat None m))) with true by (symmetry; apply Nat.ltb_lt; lia). cbn [obind].
      pose proof (upd_app_r _ a (None :: repeat None m) 0 (Some (self g))) as U. rewrite Nat.add_0_r in U. rewrite U. cbn [upd]. specialize (IH (a ++ [Some (self g)]) (S (length a))). rewrite <- !app_assoc in IH. cbn [app] in IH. apply IH. rewrite app_length; cbn; lia. }
    specialize (G (length (pd_verts p)) [] 0 eq_refl). cbn [app] in G. rewrite G. f_equal. unfold ainit. rewrite Hs. apply (f_equal Some). clear. generalize (length (pd_verts p)) as k. induction k as [|k IH]; [reflexivity|]. cbn [repeat map]. now rewrite IH. }
  exists (mkMP g (ainit (pd_oo p)) q). unfold repart_plan. rewrite A1. cbn [obind]. rewrite (all_verts_ok _ _ _ _ _ R) by auto. cbn [obind].
  assert (EF : foldM (fun pl ih => d <- nth_error partition (fst ih) ;; '(p', _) <- plan_insert g pl (snd ih) d ;; Some p') (combine (seq 0 (length (map S (seq 0 (length (pd_verts p)))))) (map S (seq 0 (length (pd_verts p))))) p0 = Some q).
  { rewrite <- A2. unfold repart_calls. rewrite foldM_map_l. rewrite map_length, seq_length.
    assert (X : combine (seq 0 (length (pd_verts p))) (map S (seq 0 (length (pd_verts p)))) = map (fun i => (i, S i)) (seq 0 (length (pd_verts p)))).
    { clear. induction (seq 0 (length (pd_verts p))); cbn; congruence. }
    rewrite X, foldM_map_l. apply foldM_ext_in. intros s i Hi. apply in_seq in Hi. cbn [fst snd do_op].
    rewrite (nth_error_nth' partition (-1)%Z) by lia. cbn [obind]. unfold getVertex. rewrite Nat.add_1_r. reflexivity. }
  rewrite EF. cbn [obind]. rewrite ES. cbn [obind]. split; [reflexivity|]. cbn [mp_g mp_oo mp_plan]. split; [split; auto|]. split; auto. split; [|exact OK]. exists p0. auto.
Qed.

(** repartition of a fresh copy by any assignment of parts *)
Lemma repartition_ok own own' V E0 ps sts fuel : distributed own V [E0] ps -> big_enough fuel V [E0] -> length sts = length ps ->
  (forall r p s, nth_error ps r = Some p -> nth_error sts r = Some s ->
     build_part (Z.of_nat r) true (pd_verts p) (pd_vws p) (pd_tys p) (pd_owns p) = Some (fst (fst s)) /\
     (snd (fst s) = Some (ainit (pd_oo p)) \/ snd (fst s) = None /\ pd_oo p = repeat (Z.of_nat r) (length (pd_verts p))) /\
     snd s = map (fun v => Z.of_nat (own' v)) (pd_verts p)) ->
  (forall v, In v (map fst V) -> own' v < length ps) ->
  repartition fuel sts (fun sts' => exists ps', length ps' = length ps /\ length sts' = length ps /\ distributed own' V [E0] ps' /\
    forall r p' s', nth_error ps' r = Some p' -> nth_error sts' r = Some s' -> built_from true r p' s').
Proof.
  intros HD HB L HS HR.
  set (calls := map (fun p => repart_calls (map (fun v => Z.of_nat (own' v)) (pd_verts p)) (length (pd_verts p))) ps).
  assert (PG : forall i s, nth_error sts i = Some s -> exists p, nth_error ps i = Some p).
  { intros i s Hi. destruct (nth_error ps i) eqn:E; eauto. apply nth_error_None in E. assert (i < length sts) by (apply nth_error_Some; congruence). lia. }
  unfold repartition. apply local_intro with (PB := fun i m => forall p cs, nth_error ps i = Some p -> nth_error calls i = Some cs ->
    built_from true i p (mp_g m, mp_oo m) /\ made_plan fuel (mp_g m) cs (mp_plan m) /\ forall o, In o cs -> call_ok (mp_g m) (length ps) o).
  - intros i ((g, oo), partition) Hi. destruct (PG _ _ Hi) as (p & Hp). destruct (HS i p _ Hp Hi) as (B & Ho & Ep). cbn [fst snd] in *.
    pose proof HD as (_ & _ & HH). destruct (HH i p Hp) as (HV & Lo & _).
    destruct (repart_plan_ok true fuel i p g oo partition (length ps) B HV) as (m & Em & B' & Eg & Mp & Hok); auto.
    + apply (fuel_global own V [E0] ps fuel p HD HB). eapply nth_error_In; eauto.
    + rewrite Ep. apply map_length.
    + rewrite Ep. intros d Hd'. apply in_map_iff in Hd' as (v & <- & Hv). pose proof (in_verts own V E0 [] ps HD i p v Hp) as IV. apply IV in Hv as (Hv & _). specialize (HR v Hv). lia.
    + exists m. split; auto. intros p' cs Hp' Hcs. assert (p' = p) by congruence. subst p'. unfold calls in Hcs. rewrite nth_error_map, Hp in Hcs. cbn in Hcs. inversion Hcs; subst cs. rewrite Eg in *. rewrite <- Ep. auto.
  - intros mps Lm HM. apply (one_step own own' V E0 ps calls mps fuel HD); auto.
    + split; [congruence|]. split; [unfold calls; now rewrite map_length|]. intros r p cs s Hp Hc Hs. apply (HM r s Hs p cs Hp Hc).
    + intros r p cs l v Hp Hc Hl. unfold calls in Hc. rewrite nth_error_map, Hp in Hc. cbn in Hc. inversion Hc; subst cs.
      rewrite planned_repart by (apply nth_error_Some; congruence). rewrite (nth_error_nth _ _ _ (map_nth_error (fun v => Z.of_nat (own' v)) _ _ Hl)). reflexivity.
Qed.
