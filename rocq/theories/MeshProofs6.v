(** The weights of the ghosts of a mesh graph. *)
From Verif Require Import Base GraphModel CsrProofs ConstructProofs AccessProofs Comm TagModel TagProps MigrateModel MigrateProofs1 MeshModel MeshProofs1 MeshProofs2 MeshProofs3 MeshProofs4 MeshProofs5.

Lemma mapM_by_nth A B (f : A -> option B) l l' : length l = length l' -> (forall i x y, nth_error l i = Some x -> nth_error l' i = Some y -> f x = Some y) -> mapM f l = Some l'.
Proof.
  revert l'. induction l as [|x l IH]; intros [|y l'] L H; cbn in L; try lia; [reflexivity|]. cbn [mapM]. rewrite (H 0 x y eq_refl eq_refl). cbn [obind]. rewrite (IH l'); [reflexivity|lia|]. intros i. exact (H (S i)).
Qed.
Lemma own_at ms hss p a g j o : AInv ms hss p a -> finish a = Some g -> nth_error (a_own a) j = Some o -> owner g (S (length (verts_of (a_m a)) + j)) = Some o.
Proof.
  intros HI HF Ho. pose proof (Forall2_len _ _ _ _ _ (i_own _ _ _ _ HI)) as L. assert (j < length (a_own a)) by (apply nth_error_Some; congruence).
  unfold owner. cbn [vlid]. rewrite (fin ms hss p a g HI HF). cbn [nlv ngv owners]. destruct (Nat.leb_spec (length (verts_of (a_m a)) + length (a_gh a)) (length (verts_of (a_m a)) + j)); [lia|].
  destruct (Nat.ltb_spec (length (verts_of (a_m a)) + j) (length (verts_of (a_m a)))); [lia|]. rewrite aget_ainit. rewrite <- Ho. f_equal. lia.
Qed.
Section Weights.
Variable ms : list pmesh.
Variable hss : list (list hdim).
Hypothesis HO : owned_once ms.
Variable sts : list ast.
Variable gs : list graph.
Variable fuel : nat.
Hypothesis HL : length sts = length ms.
Hypothesis HA : forall p a, nth_error sts p = Some a -> AInv ms hss p a.
Hypothesis HG : mapM finish sts = Some gs.
Hypothesis HF : forall p a, nth_error sts p = Some a -> length (a_gh a) < fuel.

Lemma g_of p g : nth_error gs p = Some g -> exists a, nth_error sts p = Some a /\ finish a = Some g /\ AInv ms hss p a.
Proof.
  intros H. destruct (nth_error sts p) as [a|] eqn:E.
  - destruct (mapM_nth _ _ _ _ _ _ _ HG E) as (y & K1 & K2). exists a. split; auto. split; [congruence|auto].
  - apply nth_error_None in E. apply mapM_length in HG. assert (p < length gs) by (apply nth_error_Some; congruence). lia.
Qed.
Lemma g_at p a : nth_error sts p = Some a -> exists g, nth_error gs p = Some g /\ finish a = Some g.
Proof. intros E. destruct (mapM_nth _ _ _ _ _ _ _ HG E) as (y & K1 & K2). exists y. split; congruence. Qed.
Lemma gs_len : length gs = length ms. Proof. rewrite <- HL. eapply mapM_length; eauto. Qed.

Lemma requests p a g : nth_error sts p = Some a -> finish a = Some g -> ghost_requests g fuel = Some (combine (a_own a) (a_gh a)).
Proof.
  intros Ha Hg. pose proof (HA p a Ha) as HI. unfold ghost_requests. rewrite ghosts_handles by (rewrite (f_ngv ms hss p a g HI Hg); eauto). cbn [obind].
  rewrite (f_ngv ms hss p a g HI Hg), (f_nlv ms hss p a g HI Hg).
  assert (LO : length (a_own a) = length (a_gh a)) by (symmetry; exact (Forall2_len _ _ _ _ _ (i_own _ _ _ _ HI))).
  apply mapM_by_nth.
  - rewrite map_length, seq_length, combine_length. lia.
  - intros j h y Hh Hy. destruct y as (o, v). apply nth_combine2_inv in Hy as (Ho & Hv). assert (Lj : j < length (a_gh a)) by (apply nth_error_Some; congruence).
    rewrite nth_error_map, nth_error_seq in Hh by auto. cbn [option_map] in Hh. assert (E : h = S (length (verts_of (a_m a)) + j)) by congruence. subst h.
    rewrite (f_vgid ms hss p a g HI Hg), nth_error_app2 by lia. replace (length (verts_of (a_m a)) + j - length (verts_of (a_m a))) with j by lia. rewrite Hv. cbn [obind].
    rewrite (own_at ms hss p a g j o HI Hg Ho). reflexivity.
Qed.
Lemma request_in p a o v : nth_error sts p = Some a -> In (o, v) (combine (a_own a) (a_gh a)) -> exists q mq, o = Z.of_nat q /\ nth_error ms q = Some mq /\ In v (verts_of mq) /\ In v (a_gh a).
Proof.
  intros Ha H. apply In_nth_error in H as (j & Hj). apply nth_combine2_inv in Hj as (Ho & Hv). pose proof (HA p a Ha) as HI.
  destruct (Forall2_nth_l _ _ _ _ _ _ _ (i_own _ _ _ _ HI) Hv) as (o' & Ho' & q & mq & E & Hq & I). exists q, mq. split; [congruence|]. split; auto. split; auto. eapply nth_error_In; eauto.
Qed.
Lemma ghost_ok (Q : list (graph * arr Z) -> Prop) :
  (forall rs, length rs = length gs -> (forall p g tag, nth_error rs p = Some (g, tag) -> exists a, nth_error sts p = Some a /\ finish a = Some g /\
     forall j, j < length (a_gh a) -> aget tag j = Some 1%Z) -> Q rs) -> ghost_weights fuel gs Q.
Proof.
  intros HQ. unfold ghost_weights.
  apply (phase_intro _ _ _ _ _ _ (fun p ga => exists a, nth_error sts p = Some a /\ finish a = Some (fst ga) /\
    forall r v x, In (r, (v, x)) (snd ga) <-> x = 1%Z /\ exists i b, r = Z.of_nat i /\ nth_error sts i = Some b /\ In (Z.of_nat p, v) (combine (a_own b) (a_gh b)))).
  - intros p g Hg. destruct (g_of p g Hg) as (a & Ha & Fa & HI). exists (combine (a_own a) (a_gh a)). split; [eapply requests; eauto|].
    intros (o, v) I. destruct (request_in p a o v Ha I) as (q & mq & -> & Hq & _). cbn [fst]. rewrite gs_len. assert (q < length ms) by (apply nth_error_Some; congruence). lia.
  - intros sent rcv E D p g r Hg Hr. destruct (g_of p g Hg) as (a & Ha & Fa & HI).
    assert (IN : forall s v, In (s, v) r <-> exists i b, s = Z.of_nat i /\ nth_error sts i = Some b /\ In (Z.of_nat p, v) (combine (a_own b) (a_gh b))).
    { intros s v. rewrite (arrived_in _ _ _ _ _ _ _ _ _ _ E D Hr). split.
      - intros (i & gi & l & H1 & H2 & H3 & H4). destruct (g_of i gi H1) as (b & Hb & Fb & _). rewrite (requests i b gi Hb Fb) in H2. exists i, b. split; auto. split; auto. congruence.
      - intros (i & b & H1 & H2 & H3). destruct (g_at i b H2) as (gi & Hi & Fb). exists i, gi, (combine (a_own b) (a_gh b)). split; auto. split; [eapply requests; eauto|auto]. }
    assert (W : forall s v, In (s, v) r -> vweight g (getVertex (mapped g v)) = Some 1%Z).
    { intros s v I. apply IN in I as (i & b & -> & Hb & I). destruct (request_in i b _ v Hb I) as (q & mq & Eq & Hq & Iv & _). apply Nat2Z.inj in Eq. subst q. pose proof (i_m _ _ _ _ HI) as Hm. assert (mq = a_m a) by congruence. subst mq.
      apply In_nth_error in Iv as (l & Hl). assert (M : mapped g v = l). { unfold mapped. rewrite (fin ms hss p a g HI Fa). cbn [vmap]. rewrite (proj2 (i_vm _ _ _ _ HI v l)); auto. rewrite nth_error_app1; auto. apply nth_error_Some. congruence. }
      rewrite M. unfold getVertex. rewrite Nat.add_1_r. apply (f_weight ms hss p a g HI Fa). apply nth_error_Some. congruence. }
    unfold ghost_answers. assert (EM : mapM (fun r : Z * Z => val <- vweight g (getVertex (mapped g (snd r)));; Some (fst r, (snd r, val))) r = Some (map (fun r => (fst r, (snd r, 1%Z))) r)).
    { clear - W. induction r as [|(s, v) r IH]; [reflexivity|]. cbn [mapM map fst snd]. rewrite (W s v) by (cbn; auto). cbn [obind]. rewrite IH; [reflexivity|]. intros; eapply W; right; eauto. }
    rewrite EM. cbn [obind]. eexists. split; [reflexivity|]. exists a. cbn [fst snd]. split; auto. split; auto. intros s v x. rewrite in_map_iff. split.
    + intros ((s', v') & E' & I). cbn [fst snd] in E'. inversion E'; subst. split; auto. now apply IN.
    + intros (-> & K). apply IN in K. exists (s, v). auto.
  - intros gas LG HGA. apply (phase_intro _ _ _ _ _ _ (fun p gt => exists a, nth_error sts p = Some a /\ finish a = Some (fst gt) /\ forall j, j < length (a_gh a) -> aget (snd gt) j = Some 1%Z)).
    + intros p (g, ans) H. destruct (HGA p _ H) as (a & Ha & Fa & I). exists ans. split; [reflexivity|]. intros (s, (v, x)) K. cbn [fst snd] in *. apply I in K as (_ & i & b & -> & Hb & _). rewrite LG, gs_len, <- HL. assert (i < length sts) by (apply nth_error_Some; congruence). lia.
    + intros sent rcv E D p (g, ans) r H Hr. destruct (HGA p _ H) as (a & Ha & Fa & _). cbn [fst snd] in *. pose proof (HA p a Ha) as HI.
      assert (IN : forall s v x, In (s, (v, x)) r <-> x = 1%Z /\ exists q, s = Z.of_nat q /\ q < length ms /\ In (Z.of_nat q, v) (combine (a_own a) (a_gh a))).
      { intros s v x. rewrite (arrived_in _ _ _ _ _ _ _ _ _ _ E D Hr). split.
        - intros (i & (gi, ai) & l & H1 & H2 & H3 & H4). cbn [snd] in H2. assert (ai = l) by congruence. subst l. destruct (HGA i _ H1) as (b & Hb & Fb & I). cbn [fst snd] in *. apply I in H4 as (-> & p' & a' & Ep & Ha' & K). apply Nat2Z.inj in Ep. subst p'. assert (a' = a) by congruence. subst a'.
          split; auto. exists i. split; auto. split; auto. rewrite <- HL. apply nth_error_Some. congruence.
        - intros (-> & q & -> & Lq & I). assert (Hq : q < length gas) by (rewrite LG, gs_len; auto). apply nth_error_Some in Hq. destruct (nth_error gas q) as [(gq, aq)|] eqn:Eq; [|congruence]. destruct (HGA q _ Eq) as (b & Hb & Fb & J). cbn [fst snd] in *.
          exists q, (gq, aq), aq. split; auto. split; auto. split; auto. apply J. split; auto. exists p, a. auto. }
      assert (B : forall s v x, In (s, (v, x)) r -> x = 1%Z /\ exists j, nth_error (a_gh a) j = Some v /\ mapped g v = nlv g + j /\ j < ngv g).
      { intros s v x I. apply IN in I as (-> & q & -> & _ & I). split; auto. apply In_nth_error in I as (j & Hj). apply nth_combine2_inv in Hj as (_ & Hv). exists j. split; auto. rewrite (fin ms hss p a g HI Fa). cbn [nlv ngv]. split; [|apply nth_error_Some; congruence].
        unfold mapped. cbn [vmap]. rewrite (proj2 (i_vm _ _ _ _ HI v (length (verts_of (a_m a)) + j))); auto. rewrite nth_error_app2 by lia. rewrite <- Hv. f_equal. lia. }
      set (ws := map (fun m : Z * (Z * Z) => (mapped g (fst (snd m)) - nlv g, snd (snd m))) r).
      destruct (writes_array ws (anew (ngv g))) as (tag & Et & Lt & Gt).
      { intros w Hw. apply in_map_iff in Hw as ((s, (v, x)) & <- & Hin). cbn [fst snd]. destruct (B s v x Hin) as (_ & j & _ & M & Lj). rewrite anew_length. lia. }
      assert (EI : ghost_install g r = Some tag).
      { rewrite <- Et. unfold ghost_install, ws. rewrite foldM_map_l. apply foldM_ext_in. intros b (s, (v, x)) Hin. cbn [fst snd]. destruct (B s v x Hin) as (_ & j & _ & M & Lj). unfold getVertex. rewrite Nat.add_1_r. cbn [vlid obind].
        destruct (Nat.ltb_spec (mapped g v) (nlv g)); [lia|reflexivity]. }
      rewrite EI. cbn [obind]. eexists. split; [reflexivity|]. exists a. cbn [fst snd]. split; auto. split; auto. intros j Lj.
      assert (NG : ngv g = length (a_gh a)) by (now rewrite (fin ms hss p a g HI Fa)). rewrite Gt by (rewrite anew_length; lia). rewrite aget_anew. apply (last_unique j ws 1%Z).
      * intros y Hy. apply in_map_iff in Hy as ((s', (v', x')) & Ey & Hin'). cbn [fst snd] in Ey. destruct (B _ _ _ Hin') as (-> & _). congruence.
      * apply nth_error_Some in Lj. destruct (nth_error (a_gh a) j) as [v|] eqn:Ev; [|congruence]. destruct (Forall2_nth_l _ _ _ _ _ _ _ (i_own _ _ _ _ HI) Ev) as (o & Ho & q & mq & -> & Hq & I).
        assert (Hin : In (Z.of_nat q, (v, 1%Z)) r). { apply IN. split; auto. exists q. split; auto. split; [apply nth_error_Some; congruence|]. eapply nth_error_In. exact (nth_combine2 _ _ _ _ _ _ _ Ho Ev). }
        destruct (B _ _ _ Hin) as (_ & j' & Hj' & M & _). assert (j' = j).
        { pose proof (i_nd _ _ _ _ HI) as N. apply NoDup_app_iff in N as (_ & N & _). eapply NoDup_nth_error_inj; eauto. }
        subst j'. exists 1%Z. apply in_map_iff. exists (Z.of_nat q, (v, 1%Z)). split; auto. cbn [fst snd]. f_equal. lia.
    + intros rs L HR. apply HQ; [congruence|]. intros p g tag H. destruct (HR p _ H) as (a & K1 & K2 & K3). exists a. auto.
Qed.
End Weights.
