(** The steps of migrate on one part of a hypergraph. *)
From Verif Require Import Base GraphModel CsrProofs ConstructProofs GraphSpec AccessProofs AccessProofs2 Comm TagModel TagProps MigrateModel MigrateSpec MigrateProofs1.

Lemma mapM_map X Y W (f : Y -> option W) (k : X -> Y) l : mapM f (map k l) = mapM (fun x => f (k x)) l.
Proof. induction l as [|x l IH]; cbn; auto. destruct (f (k x)); cbn; auto. now rewrite IH. Qed.
Lemma mapM_ext_in X Y (f f' : X -> option Y) l : (forall x, In x l -> f x = f' x) -> mapM f l = mapM f' l.
Proof. induction l as [|x l IH]; intros H; cbn; auto. rewrite H by (cbn; auto). destruct (f' x); cbn; auto. rewrite IH; auto. intros; apply H; cbn; auto. Qed.

(** an edge record with the owners given by f *)
Definition Mk (f : Z -> Z) (e : edge_input * Z) : medge :=
  mkME (fst (fst e)) (snd e) (length (snd (fst e))) (snd (fst e)) (map f (snd (fst e))).

Section Part.
Variables (g : graph) (verts wts ghosts : list Z) (tys : list (list (Z * list Z) * list Z)) (ow : Z -> Z) (r : nat) (oo : list Z).
Hypothesis HR : Rep g verts wts ghosts tys.
Hypothesis HO : RepO g ghosts ow.
Hypothesis HH : hyper g = true.
Hypothesis HS : self g = Z.of_nat r.
Hypothesis HL : length oo = length verts.
Notation all := (verts ++ ghosts).
Notation hd v := (S (idx (verts ++ ghosts) v)).

(** the plan after cleanup: it sends the vertices mv, each v to dst v *)
Record PlanV (plan : mplan) (mv : list Z) (dst : Z -> nat) : Prop := mkPlanV {
  plv_send : pl_sending plan = map (fun v => hd v) mv;
  plv_nd : NoDup mv;
  plv_in : incl mv verts;
  plv_get : forall v, In v verts -> aget (pl_dest plan) (idx all v) = Some (if memZ v mv then Z.of_nat (dst v) else (-1)%Z) }.

Lemma nlv_v : nlv g = length verts. Proof. apply HR. Qed.
Lemma idx_local v : In v verts -> idx all v < length verts.
Proof. intros H. rewrite idx_app by auto. now apply idx_lt. Qed.
Lemma idx_ghost v : In v ghosts -> length verts <= idx all v.
Proof.
  intros H. destruct (Nat.lt_ge_cases (idx all v) (length verts)) as [L|]; auto. exfalso.
  pose proof (idx_nth all v ltac:(apply in_app_iff; auto)) as E. rewrite nth_error_app1 in E by auto. apply nth_error_In in E.
  pose proof (rp_nd _ _ _ _ _ HR) as ND. apply NoDup_app_iff in ND as (_ & _ & ND). exact (ND v E H).
Qed.
Lemma has_v plan mv dst v : PlanV plan mv dst -> In v all -> plan_has g plan (hd v) = Some (memZ v mv).
Proof.
  intros [_ _ Hin Hget] Hv. unfold plan_has. cbn [vlid obind]. rewrite nlv_v.
  destruct (in_dec Z.eq_dec v verts) as [I|N].
  - pose proof (idx_local v I) as L. destruct (Nat.ltb_spec (idx all v) (length verts)); [|lia].
    unfold get_vtag. cbn [vlid obind]. rewrite nlv_v. destruct (Nat.leb_spec (length verts) (idx all v)); [lia|].
    rewrite Hget by auto. cbn [obind]. destruct (memZ v mv); auto.
    destruct (Z.eqb_spec (Z.of_nat (dst v)) (-1)); [lia|reflexivity].
  - apply in_app_iff in Hv as [|Hg]; [contradiction|]. pose proof (idx_ghost v Hg). destruct (Nat.ltb_spec (idx all v) (length verts)); [lia|].
    destruct (memZ v mv) eqn:E; auto. apply memZ_In in E. apply Hin in E. contradiction.
Qed.
Lemma get_v plan mv dst v : PlanV plan mv dst -> In v mv -> plan_get g plan (hd v) = Some (Z.of_nat (dst v)).
Proof.
  intros [_ _ Hin Hget] Hv. unfold plan_get, get_vtag. cbn [vlid obind]. rewrite nlv_v. pose proof (idx_local v (Hin v Hv)).
  destruct (Nat.leb_spec (length verts) (idx all v)); [lia|]. rewrite Hget by auto.
  apply memZ_In in Hv. now rewrite Hv.
Qed.

(* ------- cleanup ------- *)
Lemma fm_put_new m l d : fm_get m l = None -> fm_put m l d = m ++ [(l, d)].
Proof. induction m as [|(k, x) m IH]; cbn; auto. destruct (Nat.eqb_spec k l); [discriminate|]. intros H. now rewrite IH. Qed.

Lemma cleanup_fold plan m : PInv g plan m -> forall l m0 p0,
  (forall e, In e l -> fm_get m (fst e) = Some (snd e) /\ fst e < nlv g) -> PInv g p0 m0 ->
  NoDup (map fst m0 ++ map fst l) ->
  exists p', foldM (fun p h => d <- plan_get g plan h ;; if Z.eqb d (self g) then Some p else '(p', _) <- plan_insert g p h d ;; Some p')
     (map (fun e => getVertex (fst e)) l) p0 = Some p' /\ PInv g p' (m0 ++ filter (fun e => negb (Z.eqb (snd e) (self g))) l).
Proof.
  intros HI. induction l as [|e l IH]; intros m0 p0 Hl H0 ND.
  - cbn [map foldM filter]. rewrite app_nil_r. eauto.
  - cbn [map foldM filter]. destruct (Hl e (or_introl eq_refl)) as (Hg & Hlt). destruct e as (k, d). cbn [fst snd] in *.
    pose proof HI as (_ & _ & _ & N1 & A). unfold plan_get at 1. rewrite (get_vtag_local g _ k Hlt), A, Hg by auto. cbn [obind].
    destruct (Z.eqb_spec d (self g)) as [->|Ne]; cbn [negb].
    + apply IH; auto; [intros; apply Hl; cbn; auto|]. cbn [map] in ND. apply NoDup_remove_1 in ND. exact ND.
    + assert (Hd : d <> (-1)%Z) by (intros ->; apply (N1 k); auto).
      destruct (inv_insert g p0 m0 k d H0 Hlt Hd) as (p1 & -> & I1). cbn [obind].
      assert (Nk : fm_get m0 k = None).
      { apply fm_get_in. intros Hin. cbn [map fst] in ND. apply NoDup_remove_2 in ND. apply ND, in_app_iff. auto. }
      rewrite (fm_put_new _ _ _ Nk) in I1. destruct (IH (m0 ++ [(k, d)]) p1) as (p' & E & I'); auto.
      * intros; apply Hl; cbn; auto.
      * rewrite map_app, <- app_assoc. cbn [map app fst]. exact ND.
      * exists p'. split; auto. now rewrite <- app_assoc in I'.
Qed.
Lemma PInv_nil fuel : length verts < fuel -> exists p0, plan_new g fuel = Some p0 /\ PInv g p0 [].
Proof.
  intros Hf. unfold plan_new. destruct (Nat.eqb_spec (nlv g) 0) as [Z0|NZ].
  - eexists. split; [reflexivity|]. split; [now cbn|]. split; [reflexivity|]. split; [intros l Hl; destruct Hl|]. split; [discriminate|]. intros; lia.
  - cbn [create_tag obind]. rewrite (all_verts_ok _ _ _ _ _ HR) by auto. cbn [obind].
    rewrite <- nlv_v.
    destruct (writes_array (map (fun l => (l, (-1)%Z)) (seq 0 (nlv g))) (anew (nlv g))) as (a & E & La & G).
    { intros w Hw. apply in_map_iff in Hw as (e & <- & He). cbn. rewrite anew_length. apply in_seq in He. lia. }
    rewrite (foldM_map_l _ (fun l => (l, (-1)%Z))) in E. rewrite (foldM_map_l _ S).
    replace (foldM (fun s x => set_vtag s (S x) (-1)%Z) (seq 0 (nlv g)) (anew (nlv g))) with (Some a) by (rewrite <- E; apply foldM_ext_in; reflexivity).
    cbn [obind]. eexists. split; [reflexivity|]. split; [cbn; rewrite La; apply anew_length|]. split; [reflexivity|]. split; [intros l Hl; destruct Hl|]. split; [discriminate|].
    intros l Hl. cbn [pl_dest fm_get]. rewrite G by (rewrite anew_length; auto). rewrite aget_anew. apply (last_unique l (map (fun l => (l, (-1)%Z)) (seq 0 (nlv g))) (-1)%Z).
    + intros y Hy. apply in_map_iff in Hy as (z & Ez & _). congruence.
    + exists (-1)%Z. apply in_map_iff. exists l. split; auto. apply in_seq. lia.
Qed.
Lemma fm_get_nodup m : NoDup (map fst m) -> forall e, In e m -> fm_get m (fst e) = Some (snd e).
Proof.
  induction m as [|(k, d) m IH]; intros ND e He; [destruct He|]. destruct He as [<-|He]; cbn [fm_get fst snd].
  - now rewrite Nat.eqb_refl.
  - inversion ND; subst. destruct (Nat.eqb_spec k (fst e)) as [->|]; [exfalso; apply H1; now apply in_map|auto].
Qed.
Lemma fm_get_some_in m l d : fm_get m l = Some d -> In (l, d) m.
Proof. induction m as [|(k, x) m IH]; cbn; [discriminate|]. destruct (Nat.eqb_spec k l) as [->|]; [intros E; inversion E; auto|auto]. Qed.

Lemma cleanup_ok fuel plan m (dst : Z -> nat) : length verts < fuel -> PInv g plan m -> NoDup (map fst m) ->
  (forall l v, nth_error verts l = Some v -> match fm_get m l with Some d => d = Z.of_nat (dst v) | None => dst v = r end) ->
  exists plan' mv, mig_cleanup fuel (mkMP g (ainit oo) plan) = Some (mkMP g (ainit oo) plan') /\ PlanV plan' mv dst /\
    forall v, In v mv <-> In v verts /\ dst v <> r.
Proof.
  intros Hf HI ND HD. destruct (PInv_nil fuel Hf) as (p0 & E0 & I0).
  assert (K : forall e, In e m -> fst e < nlv g) by (intros e He; destruct HI as (_ & _ & K & _); apply K; now apply in_map).
  destruct (cleanup_fold plan m HI m [] p0) as (p' & E' & I'); auto.
  { intros e He. split; [now apply fm_get_nodup|auto]. }
  set (m' := filter (fun e => negb (Z.eqb (snd e) (self g))) m) in *. cbn [app] in I'.
  exists p', (map (fun e => nth (fst e) verts 0%Z) m').
  assert (NV : forall l, l < nlv g -> nth_error verts l = Some (nth l verts 0%Z)).
  { intros l Hl. apply nth_error_nth'. now rewrite <- nlv_v. }
  assert (NDv : NoDup verts) by (pose proof (rp_nd _ _ _ _ _ HR) as N; apply NoDup_app_iff in N; tauto).
  assert (IX : forall l, l < nlv g -> idx all (nth l verts 0%Z) = l).
  { intros l Hl. apply nth_idx; [apply HR|]. rewrite nth_error_app1 by (rewrite <- nlv_v; auto). auto. }
  assert (MM : forall v, In v (map (fun e => nth (fst e) verts 0%Z) m') <-> In v verts /\ dst v <> r).
  { intros v. split.
    - intros H. apply in_map_iff in H as (e & <- & He). apply filter_In in He as (He & Hne). pose proof (K e He) as Hk.
      pose proof (NV _ Hk) as Hn. split; [eapply nth_error_In; eauto|]. specialize (HD _ _ Hn). rewrite (fm_get_nodup m ND e He) in HD.
      apply negb_true_iff, Z.eqb_neq in Hne. rewrite HS in Hne. lia.
    - intros (Hv & Hne). apply In_nth_error in Hv as (l & Hl). specialize (HD l v Hl).
      assert (Ll : l < nlv g) by (rewrite nlv_v; apply nth_error_Some; congruence).
      destruct (fm_get m l) as [d|] eqn:Eg; [|contradiction]. apply fm_get_some_in in Eg. subst d.
      apply in_map_iff. exists (l, Z.of_nat (dst v)). split; [cbn [fst]; rewrite NV in Hl by auto; congruence|].
      apply filter_In. split; auto. cbn [snd]. apply negb_true_iff, Z.eqb_neq. rewrite HS. lia. }
  split; [|split; [constructor|exact MM]].
  - unfold mig_cleanup. cbn [mp_g mp_oo mp_plan]. rewrite E0. cbn [obind]. destruct HI as (_ & -> & _). rewrite E'. reflexivity.
  - destruct I' as (_ & -> & _). rewrite map_map. apply map_ext_in. intros e He. apply filter_In in He as (He & _). rewrite IX by auto. unfold getVertex. lia.
  - assert (N2 : NoDup (map fst m')) by (apply NoDup_filter_map; auto).
    assert (Q : forall e, In e m' -> fst e < nlv g) by (intros e He; apply filter_In in He as (He & _); auto).
    clear - N2 Q IX. induction m' as [|e m' IH]; cbn; [constructor|]. cbn in N2. inversion N2; subst. constructor.
    + intros Hin. apply in_map_iff in Hin as (e' & Ee & He'). apply H1. assert (fst e' = fst e).
      { rewrite <- (IX (fst e)), <- (IX (fst e')), Ee; auto; apply Q; cbn; auto. }
      rewrite <- H. now apply in_map.
    + apply IH; auto. intros; apply Q; cbn; auto.
  - intros v Hv. apply MM in Hv. tauto.
  - intros v Hv. destruct I' as (_ & _ & _ & _ & A). rewrite A by (rewrite nlv_v; now apply idx_local). f_equal.
    apply In_nth_error in Hv as (l & Hl). assert (Ll : l < nlv g) by (rewrite nlv_v; apply nth_error_Some; congruence).
    assert (Ev : v = nth l verts 0%Z) by (rewrite NV in Hl; congruence).
    assert (Ei : idx all v = l) by (rewrite Ev; auto). rewrite Ei. pose proof (HD l v Hl) as D.
    destruct (memZ v (map (fun e => nth (fst e) verts 0%Z) m')) eqn:Em.
    + apply memZ_In, MM in Em as (_ & Hne). destruct (fm_get m l) as [d|] eqn:Eg; [|contradiction]. subst d.
      assert (Hin : In (l, Z.of_nat (dst v)) m').
      { apply filter_In. split; [now apply fm_get_some_in|]. cbn. apply negb_true_iff, Z.eqb_neq. rewrite HS. lia. }
      assert (N2 : NoDup (map fst m')) by (apply NoDup_filter_map; auto).
      now rewrite (fm_get_nodup m' N2 _ Hin : fm_get m' l = _).
    + destruct (fm_get m' l) as [d|] eqn:Eg; auto. exfalso. apply fm_get_some_in in Eg.
      assert (In v (map (fun e => nth (fst e) verts 0%Z) m')) by (apply in_map_iff; exists (l, d); cbn; auto).
      apply memZ_In in H. congruence.
Qed.

(* ------- updateGhostOwners ------- *)
Variables (es : list (Z * list Z)) (ws : list Z).
Hypothesis H0 : nth_error tys 0 = Some (es, ws).
Hypothesis HWL : length ws = length es.
Definition own_now (v : Z) : Z := if memZ v verts then Z.of_nat r else ow v.
Lemma owner_v v : In v all -> owner g (hd v) = Some (own_now v).
Proof. intros H. rewrite (owner_ok _ _ _ _ _ _ HR HO v H). unfold owner_spec, own_now. now rewrite HS. Qed.
Lemma vgid_v v : In v all -> vgid g (hd v) = Some v.
Proof. apply (vgid_idx _ _ _ _ _ HR). Qed.
Lemma incident_in v i : In i (incident v es) <-> exists e, nth_error es i = Some e /\ In v (snd e).
Proof.
  unfold incident. rewrite in_flat_map. split.
  - intros ((k, e) & Hc & Hr). cbn [fst snd] in Hr.
    assert (i = k /\ In v (snd e)) as (-> & Hv).
    { destruct (count_occ Z.eq_dec (snd e) v) eqn:Ec; [destruct Hr|]. split; [now apply repeat_spec in Hr|]. apply (count_occ_In Z.eq_dec). lia. }
    exists e. split; auto. apply In_nth_error in Hc as (m & Hm).
    assert (G : forall (l : list edge_input) a m, nth_error (combine (seq a (length l)) l) m = Some (k, e) -> k = a + m /\ nth_error l m = Some e).
    { clear. induction l as [|x l IH]; intros a [|m] E; cbn in *; try discriminate. - inversion E; subst. split; [lia|auto]. - apply IH in E as (-> & E). split; [lia|auto]. }
    apply G in Hm as (-> & Hm). exact Hm.
  - intros (e & He & Hv). exists (i, e). split.
    + assert (G : forall (l : list edge_input) a i e, nth_error l i = Some e -> In (a + i, e) (combine (seq a (length l)) l)).
      { clear. induction l as [|x l IH]; intros a [|m] e E; cbn in *; try discriminate. - inversion E; subst. rewrite Nat.add_0_r. auto.
        - right. specialize (IH (S a) m e E). now replace (a + S m) with (S a + m) by lia. }
      apply (G es 0 i e He).
    + cbn [fst snd]. apply (count_occ_In Z.eq_dec) in Hv. destruct (count_occ Z.eq_dec (snd e) v); [lia|]. left. reflexivity.
Qed.
Lemma pins_all e v : In e es -> In v (snd e) -> In v all.
Proof.
  intros He Hv. apply In_nth_error in He as (i & Hi). destruct e as (gid, ps). eapply (pins_in_all _ _ _ _ _ HR 0 es ws i gid ps); eauto.
Qed.

Lemma upd_send_ok fuel plan mv dst : PlanV plan mv dst ->
  (forall v, length (flat_map (fun i => match nth_error es i with Some e => snd e | None => [] end) (incident v es)) < fuel) ->
  exists ms, upd_send fuel (mkMP g (ainit oo) plan) = Some ms /\
   forall d x, In (d, x) ms <-> exists v o e, In v mv /\ In e es /\ In v (snd e) /\ In o (snd e) /\ own_now o <> Z.of_nat r /\ d = own_now o /\ x = (v, Z.of_nat (dst v)).
Proof.
  intros HP Hf. unfold upd_send. cbn [mp_g mp_plan].
  set (nb := fun v => flat_map (fun i => match nth_error es i with Some e => snd e | None => [] end) (incident v es)) in *.
  assert (Nin : forall v o, In o (nb v) <-> exists e, In e es /\ In v (snd e) /\ In o (snd e)).
  { intros v o. unfold nb. rewrite in_flat_map. split.
    - intros (i & Hi & Ho). apply incident_in in Hi as (e & He & Hv). rewrite He in Ho. exists e. split; [eapply nth_error_In; eauto|auto].
    - intros (e & He & Hv & Ho). apply In_nth_error in He as (i & Hi). exists i. rewrite Hi. split; auto. apply incident_in. eauto. }
  rewrite (plv_send _ _ _ HP), mapM_map.
  rewrite mapM_some with (h := fun v => filter (fun m => negb (Z.eqb (fst m) (self g))) (map (fun o => (own_now o, (v, Z.of_nat (dst v)))) (nb v))).
  - cbn [obind]. eexists. split; [reflexivity|]. intros d x. rewrite in_concat. split.
    + intros (l & Hl & Hin). apply in_map_iff in Hl as (v & <- & Hv). apply filter_In in Hin as (Hin & Hne). cbn [fst] in Hne.
      apply in_map_iff in Hin as (o & Eo & Ho). inversion Eo; subst d x. apply Nin in Ho as (e & He & Hve & Hoe).
      apply negb_true_iff, Z.eqb_neq in Hne. exists v, o, e. rewrite <- HS. auto 10.
    + intros (v & o & e & Hv & He & Hve & Hoe & Hne & -> & ->). eexists. split; [apply in_map; exact Hv|]. apply filter_In. split.
      * apply in_map_iff. exists o. split; auto. apply Nin. eauto.
      * cbn. apply negb_true_iff, Z.eqb_neq. now rewrite HS.
  - intros v Hv. pose proof (plv_in _ _ _ HP v Hv) as Hin. rewrite vgid_v by (apply in_app_iff; auto). cbn [obind].
    rewrite (get_v plan mv dst v HP Hv). cbn [obind].
    assert (Ev : nth_error verts (idx all v) = Some v).
    { rewrite idx_app by auto. now apply idx_nth. }
    pose proof (adjacent_hyper _ _ _ _ _ HR 0 es ws H0 (idx all v) fuel HH (idx_local v Hin)) as A. cbv zeta in A.
    assert (Eo : vals_of (idx all v) (occ_of g verts ghosts es) = incident v es).
    { unfold occ_of, epins_of, incident. rewrite HH. apply vals_of_occs_hyper; [apply HR| |apply idx_local; auto|].
      - apply idx_nth. apply in_app_iff; auto.
      - intros w Hw. apply in_concat in Hw as (ps & Hps & Hw). apply in_map_iff in Hps as (e & <- & He). eapply pins_all; eauto. }
    rewrite Eo in A. change (flat_map (pins_at es) (incident v es)) with (nb v) in A. rewrite A by (apply (Hf v)). cbn [obind].
    rewrite mapM_map. rewrite mapM_some with (h := fun o => (own_now o, (v, Z.of_nat (dst v)))); [reflexivity|].
    intros o Ho. apply Nin in Ho as (e & He & _ & Hoe). rewrite owner_v by (eapply pins_all; eauto). reflexivity.
Qed.
End Part.

(** receiving new owners *)
Definition last_val (v : Z) (arr : list (Z * (Z * Z))) (o : Z) : Z :=
  fold_left (fun acc m => if Z.eqb (fst (snd m)) v then snd (snd m) else acc) arr o.
Lemma last_val_spec v arr o :
  (exists s x, In (s, (v, x)) arr /\ last_val v arr o = x) \/ ((forall s x, ~ In (s, (v, x)) arr) /\ last_val v arr o = o).
Proof.
  revert o. induction arr as [|(s, (w, x)) arr IH]; intros o; cbn; [right; auto|].
  destruct (IH (if (w =? v)%Z then x else o)) as [(s' & x' & Hin & E)|(N & E)].
  - left. exists s', x'. split; auto.
  - destruct (Z.eqb_spec w v) as [->|Ne].
    + left. exists s, x. split; [auto|]. exact E.
    + right. split; [|exact E]. intros s' x' [Hx|Hx]; [congruence|]. eapply N; eauto.
Qed.
Lemma upd_recv_ok g verts wts ghosts tys ow oo plan : Rep g verts wts ghosts tys -> RepO g ghosts ow ->
  forall arr, (forall s v x, In (s, (v, x)) arr -> In v ghosts) ->
  exists g', upd_recv (mkMP g oo plan) arr = Some (mkMP g' oo plan) /\ Rep g' verts wts ghosts tys /\
    RepO g' ghosts (fun v => last_val v arr (ow v)) /\ hyper g' = hyper g /\ self g' = self g.
Proof.
  intros HR HO arr H. unfold upd_recv. cbn [mp_g mp_oo mp_plan].
  assert (G : exists g', foldM upd_one arr g = Some g' /\ Rep g' verts wts ghosts tys /\ RepO g' ghosts (fun v => last_val v arr (ow v)) /\ hyper g' = hyper g /\ self g' = self g).
  { revert g ow HR HO. induction arr as [|(s, (v, x)) arr IH]; intros g ow HR HO.
    - exists g. cbn. auto.
    - cbn [foldM]. assert (Hv : In v ghosts) by (eapply H; left; reflexivity).
      assert (Ein : In v (verts ++ ghosts)) by (apply in_app_iff; auto).
      pose proof (idx_ghost _ _ _ _ _ HR v Hv) as Lg. pose proof (idx_nth _ _ Ein) as En.
      assert (Lx : idx (verts ++ ghosts) v < length verts + length ghosts) by (rewrite <- app_length; now apply idx_lt).
      assert (E1 : upd_one g (s, (v, x)) = Some (with_owners g (vmap g) (upd (owners g) (idx (verts ++ ghosts) v - length verts) (Some x)))).
      { unfold upd_one. cbn [snd]. rewrite (proj2 (rp_vm _ _ _ _ _ HR v _) En). rewrite (rp_nlv _ _ _ _ _ HR).
        destruct (Nat.leb_spec (length verts) (idx (verts ++ ghosts) v)); [|lia].
        rewrite aset_some; [reflexivity|]. rewrite HO, ainit_length, map_length. lia. }
      rewrite E1. cbn [obind].
      destruct (IH ltac:(intros; eapply H; right; eauto) (with_owners g (vmap g) (upd (owners g) (idx (verts ++ ghosts) v - length verts) (Some x)))
        (fun w => if Z.eqb v w then x else ow w)) as (g' & E' & R' & O' & Hh & Hs).
      + destruct HR. constructor; auto.
      + unfold RepO. cbn [with_owners owners]. rewrite HO.
        apply nth_error_ext. intros i. unfold ainit. rewrite nth_error_map, nth_error_map.
        set (j := idx (verts ++ ghosts) v - length verts) in *.
        assert (Ej : nth_error ghosts j = Some v).
        { rewrite nth_error_app2 in En by auto. exact En. }
        assert (NDg : NoDup ghosts) by (pose proof (rp_nd _ _ _ _ _ HR) as N; apply NoDup_app_iff in N; tauto).
        destruct (Nat.eq_dec j i) as [<-|Ne].
        * rewrite nth_error_upd_eq by (rewrite !map_length; apply nth_error_Some; congruence). rewrite Ej. cbn. now rewrite Z.eqb_refl.
        * rewrite nth_error_upd_neq by auto. rewrite !nth_error_map. destruct (nth_error ghosts i) as [w|] eqn:Ew; auto. cbn.
          destruct (Z.eqb_spec v w) as [<-|]; auto. exfalso. apply Ne. eapply NoDup_nth_error_inj; eauto.
      + exists g'. split; [exact E'|]. split; [exact R'|]. split; [|split; [rewrite Hh; reflexivity|rewrite Hs; reflexivity]].
        unfold RepO in *. rewrite O'. reflexivity. }
  destruct G as (g' & E & R & O & Hh & Hs). exists g'. rewrite E. cbn [obind]. auto.
Qed.
