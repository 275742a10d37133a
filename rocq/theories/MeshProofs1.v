(** One part of the mesh: the local loops. *)
From Verif Require Import Base GraphModel CsrProofs ConstructProofs AccessProofs Comm TagModel MigrateModel MeshModel ZoltanProps.

(** the graph vertices of a part *)
Definition verts_of (m : pmesh) : list Z := map fst (filter snd (pm_prim m)).
(** the owned primary entities adjacent to an entity *)
Definition adjl (m : pmesh) (e : ment) : list Z := map fst (filter snd (flat_map (fun i => match nth_error (pm_prim m) i with Some x => [x] | None => [] end) (en_adj e))).
Definition gids (h : hdim) : list Z := map (fun x => en_gid (fst x)) (h_ents h).
Definition orows (m : pmesh) (h : hdim) : list (list nat) := map snd (filter (fun x : (Z * bool) * list nat => snd (fst x)) (combine (pm_prim m) (h_down h))).

Lemma owned_adj_ok m e : (forall i, In i (en_adj e) -> i < length (pm_prim m)) -> owned_adj m e = Some (adjl m e).
Proof.
  intros H. unfold owned_adj, adjl.
  assert (E : mapM (nth_error (pm_prim m)) (en_adj e) = Some (flat_map (fun i => match nth_error (pm_prim m) i with Some x => [x] | None => [] end) (en_adj e))).
  { induction (en_adj e) as [|i l IH]; [reflexivity|]. cbn [mapM flat_map]. destruct (nth_error (pm_prim m) i) as [x|] eqn:E.
    - cbn [obind]. rewrite IH by (intros; apply H; cbn; auto). reflexivity.
    - apply nth_error_None in E. specialize (H i (or_introl eq_refl)). lia. }
  now rewrite E.
Qed.
Lemma adjl_in m e v : In v (adjl m e) <-> exists i, In i (en_adj e) /\ nth_error (pm_prim m) i = Some (v, true).
Proof.
  unfold adjl. rewrite in_map_iff. split.
  - intros ((v' & b) & E & H). cbn in E. subst v'. apply filter_In in H as (H & Hb). cbn in Hb. subst b. apply in_flat_map in H as (i & Hi & H).
    exists i. split; auto. destruct (nth_error (pm_prim m) i) as [x|]; [|destruct H]. destruct H as [<-|[]]. reflexivity.
  - intros (i & Hi & E). exists (v, true). split; auto. apply filter_In. split; auto. apply in_flat_map. exists i. split; auto. rewrite E. now left.
Qed.
Lemma adjl_verts m e v : In v (adjl m e) -> In v (verts_of m).
Proof. intros H. apply adjl_in in H as (i & _ & E). unfold verts_of. apply in_map_iff. exists (v, true). split; auto. apply filter_In. split; auto. eapply nth_error_In; eauto. Qed.
Lemma adjl_nodup m e : NoDup (en_adj e) -> (forall i j v, nth_error (pm_prim m) i = Some (v, true) -> nth_error (pm_prim m) j = Some (v, true) -> i = j) -> NoDup (adjl m e).
Proof.
  intros N U. unfold adjl. induction (en_adj e) as [|i l IH]; [constructor|]. inversion N; subst. cbn [flat_map]. rewrite filter_app, map_app.
  destruct (nth_error (pm_prim m) i) as [(v, b)|] eqn:E; [|cbn; auto]. destruct b; [|cbn; auto]. cbn [filter snd map fst app]. constructor; auto.
  intros I. apply in_map_iff in I as ((v' & b) & E' & I). cbn in E'. subst v'. apply filter_In in I as (I & Hb). cbn in Hb. subst b.
  apply in_flat_map in I as (j & Hj & I). destruct (nth_error (pm_prim m) j) as [x|] eqn:Ej; [|destruct I]. destruct I as [->|[]].
  assert (i = j) by (eapply U; eauto). now subst.
Qed.

Lemma MapInv_nil : MapInv [] [].
Proof. intros v k. split; [discriminate|destruct k; discriminate]. Qed.
Lemma upd_repeat A (a b : A) x r : upd (ainit (repeat a x ++ repeat b (S r))) x (Some a) = ainit (repeat a (x + 1) ++ repeat b r).
Proof. induction x as [|x IH]; [reflexivity|]. cbn [repeat app ainit map upd Nat.add]. f_equal. exact IH. Qed.
(** setupPrimary *)
Lemma setupPrimary_ok me m : NoDup (verts_of m) -> exists a, setupPrimary (me, m) = Some a /\ a_me a = me /\ a_m a = m /\ a_n a = length (verts_of m) /\
  a_lun a = ainit (verts_of m) /\ a_lw a = ainit (repeat 1%Z (length (verts_of m))) /\ MapInv (a_vm a) (verts_of m) /\ a_gh a = [] /\ a_own a = [] /\ a_types a = [].
Proof.
  intros N. unfold setupPrimary. cbn [fst snd].
  set (vs := fun pre : list (Z * bool) => map fst (filter snd pre)).
  destruct (foldM_inv prim1 (fun pre s => v_lid s = length (vs pre) /\ v_lun s = ainit (vs pre) ++ anew (length (verts_of m) - length (vs pre)) /\
     v_lw s = ainit (repeat 1%Z (length (vs pre)) ++ repeat 0%Z (length (verts_of m) - length (vs pre))) /\ MapInv (v_vm s) (vs pre))
     (pm_prim m) (mkV 0 (anew (countOwned m)) (ainit (repeat 0%Z (countOwned m))) [])) as (s & E & H1 & H2 & H3 & H4).
  - assert (L : countOwned m = length (verts_of m)) by (unfold countOwned, verts_of; now rewrite map_length). cbn. rewrite L, !Nat.sub_0_r. split; [auto|]. split; [auto|]. split; [auto|]. exact MapInv_nil.
  - intros pre (v, b) post s Hs (H1 & H2 & H3 & H4). unfold prim1. cbn [fst snd].
    assert (V : verts_of m = vs pre ++ vs ((v, b) :: post)) by (unfold verts_of; rewrite Hs; unfold vs; now rewrite filter_app, map_app).
    destruct b; [|exists s; split; [reflexivity|]; replace (vs (pre ++ [(v, false)])) with (vs pre) by (unfold vs; rewrite filter_app, map_app; cbn; now rewrite app_nil_r); auto].
    assert (VS : vs (pre ++ [(v, true)]) = vs pre ++ [v]) by (unfold vs; rewrite filter_app, map_app; reflexivity).
    change (vs ((v, true) :: post)) with (v :: vs post) in V.
    assert (L : length (verts_of m) = length (vs pre) + S (length (vs post))) by (rewrite V, app_length; reflexivity).
    rewrite H3, H1, H2. rewrite aset_some by (rewrite ainit_length, app_length, !repeat_length; lia). cbn [obind].
    rewrite fill_next by lia. cbn [obind]. eexists. split; [reflexivity|]. cbn [v_lid v_lun v_lw v_vm]. rewrite VS, app_length. cbn [length]. split; [reflexivity|]. split; [|split].
    + do 2 f_equal. lia.
    + set (x := length (vs pre)) in *. destruct (length (verts_of m) - x) as [|r] eqn:Er; [lia|]. replace (length (verts_of m) - (x + 1)) with r by lia. apply upd_repeat.
    + apply (MapInv_snoc (v_vm s) (vs pre) v H4). intros I. rewrite V in N. apply NoDup_remove_2 in N. apply N. apply in_or_app. auto.
  - rewrite E. cbn [obind]. eexists. split; [reflexivity|]. cbn [a_me a_m a_n a_lun a_lw a_vm a_gh a_own a_types].
    change (vs (pm_prim m)) with (verts_of m) in *. rewrite H2, H3, Nat.sub_diag. cbn [repeat anew]. rewrite !app_nil_r. unfold countOwned. split; [auto|]. split; [auto|]. split; [unfold verts_of; now rewrite map_length|]. auto 10.
Qed.

(** setupSecondary *)
Lemma setupSecondary_ok h : NoDup (gids h) -> exists s, setupSecondary h = Some s /\ s_un s = ainit (gids h) /\ s_wg s = ainit (map snd (h_ents h)) /\ MapInv (s_em s) (gids h).
Proof.
  intros N. unfold setupSecondary. set (n := length (h_ents h)). set (gs := fun pre : list (ment * Z) => map (fun x => en_gid (fst x)) pre).
  destruct (foldM_inv setEdge1 (fun pre s => s_lid s = length pre /\ s_un s = ainit (gs pre) ++ anew (n - length pre) /\
     s_wg s = ainit (map snd pre) ++ anew (n - length pre) /\ MapInv (s_em s) (gs pre)) (h_ents h) (mkS 0 (anew n) (anew n) [])) as (s & E & H1 & H2 & H3 & H4).
  - cbn. rewrite !Nat.sub_0_r. split; [auto|]. split; [auto|]. split; [auto|]. exact MapInv_nil.
  - intros pre x post s Hs (H1 & H2 & H3 & H4). unfold setEdge1. rewrite H1, H2, H3.
    assert (L : n = length pre + S (length post)) by (unfold n; rewrite Hs, app_length; reflexivity).
    rewrite fill_at by (try lia; unfold gs; now rewrite map_length). cbn [obind]. rewrite fill_at by (try lia; now rewrite map_length). cbn [obind].
    eexists. split; [reflexivity|]. cbn [s_lid s_un s_wg s_em]. rewrite app_length. cbn [length].
    assert (GS : gs (pre ++ [x]) = gs pre ++ [en_gid (fst x)]) by (unfold gs; now rewrite map_app). rewrite GS, map_app. cbn [map].
    assert (Lg : length (gs pre) = length pre) by (unfold gs; now rewrite map_length).
    split; [reflexivity|]. split; [do 2 f_equal; lia|]. split; [do 2 f_equal; lia|].
    rewrite <- Lg. apply MapInv_snoc; auto. intros I. unfold gids in N. rewrite Hs in N. rewrite map_app in N. cbn [map] in N. apply NoDup_remove_2 in N. apply N, in_or_app. auto.
  - exists s. split; auto. unfold n in *. rewrite H2, H3, Nat.sub_diag. cbn [anew repeat]. rewrite !app_nil_r. auto.
Qed.
Lemma em_nth em h k e w : MapInv em (gids h) -> nth_error (h_ents h) k = Some (e, w) -> zfind em (en_gid e) = Some k.
Proof. intros M H. apply M. unfold gids. rewrite nth_error_map, H. reflexivity. Qed.

(** connectToEdges *)
Lemma row_lids_ok em h row : MapInv em (gids h) -> (forall k, In k row -> k < length (h_ents h)) -> row_lids em h row = Some row.
Proof.
  intros M. unfold row_lids. induction row as [|k row IH]; intros H; [reflexivity|]. cbn [mapM].
  destruct (nth_error (h_ents h) k) as [(e, w)|] eqn:E; [|apply nth_error_None in E; specialize (H k (or_introl eq_refl)); lia].
  cbn [obind fst]. rewrite (em_nth em h k e w M E). cbn [obind]. rewrite IH by (intros; apply H; cbn; auto). reflexivity.
Qed.
Lemma connect_ok a m h em : a_m a = m -> a_n a = length (verts_of m) -> length (h_down h) = length (pm_prim m) -> MapInv em (gids h) ->
  (forall row k, In row (h_down h) -> In k row -> k < length (h_ents h)) ->
  (exists gh, MapInv (a_vm a) (verts_of m ++ gh)) -> NoDup (verts_of m) ->
  exists d, connectToEdges a em h = Some (d, concat (orows m h)) /\ length d = a_n a + 1 /\
    forall k, k <= a_n a -> aget d k = Some (nsum (map (@length nat) (firstn k (orows m h)))).
Proof.
  intros Ea En Ld M R (gh & MV) ND. unfold connectToEdges. rewrite aset_some by (rewrite anew_length; lia). cbn [obind]. rewrite Ea.
  set (ro := fun pre : list ((Z * bool) * list nat) => map snd (filter (fun x : (Z * bool) * list nat => snd (fst x)) pre)).
  set (vs := fun pre : list ((Z * bool) * list nat) => map (fun x => fst (fst x)) (filter (fun x : (Z * bool) * list nat => snd (fst x)) pre)).
  assert (VA : vs (combine (pm_prim m) (h_down h)) = verts_of m).
  { unfold vs, verts_of. revert Ld. generalize (h_down h). induction (pm_prim m) as [|(v, b) l IH]; intros [|r d] L; cbn in L; try lia; [reflexivity|].
    cbn [combine filter snd fst]. destruct b; cbn [map fst]; rewrite IH by lia; reflexivity. }
  assert (LA : forall pre, length (ro pre) = length (vs pre)) by (intros; unfold ro, vs; now rewrite !map_length).
  destruct (foldM_inv (edges1 (a_vm a) em h) (fun pre s => snd s = concat (ro pre) /\ length (fst s) = a_n a + 1 /\
      forall k, k <= length (ro pre) -> aget (fst s) k = Some (nsum (map (@length nat) (firstn k (ro pre)))))
      (combine (pm_prim m) (h_down h)) (upd (anew (a_n a + 1)) 0 (Some 0), [])) as ((d & el) & E & H1 & H2 & H3).
  - cbn [fst snd]. split; [reflexivity|]. rewrite upd_length, anew_length. split; [reflexivity|]. intros k Hk. cbn in Hk. assert (k = 0) by lia. subst. apply aget_upd_eq. rewrite anew_length. lia.
  - intros pre ((v, b), row) post (d, el) Hs (H1 & H2 & H3). cbn [fst snd] in *. unfold edges1. cbn [fst snd].
    destruct b.
    2:{ eexists. split; [reflexivity|]. cbn [fst snd]. replace (ro (pre ++ [((v, false), row)])) with (ro pre) by (unfold ro; rewrite filter_app, map_app; cbn; now rewrite app_nil_r). auto. }
    assert (RO : ro (pre ++ [((v, true), row)]) = ro pre ++ [row]) by (unfold ro; rewrite filter_app, map_app; reflexivity).
    assert (V : verts_of m = vs pre ++ v :: vs post) by (rewrite <- VA, Hs; unfold vs; rewrite filter_app, map_app; reflexivity).
    assert (Z1 : zfind (a_vm a) v = Some (length (vs pre))).
    { apply MV. rewrite nth_error_app1 by (rewrite V, app_length; cbn; lia). rewrite V, nth_error_app2 by lia. now rewrite Nat.sub_diag. }
    assert (Ln : a_n a = length (vs pre) + S (length (vs post))) by (rewrite En, V, app_length; reflexivity).
    rewrite Z1. cbn [obind]. rewrite row_lids_ok; auto.
    2:{ intros k Hk. apply (R row); auto. assert (I : In ((v, true), row) (combine (pm_prim m) (h_down h))) by (rewrite Hs; apply in_or_app; right; now left). now apply in_combine_r in I. }
    cbn [obind]. rewrite aset_some by lia. cbn [obind]. eexists. split; [reflexivity|]. cbn [fst snd]. rewrite RO, concat_app. cbn [concat]. rewrite app_nil_r, H1. split; [reflexivity|].
    rewrite upd_length. split; [exact H2|]. intros k Hk. rewrite app_length in Hk. cbn in Hk.
    destruct (Nat.eq_dec k (length (vs pre) + 1)) as [Ek|N].
    + subst k. rewrite aget_upd_eq by lia. f_equal. rewrite firstn_all2 by (rewrite app_length, LA; cbn; lia). rewrite app_length, length_concat, map_app, nsum_app. cbn. lia.
    + rewrite aget_upd_neq by auto. rewrite H3 by (rewrite LA in *; lia). do 3 f_equal. rewrite firstn_app. replace (k - length (ro pre)) with 0 by (rewrite LA in *; lia). cbn. now rewrite app_nil_r.
  - cbn [snd fst] in *. exists d. split; [etransitivity; [exact E|]; now rewrite H1|]. split; [exact H2|]. intros k Hk. change (orows m h) with (ro (combine (pm_prim m) (h_down h))). apply H3. rewrite LA, VA. lia.
Qed.
Lemma orows_len m h : length (h_down h) = length (pm_prim m) -> length (orows m h) = length (verts_of m).
Proof.
  unfold orows, verts_of. rewrite !map_length. generalize (h_down h). induction (pm_prim m) as [|(v, b) l IH]; intros [|r d] L; cbn in L; try lia; [reflexivity|].
  cbn [combine filter snd fst]. destruct b; cbn [length]; rewrite IH by lia; reflexivity.
Qed.

(** counting *)
Definition out1 (me : Z) (m : pmesh) (x : ment * Z) : list (Z * (Z * nat)) :=
  if en_shared (fst x) then map (fun q => (q, (en_gid (fst x), length (adjl m (fst x))))) (others me (fst x)) else [].
Lemma count_ok chk a m h em : a_m a = m -> MapInv em (gids h) -> (forall e w i, In (e, w) (h_ents h) -> In i (en_adj e) -> i < length (pm_prim m)) ->
  exists p, count_local chk a em h = Some (p, flat_map (out1 (a_me a) m) (h_ents h)) /\ length p = length (h_ents h) + 1 /\ aget p 0 = Some 0 /\
    forall k e w, nth_error (h_ents h) k = Some (e, w) -> aget p (k + 1) = Some (length (adjl m e)).
Proof.
  intros Ea M HA. unfold count_local. set (n := length (h_ents h)).
  assert (P0 : exists p0, count_start chk n = Some p0 /\ length p0 = n + 1 /\ aget p0 0 = Some 0 /\ (chk = true -> forall k, k < n -> aget p0 (k + 1) = Some 0)).
  { unfold count_start. destruct chk.
    - eexists. split; [reflexivity|]. rewrite ainit_length, repeat_length. split; [reflexivity|]. split; [rewrite aget_ainit; destruct (n + 1) eqn:E; [lia|reflexivity]|].
      intros _ k Hk. rewrite aget_ainit. apply nth_error_repeat. lia.
    - rewrite aset_some by (rewrite anew_length; lia). eexists. split; [reflexivity|]. rewrite upd_length, anew_length. split; [reflexivity|]. split; [|discriminate]. apply aget_upd_eq. rewrite anew_length. lia. }
  destruct P0 as (p0 & E0 & L0 & Z0 & C0). rewrite E0. cbn [obind]. rewrite Ea.
  destruct (foldM_inv (count1 chk (a_me a) m em) (fun pre s => snd s = flat_map (out1 (a_me a) m) pre /\ length (fst s) = n + 1 /\ aget (fst s) 0 = Some 0 /\
      (forall k e w, nth_error pre k = Some (e, w) -> aget (fst s) (k + 1) = Some (length (adjl m e))) /\ (chk = true -> forall k, length pre <= k < n -> aget (fst s) (k + 1) = Some 0)) (h_ents h) (p0, [])) as ((p & o) & E & H1 & H2 & H3 & H4 & _).
  - cbn [fst snd]. repeat split; auto. + intros k e w H. destruct k; discriminate. + intros C k Hk. apply C0; auto. lia.
  - intros pre (e, w) post (p, o) Hs (H1 & H2 & H3 & H4 & H5). cbn [fst snd] in *. unfold count1. cbn [fst snd].
    assert (K : nth_error (h_ents h) (length pre) = Some (e, w)) by (rewrite Hs, nth_error_app2, Nat.sub_diag by lia; reflexivity).
    assert (L : length pre < n) by (apply nth_error_Some; congruence).
    rewrite (em_nth em h _ e w M K). cbn [obind]. rewrite owned_adj_ok by (intros i Hi; eapply HA; eauto; eapply nth_error_In; eauto). cbn [obind].
    assert (CK : (if chk then c <- aget p (length pre + 1);; (if c =? 0 then Some tt else None) else Some tt) = Some tt).
    { destruct chk; [|reflexivity]. rewrite H5 by (auto; lia). reflexivity. }
    rewrite CK. cbn [obind]. rewrite aset_some by lia. cbn [obind]. eexists. split; [reflexivity|]. cbn [fst snd]. rewrite flat_map_app. cbn [flat_map]. rewrite app_nil_r, H1. split; [reflexivity|].
    rewrite upd_length. split; [exact H2|]. split; [rewrite aget_upd_neq by lia; exact H3|]. split.
    + intros k e' w' Hk. destruct (Nat.eq_dec k (length pre)) as [Ek|N].
      * subst k. rewrite nth_error_app2, Nat.sub_diag in Hk by lia. cbn in Hk. inversion Hk; subst. apply aget_upd_eq. lia.
      * rewrite aget_upd_neq by lia. apply (H4 k e' w'). assert (k < length (pre ++ [(e, w)])) by (apply nth_error_Some; congruence). rewrite app_length in H. cbn in H. rewrite nth_error_app1 in Hk by lia. exact Hk.
    + intros C k Hk. rewrite app_length in Hk. cbn in Hk. rewrite aget_upd_neq by lia. apply H5; auto. lia.
  - cbn [fst snd] in *. exists p. rewrite <- H1. split; [exact E|]. auto.
Qed.
(** the counts that arrive *)
Definition cnt1 (x : Z) (l : list (Z * (Z * nat))) : nat := nsum (map (fun r => if Z.eqb (fst (snd r)) x then snd (snd r) else 0) l).
Definition cnt2 (x : Z) (l : list (Z * (Z * Z))) : nat := nsum (map (fun r => if Z.eqb (fst (snd r)) x then 1 else 0) l).
Lemma count_recv_ok em h p c arrived : MapInv em (gids h) -> NoDup (gids h) -> length p = length (h_ents h) + 1 -> aget p 0 = Some 0 ->
  (forall k x, nth_error (gids h) k = Some x -> aget p (k + 1) = Some (c k)) -> (forall r, In r arrived -> In (fst (snd r)) (gids h)) ->
  exists p', count_recv em p arrived = Some p' /\ length p' = length (h_ents h) + 1 /\ aget p' 0 = Some 0 /\
    forall k x, nth_error (gids h) k = Some x -> aget p' (k + 1) = Some (c k + cnt1 x arrived).
Proof.
  intros M N L H0 HC HA. unfold count_recv.
  destruct (foldM_inv (fun p0 (r : Z * (Z * nat)) => lid <- zfind em (fst (snd r));; x <- aget p0 (lid + 1);; aset p0 (lid + 1) (x + snd (snd r)))
     (fun pre p' => length p' = length (h_ents h) + 1 /\ aget p' 0 = Some 0 /\ forall k x, nth_error (gids h) k = Some x -> aget p' (k + 1) = Some (c k + cnt1 x pre)) arrived p) as (p' & E & H).
  - split; auto. split; auto. intros k x Hk. rewrite (HC k x Hk). f_equal. cbn. lia.
  - intros pre (s, (x, n)) post q Hs (H1 & H2 & H3). cbn [fst snd].
    assert (I : In x (gids h)) by (apply (HA (s, (x, n))); rewrite Hs; apply in_or_app; right; now left).
    apply In_nth_error in I as (k & Hk). assert (zfind em x = Some k) as -> by (apply M; exact Hk). cbn [obind]. rewrite (H3 k x Hk). cbn [obind].
    assert (Lk : k < length (gids h)) by (apply nth_error_Some; congruence). unfold gids in Lk. rewrite map_length in Lk. rewrite aset_some by lia. eexists. split; [reflexivity|].
    rewrite upd_length. split; auto. split; [rewrite aget_upd_neq by lia; auto|]. intros k' x' Hk'.
    unfold cnt1. rewrite map_app, nsum_app. cbn [map fst snd nsum fold_right]. destruct (Nat.eq_dec k' k) as [Ek|Nk].
    + subst k'. assert (x' = x) by congruence. subst. rewrite Z.eqb_refl, aget_upd_eq by lia. f_equal. fold (cnt1 x pre). lia.
    + rewrite aget_upd_neq by lia. rewrite (H3 k' x' Hk'). f_equal. fold (cnt1 x' pre). destruct (Z.eqb_spec x x'); [|lia]. subst. exfalso. apply Nk. eapply NoDup_nth_error_inj; eauto.
  - exists p'. split; auto.
Qed.
Lemma upd_same A (l : list A) i x : nth_error l i = Some x -> upd l i x = l.
Proof. revert i. induction l as [|a l IH]; intros [|i] H; cbn in *; try discriminate; [now inversion H|f_equal; auto]. Qed.
Lemma offsets_prefix k (p : arr nat) : length p = k + 1 -> aget p 0 = Some 0 -> (forall i, i < k -> exists c, aget p (i + 1) = Some c) -> offsets k p = prefix_sums k p.
Proof.
  intros L H0 HC. unfold offsets, prefix_sums. destruct k as [|k]; [reflexivity|]. cbn [Nat.sub]. rewrite Nat.sub_0_r. cbn [seq foldM].
  destruct (HC 0) as (c & Hc); [lia|]. cbn in Hc. rewrite Hc. cbn [obind]. replace (1 - 1) with 0 by lia. rewrite H0. cbn [obind]. rewrite aset_some by lia. cbn [obind]. rewrite Nat.add_0_r.
  rewrite upd_same; auto. unfold aget in Hc. destruct (nth_error p 1) as [[y|]|]; congruence.
Qed.
