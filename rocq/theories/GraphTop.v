(** From the construction calls to the API observations: the lemmas behind GraphProps.v. *)
From Verif Require Import Base GraphModel CsrProofs ConstructProofs GraphSpec AccessProofs AccessProofs2 CountProofs.

Definition eff_ty (ty : type_input) : type_input := (fst ty, eff_wgts (snd ty) (length (fst ty))).

Lemma constructed_rep me hg verts vws tys g : constructed me hg verts vws tys g ->
  Rep g verts (vws ++ repeat 1%Z (length verts - length vws)) (ghosts_of verts tys) (map eff_ty tys) /\
  hyper g = hg /\ self g = me.
Proof.
  intros (Hv & Hb). destruct (build_graph_ok me hg verts vws tys Hv) as (g0 & E0 & HR & Hh & Hs & _).
  destruct Hb as [E | (owns & E)].
  - assert (g0 = g) by congruence. subst g0. auto.
  - unfold build_part in E. rewrite E0 in E. cbn [obind] in E.
    destruct (constructGhosts_owners_ok _ _ _ _ _ owns HR) as (g1 & E1 & HR1 & _ & Hh1 & Hs1 & _).
    assert (g1 = g) by congruence. subst g1. split; [exact HR1|]. split; congruence.
Qed.

Lemma part_rep me hg verts vws tys owns g : valid_input hg verts vws tys -> build_part me hg verts vws tys owns = Some g ->
  Rep g verts (vws ++ repeat 1%Z (length verts - length vws)) (ghosts_of verts tys) (map eff_ty tys) /\
  RepO g (ghosts_of verts tys) (look owns) /\ hyper g = hg /\ self g = me.
Proof.
  intros Hv E. destruct (build_graph_ok me hg verts vws tys Hv) as (g0 & E0 & HR & Hh & Hs & _).
  unfold build_part in E. rewrite E0 in E. cbn [obind] in E.
  destruct (constructGhosts_owners_ok _ _ _ _ _ owns HR) as (g1 & E1 & HR1 & HO & Hh1 & Hs1 & _).
  assert (g1 = g) by congruence. subst g1. repeat split; auto; try congruence; apply HR1.
Qed.

Lemma construction_total me hg verts vws tys owns : valid_input hg verts vws tys ->
  exists g, build_graph me hg verts vws tys = Some g /\ exists g', build_part me hg verts vws tys owns = Some g'.
Proof.
  intros Hv. destruct (build_graph_ok me hg verts vws tys Hv) as (g0 & E0 & HR & _). exists g0. split; auto.
  destruct (constructGhosts_owners_ok _ _ _ _ _ owns HR) as (g1 & E1 & _). exists g1.
  unfold build_part. now rewrite E0.
Qed.

Lemma nth_eff tys t es ws : nth_error tys t = Some (es, ws) -> nth_error (map eff_ty tys) t = Some (es, eff_wgts ws (length es)).
Proof. intros H. exact (map_nth_error eff_ty t tys H). Qed.

Section C.
Variables (me : Z) (hg : bool) (verts vws : list Z) (tys : list type_input) (g : graph).
Hypothesis HC : constructed me hg verts vws tys g.
Notation all := (verts ++ ghosts_of verts tys).
Notation HR := (proj1 (constructed_rep _ _ _ _ _ _ HC)).

Lemma c_ntypes : ntypes g = length tys.
Proof. rewrite (ntypes_tys _ _ _ _ _ HR). apply map_length. Qed.

Lemma c_counts : nlv g = length verts /\ ngv g = length (ghosts_of verts tys).
Proof. destruct HR; auto. Qed.

Lemma c_numedges t es ws : nth_error tys t = Some (es, ws) -> option_map e_num (gtype g t) = Some (length es) /\
  option_map e_npins (gtype g t) = Some (length (concat (pins_of es))).
Proof. intros H. destruct (gtype_ok _ _ _ _ _ HR _ _ _ (nth_eff _ _ _ _ H)) as (ed & E & HE & _).
  rewrite E. cbn. rewrite (er_num _ _ _ _ _ _ HE), (er_npins _ _ _ _ _ _ HE). auto. Qed.

Lemma c_vgid l v : nth_error all l = Some v -> vgid g (getVertex l) = Some v.
Proof. intros H. unfold getVertex. rewrite Nat.add_1_r.
  rewrite (vgid_ok _ _ _ _ _ HR) by (apply nth_error_Some; congruence). exact H. Qed.

Lemma c_find l v : nth_error all l = Some v -> findGID g v = Some (getVertex l).
Proof. intros H. rewrite (findGID_ok _ _ _ _ _ HR) by (eapply nth_error_In; eauto).
  rewrite (nth_idx all l v) by (auto; apply HR). unfold getVertex. now rewrite Nat.add_1_r. Qed.

Lemma c_gids_iff v : In v all <-> In v verts \/ exists ty e, In ty tys /\ In e (fst ty) /\ In v (snd e).
Proof.
  unfold ghosts_of. destruct HC as ((Hnd & _) & _). rewrite <- first_occ_add_new by auto. split; intros H.
  - apply add_new_sub in H as [H|H]; auto. right. unfold all_pins in H. apply in_flat_map in H as (ty & Hty & H).
    apply in_concat in H as (ps & Hps & Hv). apply in_map_iff in Hps as (e & <- & He). eauto.
  - destruct H as [H|(ty & e & Hty & He & Hv)].
    + now apply add_new_incl.
    + apply add_new_In. unfold all_pins. apply in_flat_map. exists ty. split; auto. apply in_concat.
      exists (snd e). split; auto. now apply in_map.
Qed.

Lemma c_ghost_not_local v : In v (ghosts_of verts tys) -> ~ In v verts.
Proof. intros H1 H2. pose proof (rp_nd _ _ _ _ _ HR) as H. apply NoDup_app_iff in H as (_ & _ & H). exact (H v H2 H1). Qed.

Lemma c_pins t es ws i gid ps fuel : hg = true -> nth_error tys t = Some (es, ws) -> nth_error es i = Some (gid, ps) ->
  length ps < fuel ->
  exists hs, edge_pins g (getEdge (ntypes g) i t) fuel = Some hs /\ mapM (vgid g) hs = Some ps /\
    edegree g (getEdge (ntypes g) i t) = Some (length ps) /\ egid g (getEdge (ntypes g) i t) = Some gid.
Proof.
  intros Hg Ht Hi Hf. apply nth_eff in Ht. assert (Hh : hyper g = true) by (destruct (constructed_rep _ _ _ _ _ _ HC) as (_ & -> & _); auto).
  eexists. split; [eapply (edge_pins_hyper _ _ _ _ _ HR); eauto|]. split; [|split].
  - eapply (edge_pins_hyper_gids _ _ _ _ _ HR); eauto.
  - eapply (edegree_hyper _ _ _ _ _ HR); eauto.
  - eapply egid_hyper; eauto. exact HR.
Qed.

Lemma c_hyper : hyper g = hg.
Proof. apply (constructed_rep _ _ _ _ _ _ HC). Qed.

Lemma c_incl t es ws : nth_error tys t = Some (es, ws) -> incl (concat (map snd es)) all.
Proof. intros H. destruct (gtype_ok _ _ _ _ _ HR _ _ _ (nth_eff _ _ _ _ H)) as (ed & E & HE & _).
  apply (er_incl _ _ _ _ _ _ HE). Qed.

Lemma nth_verts l v : nth_error verts l = Some v -> nth_error all l = Some v /\ l < length verts.
Proof. intros H. assert (l < length verts) by (apply nth_error_Some; congruence). rewrite nth_error_app1; auto. Qed.

Lemma vals_incident t es ws l v : hg = true -> nth_error tys t = Some (es, ws) -> nth_error verts l = Some v ->
  vals_of l (occ_of g verts (ghosts_of verts tys) es) = incident v es.
Proof.
  intros Hg Ht Hl. apply nth_verts in Hl as [Hl L]. unfold occ_of, epins_of, incident. rewrite c_hyper, Hg.
  apply vals_of_occs_hyper; auto. apply HR. eapply c_incl; eauto.
Qed.

Lemma c_incident t es ws l v fuel : hg = true -> nth_error tys t = Some (es, ws) -> nth_error verts l = Some v ->
  length (incident v es) < fuel ->
  vertex_edges g (getVertex l) t fuel = Some (map (fun i => getEdge (ntypes g) i t) (incident v es)) /\
  vdegree g (getVertex l) t = Some (length (incident v es)).
Proof.
  intros Hg Ht Hl Hf. pose proof (vals_incident t es ws l v Hg Ht Hl) as E. apply nth_verts in Hl as [Hl L].
  unfold getVertex. rewrite Nat.add_1_r. split.
  - rewrite (vertex_edges_hyper _ _ _ _ _ HR t es (eff_wgts ws (length es)) l fuel); [now rewrite E|rewrite c_hyper; auto|apply nth_eff, Ht|auto|].
    unfold cnt_of. now rewrite E.
  - rewrite (vdegree_ok _ _ _ _ _ HR t es (eff_wgts ws (length es)) l (nth_eff _ _ _ _ Ht) L). unfold cnt_of. now rewrite E.
Qed.

Lemma vals_dests t es ws l v : hg = false -> nth_error tys t = Some (es, ws) -> nth_error verts l = Some v ->
  vals_of l (occ_of g verts (ghosts_of verts tys) es) = map (idx all) (out_dests v es).
Proof.
  intros Hg Ht Hl. apply nth_verts in Hl as [Hl L]. unfold occ_of, epins_of. rewrite c_hyper, Hg.
  apply vals_of_occs_trad; auto. apply HR. eapply c_incl; eauto.
Qed.

Lemma out_dests_in v es w : In w (out_dests v es) -> In w (concat (map snd es)).
Proof. unfold out_dests. intros H. apply in_flat_map in H as ([gid ps] & He & H). cbn [snd] in H.
  apply in_concat. exists ps. split; [change ps with (snd (gid, ps)); now apply in_map|].
  destruct ps as [|u [|x ps]]; try (destruct H; fail). destruct (Z.eqb u v); [|destruct H]. destruct H as [->|[]]. right; left; auto. Qed.

Lemma c_out t es ws l v fuel : hg = false -> nth_error tys t = Some (es, ws) -> nth_error verts l = Some v ->
  length (out_dests v es) < fuel ->
  exists hs ds, vertex_edges g (getVertex l) t fuel = Some hs /\ mapM (v_of g) hs = Some ds /\
    mapM (vgid g) ds = Some (out_dests v es) /\
    (forall h, In h hs -> u_of g h = Some (getVertex l)) /\
    vdegree g (getVertex l) t = Some (length (out_dests v es)).
Proof.
  intros Hg Ht Hl Hf. pose proof (vals_dests t es ws l v Hg Ht Hl) as E. apply nth_verts in Hl as [Hl L].
  assert (Hc : cnt_of l (occ_of g verts (ghosts_of verts tys) es) = length (out_dests v es)) by (unfold cnt_of; rewrite E; apply map_length).
  unfold getVertex. rewrite Nat.add_1_r.
  set (o := off (occ_of g verts (ghosts_of verts tys) es) l).
  exists (map (fun p => getEdge (ntypes g) p t) (seq o (length (out_dests v es)))), (map (fun w => S (idx all w)) (out_dests v es)).
  split; [|split; [|split; [|split]]].
  - rewrite (vertex_edges_trad _ _ _ _ _ HR t es (eff_wgts ws (length es)) l fuel); [now rewrite Hc|rewrite c_hyper; auto|apply nth_eff, Ht|auto|lia].
  - assert (G : forall k m, (forall j x, nth_error m j = Some x -> v_of g (getEdge (ntypes g) (k + j) t) = Some (S x)) ->
       mapM (v_of g) (map (fun p => getEdge (ntypes g) p t) (seq k (length m))) = Some (map S m)).
    { intros k m; revert k; induction m as [|x m IH]; intros k H; [reflexivity|]. cbn [length seq map mapM].
      rewrite <- (Nat.add_0_r k) at 1. rewrite (H 0 x eq_refl). cbn [obind]. rewrite IH; [reflexivity|].
      intros j y Hj. replace (S k + j) with (k + S j) by lia. now apply H. }
    specialize (G o (map (idx all) (out_dests v es))). rewrite map_length, map_map in G. apply G.
    intros j x Hj. rewrite <- E in Hj. apply (v_of_ok _ _ _ _ _ HR t es (eff_wgts ws (length es)) l j x); auto using nth_eff. rewrite c_hyper; auto.
  - rewrite mapM_some with (h := fun h => match vgid g h with Some v => v | None => 0%Z end).
    + rewrite map_map. f_equal. rewrite <- (map_id (out_dests v es)) at 2. apply map_ext_in. intros w Hw.
      rewrite (vgid_idx _ _ _ _ _ HR); auto. eapply c_incl; eauto. eapply out_dests_in; eauto.
    + intros h Hh. apply in_map_iff in Hh as (w & <- & Hw).
      rewrite (vgid_idx _ _ _ _ _ HR); auto. eapply c_incl; eauto. eapply out_dests_in; eauto.
  - intros h Hh. apply in_map_iff in Hh as (p & <- & Hp). apply in_seq in Hp. replace p with (o + (p - o)) by lia.
    apply (u_of_ok _ _ _ _ _ HR t es (eff_wgts ws (length es)) l (p - o) (nth_eff _ _ _ _ Ht) L). lia.
  - rewrite (vdegree_ok _ _ _ _ _ HR t es (eff_wgts ws (length es)) l (nth_eff _ _ _ _ Ht) L). now rewrite Hc.
Qed.
End C.

(** rows of a CSR: positions below the total split into rows *)
Lemma seq_rows tot n : seq 0 (off tot n) = flat_map (fun u => seq (off tot u) (cnt_of u tot)) (seq 0 n).
Proof.
  induction n as [|n IH]; [reflexivity|]. rewrite seq_snoc, flat_map_app, <- IH, off_S, seq_app. cbn [flat_map].
  now rewrite app_nil_r.
Qed.
Lemma filter_none (tot : list (nat * nat)) u : (forall p, In p tot -> fst p <> u) -> filter (fun p => fst p =? u) tot = [].
Proof. induction tot as [|p tot IH]; intros H; auto. cbn [filter]. destruct (Nat.eqb_spec (fst p) u) as [E|_].
  - exfalso; apply (H p); [left; auto|auto]. - apply IH. intros; apply H; right; auto. Qed.
Lemma rows_perm (tot : list (nat * nat)) n : (forall p, In p tot -> fst p < n) ->
  Permutation (flat_map (fun u => map (fun x => (u, x)) (vals_of u tot)) (seq 0 n)) tot.
Proof.
  revert tot; induction n as [|n IH]; intros tot H.
  - destruct tot as [|p tot]; auto. specialize (H p (or_introl eq_refl)). lia.
  - rewrite seq_snoc, flat_map_app. cbn [flat_map]. rewrite app_nil_r, Nat.add_0_l.
    assert (E : map (fun x => (n, x)) (vals_of n tot) = filter (fun p => fst p =? n) tot).
    { unfold vals_of. rewrite map_map. etransitivity; [|apply map_id]. apply map_ext_in. intros [a b] Hp.
      apply filter_In in Hp as (_ & Hp). cbn in *. apply Nat.eqb_eq in Hp. congruence. }
    rewrite E. set (lo := filter (fun p => fst p <? n) tot).
    assert (P : Permutation tot (lo ++ filter (fun p => fst p =? n) tot)).
    { unfold lo. clear IH E lo. induction tot as [|p tot IHt]; auto. cbn [filter].
      specialize (IHt ltac:(intros; apply H; right; auto)). specialize (H p (or_introl eq_refl)).
      destruct (Nat.ltb_spec (fst p) n), (Nat.eqb_spec (fst p) n); try lia.
      - cbn [app]. now constructor.
      - apply Permutation_cons_app. exact IHt. }
    etransitivity; [|symmetry; exact P]. apply Permutation_app_tail.
    etransitivity; [|apply (IH lo)]. 2:{ intros p Hp. apply filter_In in Hp as (_ & Hp). now apply Nat.ltb_lt. }
    rewrite !flat_map_concat_map. erewrite map_ext_in; [apply Permutation_refl|]. intros u Hu. apply in_seq in Hu.
    f_equal. unfold vals_of, lo. rewrite filter_filter. f_equal. f_equal. apply filter_ext. intros p.
    destruct (Nat.ltb_spec (fst p) n), (Nat.eqb_spec (fst p) u); cbn; auto; lia.
Qed.

Section CT.
Variables (me : Z) (verts vws : list Z) (tys : list type_input) (g : graph).
Hypothesis HC : constructed me false verts vws tys g.
Variables (t : nat) (es : list edge_input) (ws : list Z).
Hypothesis Ht : nth_error tys t = Some (es, ws).
Notation all := (verts ++ ghosts_of verts tys).
Notation HR := (proj1 (constructed_rep _ _ _ _ _ _ HC)).
Notation tot := (occ_of g verts (ghosts_of verts tys) es).
Notation HT := (nth_eff _ _ _ _ Ht).

Lemma two_pins e : In e es -> length (snd e) = 2.
Proof. intros He. destruct HC as ((_ & _ & _ & H) & _). apply (H es ws); auto. eapply nth_error_In; eauto. Qed.

Lemma occs_local i l : (forall e, In e l -> In e es) -> local_sources verts es ->
  occs false (length verts) all i (map snd l) =
  map (fun e => match snd e with u :: w :: _ => (idx all u, idx all w) | _ => (0, 0) end) l.
Proof.
  revert i; induction l as [|[gid ps] l IH]; intros i Hl Hs; auto. cbn [map occs snd].
  rewrite IH by (auto; intros; apply Hl; right; auto).
  pose proof (two_pins _ (Hl _ (or_introl eq_refl))) as L2. cbn [snd] in L2.
  destruct ps as [|u [|w [|]]]; try discriminate. cbn [locc].
  assert (Hu : In u verts) by (apply (Hs (gid, [u; w]) u w); auto; apply Hl; left; auto).
  rewrite idx_app by auto. pose proof (idx_lt _ _ Hu). destruct (Nat.ltb_spec (idx verts u) (length verts)); [|lia]. reflexivity.
Qed.

Lemma tot_eq : local_sources verts es -> tot = map (fun e => match snd e with u :: w :: _ => (idx all u, idx all w) | _ => (0, 0) end) es.
Proof. intros Hs. unfold occ_of, epins_of. rewrite (c_hyper _ _ _ _ _ _ HC). now apply occs_local. Qed.

Lemma tot_keys p : In p tot -> fst p < length verts.
Proof.
  unfold occ_of, epins_of. rewrite (c_hyper _ _ _ _ _ _ HC). generalize 0. 
  induction (map snd es) as [|ps l IH]; intros i H; [destruct H|]. cbn [occs] in H. apply in_app_iff in H as [H|H]; eauto.
  destruct p as [a b]. eapply locc_lt; eauto.
Qed.

Lemma off_total : off tot (length verts) = length tot.
Proof.
  transitivity (length (flat_map (fun u => map (fun x => (u, x)) (vals_of u tot)) (seq 0 (length verts)))).
  - unfold off. rewrite flat_map_concat_map, length_concat, map_map. f_equal. apply map_ext. intros u. now rewrite map_length.
  - apply Permutation_length, rows_perm. apply tot_keys.
Qed.

(** every stored edge number lies in exactly one row *)
Lemma row_of i : i < off tot (length verts) -> exists u m, u < length verts /\ m < cnt_of u tot /\ i = off tot u + m.
Proof.
  intros Hi. assert (In i (seq 0 (off tot (length verts)))) as H by (apply in_seq; lia).
  rewrite seq_rows in H. apply in_flat_map in H as (u & Hu & H). apply in_seq in Hu. apply in_seq in H.
  exists u, (i - off tot u). lia.
Qed.

Lemma edge_ends_row u m x : u < length verts -> nth_error (vals_of u tot) m = Some x ->
  edge_ends g t (off tot u + m) = (a <- nth_error all u ;; b <- nth_error all x ;; Some (a, b)).
Proof.
  intros Hu Hm. unfold edge_ends. rewrite (u_of_ok _ _ _ _ _ HR t es (eff_wgts ws (length es)) u m HT Hu) by (unfold cnt_of; apply nth_error_Some; congruence).
  rewrite (v_of_ok _ _ _ _ _ HR t es (eff_wgts ws (length es)) u m x (c_hyper _ _ _ _ _ _ HC) HT Hu Hm). cbn [obind].
  rewrite (vgid_ok _ _ _ _ _ HR) by (rewrite app_length; lia). destruct (nth_error all u); auto. cbn [obind].
  assert (Hx : x < length all).
  { assert (Hin : In x (vals_of u tot)) by (eapply nth_error_In; eauto).
    destruct (nth_error verts u) as [v|] eqn:Ev; [|apply nth_error_None in Ev; lia].
    rewrite (vals_dests _ _ _ _ _ _ HC t es ws u v eq_refl Ht Ev) in Hin. apply in_map_iff in Hin as (w & <- & Hw).
    apply idx_lt. eapply (c_incl _ _ _ _ _ _ HC); eauto. eapply out_dests_in; eauto. }
  rewrite (vgid_ok _ _ _ _ _ HR) by auto. destruct (nth_error all x); auto.
Qed.

Lemma trad_edges_perm : local_sources verts es ->
  exists l, mapM (edge_ends g t) (seq 0 (length es)) = Some l /\ Permutation (map (fun p => [fst p; snd p]) l) (pins_of es).
Proof.
  intros Hs. pose proof (tot_eq Hs) as Et. assert (Hlen : off tot (length verts) = length es) by (rewrite off_total, Et, map_length; auto).
  rewrite <- Hlen, seq_rows.
  pose (nm := fun k => match nth_error all k with Some v => v | None => 0%Z end).
  exists (map (fun p => (nm (fst p), nm (snd p))) (flat_map (fun u => map (fun x => (u, x)) (vals_of u tot)) (seq 0 (length verts)))).
  assert (Hx : forall u x, In x (vals_of u tot) -> u < length verts -> x < length all).
  { intros u x Hin Hu. destruct (nth_error verts u) as [v|] eqn:Ev; [|apply nth_error_None in Ev; lia].
    rewrite (vals_dests _ _ _ _ _ _ HC t es ws u v eq_refl Ht Ev) in Hin. apply in_map_iff in Hin as (w & <- & Hw).
    apply idx_lt. eapply (c_incl _ _ _ _ _ _ HC); eauto. eapply out_dests_in; eauto. }
  assert (Hnm : forall k, k < length all -> nth_error all k = Some (nm k)).
  { intros k Hk. unfold nm. destruct (nth_error all k) eqn:E; auto. apply nth_error_None in E. lia. }
  split.
  - assert (Hle : forall u, In u (seq 0 (length verts)) -> u < length verts) by (intros u Hu; apply in_seq in Hu; lia).
    revert Hle. generalize (seq 0 (length verts)) as us. induction us as [|u us IH]; intros Hle; [reflexivity|].
    cbn [flat_map]. rewrite mapM_app, map_app, IH by (intros; apply Hle; right; auto).
    assert (R : mapM (edge_ends g t) (seq (off tot u) (cnt_of u tot)) = Some (map (fun p => (nm (fst p), nm (snd p))) (map (fun x => (u, x)) (vals_of u tot)))).
    { specialize (Hle u (or_introl eq_refl)). unfold cnt_of.
      assert (G : forall r k, (forall j x, nth_error r j = Some x -> nth_error (vals_of u tot) (k + j) = Some x) ->
         mapM (edge_ends g t) (seq (off tot u + k) (length r)) = Some (map (fun p => (nm (fst p), nm (snd p))) (map (fun x => (u, x)) r))).
      { induction r as [|x r IHr]; intros k H; [reflexivity|]. cbn [length seq map mapM].
        pose proof (H 0 x eq_refl) as H0. rewrite Nat.add_0_r in H0.
        rewrite (edge_ends_row u k x Hle H0). rewrite (Hnm u) by (rewrite app_length; lia).
        rewrite (Hnm x) by (apply (Hx u); auto; eapply nth_error_In; eauto). cbn [obind].
        replace (S (off tot u + k)) with (off tot u + S k) by lia. rewrite IHr; [reflexivity|].
        intros j y Hj. replace (S k + j) with (k + S j) by lia. now apply H. }
      specialize (G (vals_of u tot) 0). rewrite Nat.add_0_r in G. apply G. intros; auto. }
    rewrite R. reflexivity.
  - rewrite map_map. etransitivity; [apply Permutation_map, rows_perm, tot_keys|]. rewrite Et, map_map.
    unfold pins_of. erewrite map_ext_in; [apply Permutation_refl|]. intros [gid ps] He. cbn [snd].
    pose proof (two_pins _ He) as L2. cbn [snd] in L2. destruct ps as [|u [|w [|]]]; try discriminate. cbn [fst snd].
    assert (Hinc : incl [u; w] all).
    { intros x Hx'. eapply (c_incl _ _ _ _ _ _ HC); eauto. apply in_concat. exists [u; w]. split; auto.
      change [u; w] with (snd (gid, [u; w])). now apply in_map. }
    unfold nm. rewrite !idx_nth; auto; apply Hinc; cbn; auto.
Qed.

Lemma u_unique i : local_sources verts es -> i < length es ->
  exists l, u_of g (getEdge (ntypes g) i t) = Some (getVertex l) /\ l < length verts /\
   forall l' fuel hs, l' < length verts -> vertex_edges g (getVertex l') t fuel = Some hs ->
      (In (getEdge (ntypes g) i t) hs <-> l' = l).
Proof.
  intros Hs Hi. pose proof (tot_eq Hs) as Et.
  assert (Hlen : off tot (length verts) = length es) by (rewrite off_total, Et, map_length; auto).
  destruct (row_of i) as (u & m & Hu & Hm & ->); [lia|]. exists u. split; [|split; auto].
  - rewrite (u_of_ok _ _ _ _ _ HR t es (eff_wgts ws (length es)) u m HT Hu Hm). unfold getVertex. now rewrite Nat.add_1_r.
  - intros l' fuel hs Hl' Hv. unfold getVertex in Hv. rewrite Nat.add_1_r in Hv.
    assert (hs = map (fun p => getEdge (ntypes g) p t) (seq (off tot l') (cnt_of l' tot))).
    { destruct (Nat.lt_ge_cases (cnt_of l' tot) fuel) as [L|L].
      - rewrite (vertex_edges_trad _ _ _ _ _ HR t es (eff_wgts ws (length es)) l' fuel (c_hyper _ _ _ _ _ _ HC) HT Hl' L) in Hv. congruence.
      - exfalso. pose proof (vertex_edges_trad _ _ _ _ _ HR t es (eff_wgts ws (length es)) l' (S (cnt_of l' tot)) (c_hyper _ _ _ _ _ _ HC) HT Hl' ltac:(lia)) as E.
        unfold vertex_edges in *. destruct (eit_vertex g (S l') t) as [it|]; [|discriminate]. cbn [obind] in *.
        assert (G : forall f (it : eiter) l1 l2, drain (eit_step g) f it = Some l1 -> drain (eit_step g) (S f) it = Some l2 -> l1 = l2 /\ length l1 < f).
        { clear. induction f as [|f IH]; intros it l1 l2 H1 H2; [discriminate|]. remember (S f) as f' eqn:Ef. cbn [drain] in H2. rewrite Ef in H1. cbn [drain] in H1. subst f'.
          destruct (eit_step g it) as [[h it']|]; [|discriminate]. cbn [obind] in *. destruct (h =? 0).
          - inversion H1; inversion H2; subst; split; auto. simpl; lia.
          - destruct (drain (eit_step g) f it') as [r1|] eqn:D1; [|discriminate]. destruct (drain (eit_step g) (S f) it') as [r2|] eqn:D2; [|discriminate].
            cbn [obind] in *. destruct (IH _ _ _ D1 D2). inversion H1; inversion H2; subst; split; auto; simpl; lia. }
        assert (M : forall f k it l1, drain (eit_step g) f it = Some l1 -> drain (eit_step g) (f + k) it = Some l1).
        { clear. induction f as [|f IH]; intros k it l1 H1; [discriminate|]. cbn [drain Nat.add] in *.
          destruct (eit_step g it) as [[h it']|]; [|discriminate]. cbn [obind] in *. destruct (h =? 0); auto.
          destruct (drain (eit_step g) f it') as [r1|] eqn:D1; [|discriminate]. rewrite (IH k _ _ D1). exact H1. }
        pose proof (M _ (S (cnt_of l' tot) - fuel) _ _ Hv) as E'. replace (fuel + (S (cnt_of l' tot) - fuel)) with (S (cnt_of l' tot)) in E' by lia.
        pose proof (M _ 1 _ _ Hv) as E1. rewrite Nat.add_1_r in E1. destruct (G _ _ _ _ Hv E1) as [_ Lh].
        assert (hs = map (fun p => getEdge (ntypes g) p t) (seq (off tot l') (cnt_of l' tot))) by congruence. subst hs.
        rewrite map_length, seq_length in Lh. lia. }
    subst hs. rewrite in_map_iff. split.
    + intros (p & E & Hp). apply in_seq in Hp. destruct (gtype_ok _ _ _ _ _ HR _ _ _ HT) as (_ & _ & _ & Hlt).
      apply getEdge_inj in E as [E _]; auto. subst p. apply (off_unique tot (off tot u + m)); rewrite off_S; lia.
    + intros ->. exists (off tot u + m). split; auto. apply in_seq. lia.
Qed.
End CT.
