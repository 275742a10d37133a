(** What the accessors and iterators return on a graph satisfying the representation invariant. *)
From Verif Require Import Base GraphModel CsrProofs ConstructProofs GraphSpec.

(** ** draining an iterator *)
Fixpoint yields {S} (step : S -> option (nat * S)) (s : S) (l : list nat) : Prop :=
  match l with
  | [] => exists s', step s = Some (0, s')
  | h :: r => h <> 0 /\ exists s', step s = Some (h, s') /\ yields step s' r
  end.
Lemma drain_yields S (step : S -> option (nat * S)) l s fuel :
  yields step s l -> length l < fuel -> drain step fuel s = Some l.
Proof.
  revert s fuel; induction l as [|h r IH]; intros s [|f] H Hf; simpl in Hf; try lia.
  - destruct H as [s' H]. simpl. rewrite H. reflexivity.
  - destruct H as (Hh & s' & H & Hr). simpl. rewrite H. simpl.
    destruct (Nat.eqb_spec h 0); [congruence|]. rewrite (IH s' f); auto. lia.
Qed.

(** ** handles *)
Lemma vlid_getVertex l : vlid (getVertex l) = Some l.
Proof. unfold getVertex. rewrite Nat.add_1_r. reflexivity. Qed.

Lemma edec_getEdge nt l t : t < nt -> edec nt (getEdge nt l t) = Some (t, l).
Proof.
  intros H. unfold edec, getEdge. rewrite Nat.add_1_r.
  destruct (Nat.eqb_spec nt 0); [lia|]. do 2 f_equal.
  - rewrite Nat.add_comm, Nat.mul_comm, Nat.mod_add by lia. apply Nat.mod_small; auto.
  - rewrite Nat.add_comm, Nat.mul_comm, Nat.div_add by lia. rewrite Nat.div_small by auto. lia.
Qed.

Lemma getEdge_inj nt l t l' t' : t < nt -> t' < nt -> getEdge nt l t = getEdge nt l' t' -> l = l' /\ t = t'.
Proof. intros H H' E. apply (f_equal (edec nt)) in E. rewrite !edec_getEdge in E by auto. inversion E; auto. Qed.

Lemma off_S tot k : off tot (S k) = off tot k + cnt_of k tot.
Proof. unfold off. rewrite seq_snoc, map_app, nsum_app. simpl. lia. Qed.

Section Acc.
Variables (g : graph) (verts wts ghosts : list Z) (tys : list (list (Z * list Z) * list Z)).
Hypothesis HR : Rep g verts wts ghosts tys.
Let all := verts ++ ghosts.
Let n := length verts.

Lemma ntypes_tys : ntypes g = length tys.
Proof. unfold ntypes. symmetry. eapply Forall2_len. apply (rp_types _ _ _ _ _ HR). Qed.

Lemma vgid_ok l : l < length all -> vgid g (S l) = nth_error all l.
Proof.
  intros Hl. unfold vgid. cbn [vlid obind]. rewrite (rp_nlv _ _ _ _ _ HR), (rp_gun _ _ _ _ _ HR), (rp_lun _ _ _ _ _ HR).
  destruct (Nat.leb_spec (length verts) l).
  - rewrite aget_ainit. unfold all. now rewrite nth_error_app2.
  - rewrite aget_ainit. unfold all. now rewrite nth_error_app1.
Qed.

Lemma vgid_idx v : In v all -> vgid g (S (idx all v)) = Some v.
Proof. intros H. rewrite vgid_ok by (now apply idx_lt). now apply idx_nth. Qed.

Lemma findGID_ok v : In v all -> findGID g v = Some (S (idx all v)).
Proof. intros H. unfold findGID. rewrite (MapInv_find _ _ _ (rp_vm _ _ _ _ _ HR) H (rp_nd _ _ _ _ _ HR)).
  cbn [obind]. now rewrite Nat.add_1_r. Qed.

Lemma findGID_none v : ~ In v all -> findGID g v = None.
Proof. intros H. unfold findGID. now rewrite (MapInv_none _ _ _ (rp_vm _ _ _ _ _ HR) H). Qed.

Lemma gtype_ok t es ws : nth_error tys t = Some (es, ws) ->
  exists ed, gtype g t = Some ed /\ EdRep (hyper g) n all es ws ed /\ t < ntypes g.
Proof.
  intros H. destruct (Forall2_nth_l _ _ _ _ _ _ _ (rp_types _ _ _ _ _ HR) H) as (ed & E & HE).
  exists ed. split; auto. split; auto. rewrite ntypes_tys. apply nth_error_Some. congruence.
Qed.

(** ** vertex and ghost iterators *)
Lemma vit_yields k : k <= n -> yields (vit_step g) (n - k + 1) (map S (seq (n - k) k)).
Proof.
  induction k as [|k IH]; intros Hk.
  - simpl. exists 0. unfold vit_step. rewrite (rp_nlv _ _ _ _ _ HR). fold n.
    destruct (Nat.eqb_spec (n - 0 + 1) (n + 1)); [auto|lia].
  - cbn [seq map yields]. split; [lia|]. exists (n - k + 1). split.
    + unfold vit_step. rewrite (rp_nlv _ _ _ _ _ HR). fold n.
      destruct (Nat.eqb_spec (n - S k + 1) (n + 1)); [lia|]. do 2 f_equal; lia.
    + replace (S (n - S k)) with (n - k) by lia. apply IH. lia.
Qed.
Lemma all_verts_ok fuel : n < fuel -> all_verts g fuel = Some (map S (seq 0 n)).
Proof. intros H. unfold all_verts. apply drain_yields.
  - pose proof (vit_yields n (le_n n)) as Y. now rewrite Nat.sub_diag in Y.
  - now rewrite map_length, seq_length. Qed.

Lemma git_yields k : k <= length ghosts ->
  yields (git_step g) (n + (length ghosts - k) + 1) (map S (seq (n + (length ghosts - k)) k)).
Proof.
  induction k as [|k IH]; intros Hk.
  - simpl. exists 0. unfold git_step. rewrite (rp_nlv _ _ _ _ _ HR), (rp_ngv _ _ _ _ _ HR). fold n.
    destruct (Nat.eqb_spec (n + (length ghosts - 0) + 1) (n + length ghosts + 1)); [auto|lia].
  - cbn [seq map yields]. split; [lia|]. exists (n + (length ghosts - k) + 1). split.
    + unfold git_step. rewrite (rp_nlv _ _ _ _ _ HR), (rp_ngv _ _ _ _ _ HR). fold n.
      destruct (Nat.eqb_spec (n + (length ghosts - S k) + 1) (n + length ghosts + 1)); [lia|]. do 2 f_equal; lia.
    + replace (S (n + (length ghosts - S k))) with (n + (length ghosts - k)) by lia. apply IH. lia.
Qed.
Lemma all_ghosts_ok fuel : length ghosts < fuel -> all_ghosts g fuel = Some (map S (seq n (length ghosts))).
Proof. intros H. unfold all_ghosts, git_begin. rewrite (rp_nlv _ _ _ _ _ HR). fold n. apply drain_yields.
  - pose proof (git_yields (length ghosts) (le_n _)) as Y. now rewrite Nat.sub_diag, Nat.add_0_r in Y.
  - now rewrite map_length, seq_length. Qed.

(** ** the raw edge iterator over a range of positions of type t *)
Lemma eit_range t l k (f : nat -> nat) hy :
  t < ntypes g ->
  (forall it m, ei_loc it = getEdge (ntypes g) (l + m) t -> ei_hyper it = hy -> m < k -> ei_loc it < ei_end it ->
     eit_step g it = Some (f (l + m), mkEiter (ei_loc it + ei_nt it) (ei_end it) (ei_nt it) (ei_hyper it)) /\ f (l + m) <> 0) ->
  yields (eit_step g) (mk_eiter t (ntypes g) l k hy) (map f (seq l k)).
Proof.
  intros Ht Hstep.
  cut (forall j m, m + j = k -> yields (eit_step g)
     (mkEiter (getEdge (ntypes g) (l + m) t) (getEdge (ntypes g) (l + k) t) (ntypes g) hy) (map f (seq (l + m) j))).
  { intros H. specialize (H k 0 eq_refl). rewrite Nat.add_0_r in H.
    unfold mk_eiter. unfold getEdge in H.
    replace (1 + t + ntypes g * l) with (ntypes g * l + t + 1) by lia.
    replace (1 + t + ntypes g * (l + k)) with (ntypes g * (l + k) + t + 1) by lia. exact H. }
  induction j as [|j IH]; intros m Hm.
  - cbn [seq map yields]. eexists. unfold eit_step. cbn [ei_end ei_loc].
    replace m with k by lia. rewrite Nat.leb_refl. reflexivity.
  - cbn [seq map yields].
    destruct (Hstep (mkEiter (getEdge (ntypes g) (l + m) t) (getEdge (ntypes g) (l + k) t) (ntypes g) hy) m) as [E Hf]; auto.
    { lia. }
    { cbn [ei_loc ei_end]. unfold getEdge. assert (l + m < l + k) by lia.
      assert (ntypes g * (l + m) < ntypes g * (l + k)) by (apply Nat.mul_lt_mono_pos_l; lia). lia. }
    split; auto. eexists. split; [exact E|]. cbn [ei_loc ei_end ei_nt ei_hyper].
    replace (getEdge (ntypes g) (l + m) t + ntypes g) with (getEdge (ntypes g) (l + S m) t).
    2:{ unfold getEdge. replace (l + S m) with (l + m + 1) by lia. rewrite Nat.mul_add_distr_l. lia. }
    replace (S (l + m)) with (l + S m) by lia. apply IH. lia.
Qed.

Lemma all_edges_ok t es ws fuel : nth_error tys t = Some (es, ws) -> length es < fuel ->
  all_edges g t fuel = Some (map (fun i => getEdge (ntypes g) i t) (seq 0 (length es))).
Proof.
  intros H Hf. destruct (gtype_ok _ _ _ H) as (ed & E & HE & Ht).
  unfold all_edges, eit_begin, num_edges. rewrite E. cbn [obind]. rewrite (er_num _ _ _ _ _ _ HE).
  apply drain_yields; [|now rewrite map_length, seq_length].
  apply eit_range; auto. intros it m Hl Hh Hm Hlt. unfold eit_step.
  destruct (Nat.leb_spec (ei_end it) (ei_loc it)); [lia|].
  rewrite Hh. rewrite andb_negb_r. rewrite Hl. split; auto. unfold getEdge; lia.
Qed.

(** ** degree and edges of a vertex *)
Definition occ_of (es : list (Z * list Z)) := occs (hyper g) n all 0 (epins_of es).


Lemma vdegree_ok t es ws l : nth_error tys t = Some (es, ws) -> l < n ->
  vdegree g (S l) t = Some (cnt_of l (occ_of es)).
Proof.
  intros H Hl. destruct (gtype_ok _ _ _ H) as (ed & E & HE & Ht).
  unfold vdegree. cbn [vlid obind]. rewrite E. cbn [obind].
  rewrite !(er_deg _ _ _ _ _ _ HE) by lia. cbn [obind]. fold (occ_of es).
  rewrite Nat.add_1_r, off_S. f_equal. lia.
Qed.

Lemma elist_get t es ws ed l m x : nth_error tys t = Some (es, ws) -> EdRep (hyper g) n all es ws ed -> l < n ->
  nth_error (vals_of l (occ_of es)) m = Some x -> aget (e_list ed) (off (occ_of es) l + m) = Some x.
Proof.
  intros H HE Hl Hm. rewrite (er_list _ _ _ _ _ _ HE), aget_ainit. fold (occ_of es).
  unfold off. apply (concat_row _ (fun u => vals_of u (occ_of es)) n l m x Hl Hm).
Qed.

Lemma vertex_edges_hyper t es ws l fuel : hyper g = true -> nth_error tys t = Some (es, ws) -> l < n ->
  cnt_of l (occ_of es) < fuel ->
  vertex_edges g (S l) t fuel = Some (map (fun i => getEdge (ntypes g) i t) (vals_of l (occ_of es))).
Proof.
  intros Hh H Hl Hf. destruct (gtype_ok _ _ _ H) as (ed & E & HE & Ht).
  unfold vertex_edges, eit_vertex. cbn [vlid obind]. rewrite E. cbn [obind].
  rewrite (er_deg _ _ _ _ _ _ HE) by lia. cbn [obind]. fold (occ_of es).
  rewrite (vdegree_ok t es ws l H Hl). cbn [obind].
  set (row := vals_of l (occ_of es)) in *.
  assert (Hrow : map (fun i => getEdge (ntypes g) i t) row =
     map (fun p => getEdge (ntypes g) (nth (p - off (occ_of es) l) row 0) t) (seq (off (occ_of es) l) (cnt_of l (occ_of es)))).
  { apply nth_error_ext. intros m. rewrite !nth_error_map.
    destruct (Nat.lt_ge_cases m (length row)) as [L|L].
    - rewrite nth_error_seq by (unfold cnt_of; fold row; lia). cbn [option_map].
      replace (off (occ_of es) l + m - off (occ_of es) l) with m by lia.
      rewrite (nth_error_nth' row 0 L). reflexivity.
    - rewrite (proj2 (nth_error_None row m)) by auto.
      rewrite (proj2 (nth_error_None (seq _ _) m)); auto. rewrite seq_length. unfold cnt_of. fold row. lia. }
  rewrite Hrow. apply drain_yields; [|now rewrite map_length, seq_length].
  apply eit_range; auto. intros it m Hloc Hhy Hm Hlt. unfold eit_step.
  destruct (Nat.leb_spec (ei_end it) (ei_loc it)); [lia|]. rewrite Hh, Hhy. cbn [andb negb].
  rewrite Hloc, edec_getEdge by auto. cbn [obind]. rewrite E. cbn [obind].
  replace (off (occ_of es) l + m - off (occ_of es) l) with m by lia.
  assert (Hx : nth_error row m = Some (nth m row 0)) by (apply nth_error_nth'; unfold cnt_of in Hm; fold row in Hm; lia).
  rewrite (elist_get t es ws ed l m _ H HE Hl Hx). cbn [obind]. rewrite <- Hloc. split; auto. unfold getEdge; lia.
Qed.

Lemma vertex_edges_trad t es ws l fuel : hyper g = false -> nth_error tys t = Some (es, ws) -> l < n ->
  cnt_of l (occ_of es) < fuel ->
  vertex_edges g (S l) t fuel =
    Some (map (fun p => getEdge (ntypes g) p t) (seq (off (occ_of es) l) (cnt_of l (occ_of es)))).
Proof.
  intros Hh H Hl Hf. destruct (gtype_ok _ _ _ H) as (ed & E & HE & Ht).
  unfold vertex_edges, eit_vertex. cbn [vlid obind]. rewrite E. cbn [obind].
  rewrite (er_deg _ _ _ _ _ _ HE) by lia. cbn [obind]. fold (occ_of es).
  rewrite (vdegree_ok t es ws l H Hl). cbn [obind].
  apply drain_yields; [|now rewrite map_length, seq_length].
  apply eit_range; auto. intros it m Hloc Hhy Hm Hlt. unfold eit_step.
  destruct (Nat.leb_spec (ei_end it) (ei_loc it)); [lia|]. rewrite Hh. cbn [andb].
  rewrite Hloc. split; auto. unfold getEdge; lia.
Qed.

(** ** pins (hypergraph) *)
Lemma edegree_hyper t es ws i gid ps : hyper g = true -> nth_error tys t = Some (es, ws) -> nth_error es i = Some (gid, ps) ->
  edegree g (getEdge (ntypes g) i t) = Some (length ps).
Proof.
  intros Hh H Hi. destruct (gtype_ok _ _ _ H) as (ed & E & HE & Ht).
  assert (Li : i < length es) by (apply nth_error_Some; congruence).
  unfold edegree. rewrite Hh. cbn [negb]. destruct (Nat.eqb_spec (getEdge (ntypes g) i t) 0) as [Z0|_].
  { unfold getEdge in Z0; lia. }
  rewrite edec_getEdge by auto. cbn [obind]. rewrite E. cbn [obind].
  rewrite !(er_pdeg _ _ _ _ _ _ HE) by lia. cbn [obind]. rewrite Nat.add_1_r.
  rewrite (nsum_firstn_S _ i (length ps)).
  - f_equal; lia.
  - unfold epins_of. rewrite map_map, nth_error_map, Hi. reflexivity.
Qed.

Lemma pins_begin_hyper t es ws i gid ps : hyper g = true -> nth_error tys t = Some (es, ws) -> nth_error es i = Some (gid, ps) ->
  let p := nsum (firstn i (map (@length Z) (epins_of es))) in
  pins_begin g (getEdge (ntypes g) i t) = Some (PHyper t p (p + length ps)).
Proof.
  intros Hh H Hi p. destruct (gtype_ok _ _ _ H) as (ed & E & HE & Ht).
  assert (Li : i < length es) by (apply nth_error_Some; congruence).
  unfold pins_begin. rewrite edec_getEdge by auto. cbn [obind]. rewrite E. cbn [obind]. rewrite Hh.
  rewrite !(er_pdeg _ _ _ _ _ _ HE) by lia. cbn [obind]. rewrite Nat.add_1_r.
  rewrite (nsum_firstn_S _ i (length ps)); auto.
  unfold epins_of. rewrite map_map, nth_error_map, Hi. reflexivity.
Qed.

Lemma pit_step_hyper t es ws i gid ps m v : nth_error tys t = Some (es, ws) -> nth_error es i = Some (gid, ps) ->
  nth_error ps m = Some v ->
  let p := nsum (firstn i (map (@length Z) (epins_of es))) in
  pit_step g (PHyper t (p + m) (p + length ps)) = Some (S (idx all v), PHyper t (p + S m) (p + length ps)).
Proof.
  intros H Hi Hm p. destruct (gtype_ok _ _ _ H) as (ed & E & HE & Ht).
  assert (Lm : m < length ps) by (apply nth_error_Some; congruence).
  unfold pit_step. destruct (Nat.eqb_spec (p + m) (p + length ps)); [lia|].
  rewrite E. cbn [obind]. rewrite (er_pins _ _ _ _ _ _ HE), aget_ainit, nth_error_map.
  unfold p. rewrite (nth_error_concat _ (epins_of es) i ps m v); auto.
  - cbn [option_map obind]. do 3 f_equal; lia.
  - unfold epins_of. rewrite nth_error_map, Hi. reflexivity.
Qed.

Lemma pins_yields t es ws i gid ps : nth_error tys t = Some (es, ws) -> nth_error es i = Some (gid, ps) ->
  let p := nsum (firstn i (map (@length Z) (epins_of es))) in
  forall m, m <= length ps ->
  yields (pit_step g) (PHyper t (p + m) (p + length ps)) (map (fun v => S (idx all v)) (skipn m ps)).
Proof.
  intros H Hi p m Hm. remember (length ps - m) as k eqn:Ek. revert m Hm Ek.
  induction k as [|k IH]; intros m Hm Ek.
  - rewrite skipn_all2 by lia. cbn. replace m with (length ps) by lia.
    rewrite Nat.eqb_refl. eexists; reflexivity.
  - destruct (nth_error ps m) as [v|] eqn:Ev; [|apply nth_error_None in Ev; lia].
    assert (Es : skipn m ps = v :: skipn (S m) ps).
    { clear - Ev. revert ps Ev; induction m as [|m IH]; intros [|a ps] Ev; simpl in *; try discriminate.
      - inversion Ev; auto. - now apply IH. }
    rewrite Es. cbn [map yields]. split; [lia|].
    eexists. split; [apply (pit_step_hyper t es ws i gid ps m v H Hi Ev)|]. apply IH; lia.
Qed.

Lemma edge_pins_hyper t es ws i gid ps fuel : hyper g = true -> nth_error tys t = Some (es, ws) ->
  nth_error es i = Some (gid, ps) -> length ps < fuel ->
  edge_pins g (getEdge (ntypes g) i t) fuel = Some (map (fun v => S (idx all v)) ps).
Proof.
  intros Hh H Hi Hf. unfold edge_pins. rewrite (pins_begin_hyper t es ws i gid ps Hh H Hi). cbn [obind].
  pose proof (pins_yields t es ws i gid ps H Hi 0 ltac:(lia)) as Y. rewrite Nat.add_0_r in Y.
  apply drain_yields; [exact Y|]. now rewrite map_length.
Qed.

Lemma pins_in_all t es ws i gid ps v : nth_error tys t = Some (es, ws) -> nth_error es i = Some (gid, ps) -> In v ps -> In v all.
Proof.
  intros H Hi Hv. destruct (gtype_ok _ _ _ H) as (ed & E & HE & Ht). apply (er_incl _ _ _ _ _ _ HE).
  apply in_concat. exists ps. split; auto. unfold epins_of. apply in_map_iff. exists (gid, ps). split; auto.
  eapply nth_error_In; eauto.
Qed.

Lemma edge_pins_hyper_gids t es ws i gid ps : nth_error tys t = Some (es, ws) ->
  nth_error es i = Some (gid, ps) -> mapM (vgid g) (map (fun v => S (idx all v)) ps) = Some ps.
Proof.
  intros H Hi. assert (Hin : forall v, In v ps -> In v all) by (intros; eapply pins_in_all; eauto).
  clear - HR Hin. induction ps as [|v ps IH]; auto. cbn [map mapM].
  rewrite vgid_idx by (apply Hin; left; auto). cbn [obind]. rewrite IH; auto. intros; apply Hin; right; auto.
Qed.
End Acc.

(** ** incidence in terms of the input *)
Lemma vals_of_occs_hyper n all i es l v :
  NoDup all -> nth_error all l = Some v -> l < n -> incl (concat (map snd es)) all ->
  vals_of l (occs true n all i (map (@snd Z (list Z)) es)) =
  flat_map (fun p => repeat (fst p) (count_occ Z.eq_dec (snd (snd p)) v)) (combine (seq i (length es)) es).
Proof.
  intros Hnd Hl Hn. revert i; induction es as [|[gid ps] es IH]; intros i Hi; auto.
  cbn [map occs length seq combine flat_map fst snd]. rewrite vals_of_app. cbn [map snd concat] in Hi.
  rewrite IH by (intros x Hx; apply Hi; apply in_app_iff; auto). f_equal.
  unfold locc.
  assert (Hps : incl ps all) by (intros x Hx; apply Hi; apply in_app_iff; auto). clear - Hnd Hl Hn Hps.
  induction ps as [|w ps IH]; auto. cbn [map filter fst count_occ].
  assert (Hw : In w all) by (apply Hps; left; auto).
  assert (Hps' : incl ps all) by (intros x Hx; apply Hps; right; auto). specialize (IH Hps').
  assert (Hiff : idx all w = l <-> w = v).
  { split; intros E.
    - pose proof (idx_nth all w Hw). congruence.
    - subst w. now apply nth_idx. }
  destruct (Z.eq_dec w v) as [E|E].
  - apply Hiff in E. rewrite E. destruct (Nat.ltb_spec l n); [|lia]. unfold vals_of in *. cbn [filter fst].
    rewrite Nat.eqb_refl. cbn [map snd repeat]. now rewrite IH.
  - destruct (Nat.ltb_spec (idx all w) n); auto.
    unfold vals_of in *. cbn [filter fst]. destruct (Nat.eqb_spec (idx all w) l); [tauto|]. auto.
Qed.

Lemma vals_of_occs_trad n all i es l v :
  NoDup all -> nth_error all l = Some v -> l < n -> incl (concat (map snd es)) all ->
  vals_of l (occs false n all i (map (@snd Z (list Z)) es)) = map (idx all) (out_dests v es).
Proof.
  intros Hnd Hl Hn. revert i; induction es as [|[gid ps] es IH]; intros i Hi; auto.
  cbn [map occs out_dests flat_map fst snd]. rewrite vals_of_app, map_app. cbn [map snd concat] in Hi.
  rewrite IH by (intros x Hx; apply Hi; apply in_app_iff; auto). f_equal.
  unfold locc. destruct ps as [|u [|w ps]]; auto.
  assert (Hu : In u all) by (apply Hi; left; auto).
  assert (Hiff : idx all u = l <-> u = v).
  { split; intros E.
    - pose proof (idx_nth all u Hu). congruence.
    - subst u. now apply nth_idx. }
  destruct (Z.eqb_spec u v) as [E|E].
  - apply Hiff in E. rewrite E. destruct (Nat.ltb_spec l n); [|lia]. now rewrite vals_of_single_eq.
  - destruct (Nat.ltb_spec (idx all u) n); auto. rewrite vals_of_single_neq; auto.
    intros X; symmetry in X; tauto.
Qed.

(** ** the binary search of u(e) *)
Lemma u_search_ok (deg : arr nat) (o : nat -> nat) n e :
  (forall k, k <= n -> aget deg k = Some (o k)) -> (forall k, k < n -> o k <= o (S k)) ->
  forall fuel lo hi, lo < hi -> hi <= n -> o lo <= e -> e < o hi -> hi - lo < fuel ->
  exists u, u_search deg e fuel lo hi = Some u /\ u < n /\ o u <= e < o (S u).
Proof.
  intros Hd Hmono. induction fuel as [|f IH]; intros lo hi Hlh Hhi Hlo He Hf; [lia|].
  cbn [u_search]. set (m := (hi + lo) / 2).
  assert (Hm : lo <= m /\ m < hi).
  { unfold m. split; [apply Nat.div_le_lower_bound; lia | apply Nat.div_lt_upper_bound; lia]. }
  rewrite Hd by lia. cbn [obind]. destruct (Nat.leb_spec (o m) e) as [L|L].
  - rewrite Hd by lia. cbn [obind]. rewrite Nat.add_1_r. destruct (Nat.ltb_spec e (o (S m))) as [L2|L2].
    + exists m. split; auto. split; [lia|auto].
    + (* the code sets bound_low := index; progress because o (m+1) <= e rules out m = lo with hi = lo+1 *)
      destruct (Nat.eq_dec m lo) as [E|N].
      * subst m. assert (hi <> S lo) by (intros ->; rewrite E in L2; lia).
        exfalso. assert (hi - lo >= 2) by lia.
        assert ((hi + lo) / 2 >= S lo) by (apply Nat.div_le_lower_bound; lia). lia.
      * apply IH; auto; lia.
  - destruct (Nat.eq_dec m lo) as [E|N]; [rewrite E in L; lia|].
    apply IH; auto; try lia.
Qed.

Lemma off_mono tot k : off tot k <= off tot (S k).
Proof. unfold off. rewrite seq_snoc, map_app, nsum_app. lia. Qed.
Lemma off_mono_le tot a b : a <= b -> off tot a <= off tot b.
Proof. induction 1; auto. pose proof (off_mono tot m). lia. Qed.

Lemma off_unique tot e u v : off tot u <= e < off tot (S u) -> off tot v <= e < off tot (S v) -> u = v.
Proof. intros Hu Hv. destruct (Nat.lt_trichotomy u v) as [L|[E|L]]; auto.
  - pose proof (off_mono_le tot (S u) v L). lia.
  - pose proof (off_mono_le tot (S v) u L). lia. Qed.

Section AccTrad.
Variables (g : graph) (verts wts ghosts : list Z) (tys : list (list (Z * list Z) * list Z)).
Hypothesis HR : Rep g verts wts ghosts tys.
Let all := verts ++ ghosts.
Let n := length verts.

Lemma u_of_ok t es ws l m : nth_error tys t = Some (es, ws) -> l < n ->
  m < cnt_of l (occ_of g verts ghosts es) ->
  u_of g (getEdge (ntypes g) (off (occ_of g verts ghosts es) l + m) t) = Some (S l).
Proof.
  intros H Hl Hm. destruct (gtype_ok _ _ _ _ _ HR _ _ _ H) as (ed & E & HE & Ht).
  set (tot := occ_of g verts ghosts es) in *.
  unfold u_of. rewrite edec_getEdge by auto. cbn [obind]. unfold u_lid. rewrite E. cbn [obind].
  rewrite (rp_nlv _ _ _ _ _ HR). fold n.
  assert (He : off tot l <= off tot l + m < off tot (S l)) by (rewrite off_S; split; [apply Nat.le_add_r | apply Nat.add_lt_mono_l; exact Hm]).
  destruct (u_search_ok (e_deg ed) (off tot) n (off tot l + m)) with (fuel := n + 2) (lo := 0) (hi := n) as (u & Eu & Hu & Hr);
    auto using off_mono; try lia.
  { intros k Hk. apply (er_deg _ _ _ _ _ _ HE k Hk). }
  { unfold off; simpl; lia. }
  { pose proof (off_mono_le tot (S l) n Hl). lia. }
  fold n in Eu. rewrite Eu. cbn [obind]. rewrite (off_unique tot _ u l Hr He). now rewrite Nat.add_1_r.
Qed.

Lemma v_of_ok t es ws l m x : hyper g = false -> nth_error tys t = Some (es, ws) -> l < n ->
  nth_error (vals_of l (occ_of g verts ghosts es)) m = Some x ->
  v_of g (getEdge (ntypes g) (off (occ_of g verts ghosts es) l + m) t) = Some (S x).
Proof.
  intros Hh H Hl Hm. destruct (gtype_ok _ _ _ _ _ HR _ _ _ H) as (ed & E & HE & Ht).
  unfold v_of. rewrite Hh. destruct (Nat.eqb_spec (getEdge (ntypes g) (off (occ_of g verts ghosts es) l + m) t) 0) as [Z0|_].
  { unfold getEdge in Z0; lia. }
  rewrite edec_getEdge by auto. cbn [obind]. rewrite E. cbn [obind].
  rewrite (elist_get g verts ghosts tys t es ws ed l m x H HE Hl Hm). cbn [obind]. now rewrite Nat.add_1_r.
Qed.
End AccTrad.

(** ** build_graph satisfies the invariant *)
Lemma first_occ_add_new base ps : NoDup base -> add_new base ps = base ++ first_occ base ps.
Proof.
  cut (forall ps base seen, (forall v, In v base <-> In v seen) -> add_new base ps = base ++ first_occ seen ps).
  { intros H _. apply H. tauto. }
  clear. induction ps as [|v ps IH]; intros base seen Hs.
  - cbn. now rewrite app_nil_r.
  - change (add_new base (v :: ps)) with (add_new (add1 base v) ps). cbn [first_occ]. unfold add1.
    assert (Hb : memZ v base = existsb (Z.eqb v) seen).
    { destruct (memZ v base) eqn:E1; destruct (existsb (Z.eqb v) seen) eqn:E2; auto.
      - apply memZ_In in E1. apply Hs, memZ_In in E1. unfold memZ in E1. congruence.
      - apply (memZ_In v seen), Hs, memZ_In in E2. congruence. }
    rewrite <- Hb. destruct (memZ v base).
    + now apply IH.
    + rewrite (IH (base ++ [v]) (v :: seen)).
      * now rewrite <- app_assoc.
      * intros w. rewrite in_app_iff. cbn [In]. rewrite (Hs w). tauto.
Qed.

Lemma build_types_ok tys : forall g verts wts ghosts tys0,
  Rep g verts wts ghosts tys0 -> length tys0 + length tys <= 7 ->
  (forall es ws, In (es, ws) tys -> (ws = [] \/ length ws = length es) /\
     (hyper g = false -> forall e, In e es -> length (snd e) = 2)) ->
  exists g', foldM call_constructEdges tys g = Some g' /\
    Rep g' verts wts (skipn (length verts) (add_new (verts ++ ghosts) (all_pins tys)))
      (tys0 ++ map (fun ty => (fst ty, eff_wgts (snd ty) (length (fst ty)))) tys) /\
    hyper g' = hyper g /\ self g' = self g /\ owners g' = owners g.
Proof.
  induction tys as [|[es ws] tys IH]; intros g verts wts ghosts tys0 HR Hlen Hval.
  - exists g. cbn. rewrite app_nil_r. rewrite skipn_app_exact. auto.
  - destruct (Hval es ws (or_introl eq_refl)) as [Hw H2].
    destruct (constructEdges_ok g verts wts ghosts tys0 es ws HR) as (g1 & E1 & R1 & Eh & Es & Eo); auto.
    { intros Hh. apply Forall_forall. intros ps Hp. unfold epins_of in Hp. apply in_map_iff in Hp as (e & <- & He). auto. }
    { rewrite (ntypes_tys _ _ _ _ _ HR). simpl in Hlen. lia. }
    cbn [foldM]. unfold call_constructEdges at 1. cbn [fst snd].
    change (pins_of es) with (epins_of es). rewrite E1. cbn [obind].
    destruct (IH g1 verts wts _ _ R1) as (g2 & E2 & R2 & Eh2 & Es2 & Eo2).
    { rewrite app_length. simpl in *. lia. }
    { intros es' ws' Hin. rewrite Eh. apply Hval. right; auto. }
    exists g2. split; auto. split; [|split; [|split]; congruence].
    cbn [map fst snd all_pins flat_map]. rewrite <- app_assoc in R2. cbn [app] in R2.
    assert (Ebase : verts ++ skipn (length verts) (add_new (verts ++ ghosts) (concat (epins_of es))) =
                    add_new (verts ++ ghosts) (concat (epins_of es))).
    { destruct (add_new_ext (verts ++ ghosts) (concat (epins_of es))) as [m ->].
      rewrite <- app_assoc, skipn_app_exact. reflexivity. }
    rewrite Ebase in R2. rewrite <- add_new_app in R2. exact R2.
Qed.

Theorem build_graph_ok me hg verts vws tys : valid_input hg verts vws tys ->
  exists g, build_graph me hg verts vws tys = Some g /\
   Rep g verts (vws ++ repeat 1%Z (length verts - length vws)) (ghosts_of verts tys)
     (map (fun ty => (fst ty, eff_wgts (snd ty) (length (fst ty)))) tys) /\
   hyper g = hg /\ self g = me /\ owners g = [].
Proof.
  intros (Hnd & Hvw & Hty & Hval). unfold build_graph.
  destruct (constructVerts_ok me hg verts vws Hnd Hvw) as (g0 & E0 & R0 & Eh & Es & Eo).
  rewrite E0. cbn [obind].
  destruct (build_types_ok tys g0 verts _ [] [] R0) as (g1 & E1 & R1 & Eh1 & Es1 & Eo1).
  { exact Hty. }
  { rewrite Eh. auto. }
  exists g1. split; auto. rewrite app_nil_r in R1. rewrite first_occ_add_new in R1 by auto.
  rewrite skipn_app_exact in R1. cbn [app] in R1.
  split; auto. repeat split; congruence.
Qed.
