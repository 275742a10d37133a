(** Neighbour iteration, owners, residence, cut, weights. *)
From Verif Require Import Base GraphModel CsrProofs ConstructProofs GraphSpec AccessProofs.

Section Adj.
Variables (g : graph) (verts wts ghosts : list Z) (tys : list (list (Z * list Z) * list Z)).
Hypothesis HR : Rep g verts wts ghosts tys.
Variables (t : nat) (es : list (Z * list Z)) (ws : list Z).
Hypothesis Ht : nth_error tys t = Some (es, ws).
Let all := verts ++ ghosts.
Let n := length verts.
Let h (v : Z) : nat := S (idx all v).
Let poff (i : nat) := nsum (firstn i (map (@length Z) (epins_of es))).

Definition pins_at (i : nat) : list Z := match nth_error es i with Some e => snd e | None => [] end.

Lemma adj_hyper_outer : hyper g = true -> forall r eit count pit edge d,
  yields (eit_step g) eit (map (fun i => getEdge (ntypes g) i t) r) ->
  (forall i, In i r -> exists gid ps, nth_error es i = Some (gid, ps) /\ ps <> []) ->
  edegree g edge = Some d -> d <= count ->
  yields (adj_step g) (mkGiter count eit pit edge) (flat_map (fun i => map h (pins_at i)) r).
Proof.
  intros Hh. induction r as [|i r IH]; intros eit count pit edge d Hy Hr Hd Hc.
  - cbn in Hy. destruct Hy as [eit' Hy]. cbn. exists (mkGiter count eit' None edge).
    unfold adj_step. rewrite Hh. cbn [gi_edge gi_count gi_eit]. rewrite Hd. cbn [obind].
    destruct (Nat.leb_spec d count); [|lia]. rewrite Hy. reflexivity.
  - cbn [map yields] in Hy. destruct Hy as (Hne & eit' & Hy & Hy').
    destruct (Hr i (or_introl eq_refl)) as (gid & ps & Hi & Hps).
    cbn [flat_map]. assert (Hpa : pins_at i = ps) by (unfold pins_at; now rewrite Hi).
    rewrite Hpa.
    (* inner loop *)
    assert (Hin : forall k m, m + k = length ps -> 1 <= m ->
      yields (adj_step g) (mkGiter m eit' (Some (PHyper t (poff i + m) (poff i + length ps))) (getEdge (ntypes g) i t))
        (map h (skipn m ps) ++ flat_map (fun i => map h (pins_at i)) r)).
    { induction k as [|k IHk]; intros m Hm H1.
      - rewrite skipn_all2 by lia. cbn [map app]. eapply IH with (d := length ps); eauto; try lia.
        + intros j Hj. apply Hr. right; auto.
        + apply (edegree_hyper _ _ _ _ _ HR t es ws i gid ps Hh Ht Hi).
      - destruct (nth_error ps m) as [v|] eqn:Ev; [|apply nth_error_None in Ev; lia].
        assert (Es : skipn m ps = v :: skipn (S m) ps).
        { clear - Ev. revert ps Ev; induction m as [|m IHm]; intros [|a ps] Ev; simpl in *; try discriminate.
          - inversion Ev; auto. - now apply IHm. }
        rewrite Es. cbn [map app yields]. split; [unfold h; lia|].
        eexists; split.
        + unfold adj_step. rewrite Hh. cbn [gi_edge gi_count gi_eit gi_pit].
          rewrite (edegree_hyper _ _ _ _ _ HR t es ws i gid ps Hh Ht Hi). cbn [obind].
          destruct (Nat.leb_spec (length ps) m); [lia|].
          cbn [obind]. pose proof (pit_step_hyper _ _ _ _ _ HR t es ws i gid ps m v Ht Hi Ev) as Hp.
          cbv zeta in Hp. fold (poff i) in Hp. rewrite Hp. cbn [obind].
          rewrite Nat.add_1_r. reflexivity.
        + apply IHk; lia. }
    destruct ps as [|v ps']; [congruence|]. cbn [map app yields]. split; [unfold h; lia|].
    eexists; split.
    + unfold adj_step. rewrite Hh. cbn [gi_edge gi_count gi_eit gi_pit]. rewrite Hd. cbn [obind].
      destruct (Nat.leb_spec d count); [|lia]. rewrite Hy. cbn [obind].
      destruct (Nat.eqb_spec (getEdge (ntypes g) i t) 0); [congruence|].
      rewrite (pins_begin_hyper _ _ _ _ _ HR t es ws i gid (v :: ps') Hh Ht Hi). cbn [obind].
      pose proof (pit_step_hyper _ _ _ _ _ HR t es ws i gid (v :: ps') 0 v Ht Hi eq_refl) as Hp.
      cbv zeta in Hp. rewrite Nat.add_0_r in Hp. rewrite Hp. cbn [obind]. reflexivity.
    + change (map h ps') with (map h (skipn 1 (v :: ps'))). apply Hin with (k := length ps'); simpl; lia.
Qed.

Lemma vals_in_pins l i : l < n -> hyper g = true -> In i (vals_of l (occ_of g verts ghosts es)) ->
  exists gid ps, nth_error es i = Some (gid, ps) /\ ps <> [].
Proof.
  intros Hl Hh Hin.
  destruct (nth_error all l) as [v|] eqn:Ev.
  2:{ apply nth_error_None in Ev. unfold all in Ev. rewrite app_length in Ev. unfold n in Hl. lia. }
  destruct (gtype_ok _ _ _ _ _ HR _ _ _ Ht) as (ed & _ & HE & _).
  unfold occ_of in Hin. rewrite Hh in Hin. unfold epins_of in Hin.
  rewrite (vals_of_occs_hyper _ _ _ _ _ v (rp_nd _ _ _ _ _ HR) Ev Hl (er_incl _ _ _ _ _ _ HE)) in Hin.
  apply in_flat_map in Hin as ([k [gid ps]] & Hc & Hrep). cbn [fst snd] in Hrep.
  destruct (count_occ Z.eq_dec ps v) eqn:Ec; [destruct Hrep|].
  apply repeat_spec in Hrep. subst k. exists gid, ps. split.
  - clear - Hc. apply In_nth_error in Hc as [m Hm].
    assert (Hm' : m < length es).
    { assert (m < length (combine (seq 0 (length es)) es)) by (apply nth_error_Some; congruence).
      rewrite combine_length, seq_length in H. lia. }
    assert (Hc : nth_error (combine (seq 0 (length es)) es) m =
       match nth_error es m with Some e => Some (m, e) | None => None end).
    { assert (G : forall a (l : list (Z * list Z)) m, nth_error (combine (seq a (length l)) l) m =
        match nth_error l m with Some e => Some (a + m, e) | None => None end).
      { intros a l; revert a; induction l as [|x l IH]; intros a [|j]; simpl; auto.
        - do 2 f_equal; lia. - rewrite IH. destruct (nth_error l j); auto. do 2 f_equal; lia. }
      apply (G 0). }
    rewrite Hm in Hc. destruct (nth_error es m) eqn:E; [|discriminate]. inversion Hc; subst. auto.
  - intros ->. simpl in Ec. discriminate.
Qed.

Lemma adjacent_hyper l fuel : hyper g = true -> l < n ->
  let nb := flat_map pins_at (vals_of l (occ_of g verts ghosts es)) in
  length nb < fuel -> adjacent g (S l) t fuel = Some (map h nb).
Proof.
  intros Hh Hl nb Hf. unfold adjacent, adj_begin.
  pose proof (vertex_edges_hyper _ _ _ _ _ HR t es ws l) as VE.
  destruct (gtype_ok _ _ _ _ _ HR _ _ _ Ht) as (ed & E & HE & Hlt).
  assert (Hy : exists it, eit_vertex g (S l) t = Some it /\
     yields (eit_step g) it (map (fun i => getEdge (ntypes g) i t) (vals_of l (occ_of g verts ghosts es)))).
  { specialize (VE (S (cnt_of l (occ_of g verts ghosts es))) Hh Ht Hl ltac:(lia)).
    unfold vertex_edges in VE. destruct (eit_vertex g (S l) t) as [it|] eqn:Eit; [|discriminate]. cbn [obind] in VE.
    exists it; split; auto. clear - VE. revert VE. generalize (S (cnt_of l (occ_of g verts ghosts es))) as fuel.
    generalize (map (fun i => getEdge (ntypes g) i t) (vals_of l (occ_of g verts ghosts es))) as L.
    intros L fuel. revert it L. induction fuel as [|f IH]; intros it L H; simpl in H; [discriminate|].
    destruct (eit_step g it) as [[x it']|] eqn:Es; simpl in H; [|discriminate].
    destruct (Nat.eqb_spec x 0).
    - inversion H; subst. simpl. eauto.
    - destruct (drain (eit_step g) f it') as [r|] eqn:Ed; simpl in H; [|discriminate]. inversion H; subst.
      cbn [yields]. split; auto. exists it'. split; auto. }
  destruct Hy as (it & Eit & Hy). rewrite Eit. cbn [obind].
  assert (Hmap : map h nb = flat_map (fun i => map h (pins_at i)) (vals_of l (occ_of g verts ghosts es))).
  { unfold nb. clear. induction (vals_of l (occ_of g verts ghosts es)) as [|i r IH]; auto. cbn [flat_map].
    now rewrite map_app, IH. }
  rewrite Hmap. apply drain_yields.
  - eapply adj_hyper_outer; eauto.
    + intros i Hi. eapply vals_in_pins; eauto.
    + unfold edegree. rewrite Hh. reflexivity.
  - rewrite <- Hmap, map_length. exact Hf.
Qed.

Lemma adjacent_trad l fuel : hyper g = false -> l < n ->
  cnt_of l (occ_of g verts ghosts es) < fuel ->
  adjacent g (S l) t fuel = Some (map S (vals_of l (occ_of g verts ghosts es))).
Proof.
  intros Hh Hl Hf. unfold adjacent, adj_begin.
  destruct (gtype_ok _ _ _ _ _ HR _ _ _ Ht) as (ed & E & HE & Hlt).
  set (tot := occ_of g verts ghosts es) in *.
  assert (Eit : eit_vertex g (S l) t = Some (mk_eiter t (ntypes g) (off tot l) (cnt_of l tot) false)).
  { unfold eit_vertex. cbn [vlid obind]. rewrite E. cbn [obind]. rewrite (er_deg _ _ _ _ _ _ HE) by (fold n; lia).
    cbn [obind]. rewrite (vdegree_ok _ _ _ _ _ HR t es ws l Ht Hl). reflexivity. }
  rewrite Eit. cbn [obind]. apply drain_yields; [|rewrite map_length; exact Hf].
  assert (G : forall j m pit edge c, m + j = cnt_of l tot ->
    yields (adj_step g) (mkGiter c (mkEiter (getEdge (ntypes g) (off tot l + m) t)
        (getEdge (ntypes g) (off tot l + cnt_of l tot) t) (ntypes g) false) pit edge)
      (map S (skipn m (vals_of l tot)))).
  { induction j as [|j IH]; intros m pit edge c Hm.
    - rewrite skipn_all2 by (unfold cnt_of in Hm; lia). cbn [map yields]. eexists. unfold adj_step. rewrite Hh.
      cbn [gi_eit]. unfold eit_step. cbn [ei_end ei_loc]. replace m with (cnt_of l tot) by lia.
      rewrite Nat.leb_refl. cbn [obind]. unfold v_of. rewrite Hh. cbn. reflexivity.
    - destruct (nth_error (vals_of l tot) m) as [x|] eqn:Ev.
      2:{ apply nth_error_None in Ev. unfold cnt_of in Hm; lia. }
      assert (Es : skipn m (vals_of l tot) = x :: skipn (S m) (vals_of l tot)).
      { clear - Ev. revert Ev. generalize (vals_of l tot) as ps. induction m as [|m IHm]; intros [|a ps] Ev; simpl in *; try discriminate.
        - inversion Ev; auto. - now apply IHm. }
      rewrite Es. cbn [map yields]. split; [lia|]. eexists. split.
      + unfold adj_step. rewrite Hh. cbn [gi_eit gi_count gi_pit]. unfold eit_step. cbn [ei_end ei_loc ei_nt ei_hyper].
        assert (Hlt2 : getEdge (ntypes g) (off tot l + m) t < getEdge (ntypes g) (off tot l + cnt_of l tot) t).
        { unfold getEdge. assert (ntypes g * (off tot l + m) < ntypes g * (off tot l + cnt_of l tot))
            by (apply Nat.mul_lt_mono_pos_l; lia). lia. }
        destruct (Nat.leb_spec (getEdge (ntypes g) (off tot l + cnt_of l tot) t) (getEdge (ntypes g) (off tot l + m) t)); [lia|].
        rewrite Hh. cbn [andb obind].
        pose proof (v_of_ok _ _ _ _ _ HR t es ws l m x Hh Ht Hl Ev) as Hv. fold tot in Hv. rewrite Hv.
        cbn [obind]. reflexivity.
      + replace (getEdge (ntypes g) (off tot l + m) t + ntypes g) with (getEdge (ntypes g) (off tot l + S m) t).
        2:{ unfold getEdge. replace (off tot l + S m) with (off tot l + m + 1) by lia. rewrite Nat.mul_add_distr_l. lia. }
        apply IH. lia. }
  specialize (G (cnt_of l tot) 0 None 0 0 eq_refl). cbn [skipn] in G.
  unfold mk_eiter. unfold getEdge in G. rewrite Nat.add_0_r in G.
  replace (1 + t + ntypes g * off tot l) with (ntypes g * off tot l + t + 1) by lia.
  replace (1 + t + ntypes g * (off tot l + cnt_of l tot)) with (ntypes g * (off tot l + cnt_of l tot) + t + 1) by lia.
  exact G.
Qed.
End Adj.

(** ** owners *)
Definition look (owns : zmap Z) (v : Z) : Z := match zfind owns v with Some p => p | None => 0%Z end.

Definition RepO (g : graph) (ghosts : list Z) (ow : Z -> Z) : Prop := owners g = ainit (map ow ghosts).

Lemma constructGhosts_owners_ok g verts wts ghosts tys owns : Rep g verts wts ghosts tys ->
  exists g', constructGhosts_owners g owns = Some g' /\ Rep g' verts wts ghosts tys /\
    RepO g' ghosts (look owns) /\ hyper g' = hyper g /\ self g' = self g /\ types g' = types g.
Proof.
  intros HR. unfold constructGhosts_owners.
  destruct (foldM_inv (fun (a : arr Z) v => gid <- aget (gunmap g) v ;;
                 aset a v (match zfind owns gid with Some p => p | None => 0%Z end))
     (fun pre a => a = ainit (map (look owns) (firstn (length pre) ghosts)) ++ anew (length ghosts - length pre))
     (seq 0 (ngv g)) (anew (ngv g))) as (a & E & Ha).
  - simpl. rewrite (rp_ngv _ _ _ _ _ HR), Nat.sub_0_r. reflexivity.
  - intros pre x post a Hs Ha. rewrite (rp_ngv _ _ _ _ _ HR) in Hs.
    assert (N : nth_error (seq 0 (length ghosts)) (length pre) = Some x).
    { rewrite Hs, nth_error_app2, Nat.sub_diag; auto. }
    assert (L : length pre < length ghosts).
    { rewrite <- (seq_length (length ghosts) 0), Hs, app_length; simpl; lia. }
    rewrite nth_error_seq in N by auto. inversion N; subst x. cbn [Nat.add].
    destruct (nth_error ghosts (length pre)) as [v|] eqn:Ev; [|apply nth_error_None in Ev; lia].
    rewrite (rp_gun _ _ _ _ _ HR), aget_ainit, Ev. cbn [obind]. fold (look owns v).
    assert (Lf : length (map (look owns) (firstn (length pre) ghosts)) = length pre) by (rewrite map_length, firstn_length; lia).
    rewrite aset_some by (rewrite Ha, app_length, ainit_length, anew_length, Lf; lia).
    eexists; split; [reflexivity|]. rewrite app_length. cbn [length].
    replace (length pre + 1) with (S (length pre)) by lia. rewrite (firstn_S_nth _ _ _ _ Ev), map_app. cbn [map].
    replace (length ghosts - length pre) with (S (length ghosts - S (length pre))) in Ha by lia.
    rewrite Ha. rewrite <- Lf at 3. apply snoc_upd.
  - rewrite E. cbn [obind]. rewrite seq_length, (rp_ngv _ _ _ _ _ HR), firstn_all, Nat.sub_diag in Ha.
    cbn [anew repeat] in Ha. rewrite app_nil_r in Ha.
    eexists; split; [reflexivity|]. cbn. split; [destruct HR; constructor; auto|]. repeat split; auto.
Qed.

Section Own.
Variables (g : graph) (verts wts ghosts : list Z) (tys : list (list (Z * list Z) * list Z)) (ow : Z -> Z).
Hypothesis HR : Rep g verts wts ghosts tys.
Hypothesis HO : RepO g ghosts ow.
Let all := verts ++ ghosts.
Let n := length verts.

Definition owner_spec (v : Z) : Z := if memZ v verts then self g else ow v.

Lemma owner_ok v : In v all -> owner g (S (idx all v)) = Some (owner_spec v).
Proof.
  intros Hv. pose proof (idx_lt _ _ Hv) as Hl. unfold all in Hl. rewrite app_length in Hl.
  unfold owner. cbn [vlid]. rewrite (rp_nlv _ _ _ _ _ HR), (rp_ngv _ _ _ _ _ HR).
  fold n. destruct (Nat.leb_spec (n + length ghosts) (idx all v)) as [L|_]; [unfold n, all in *; lia|].
  unfold owner_spec. destruct (memZ v verts) eqn:E.
  - apply memZ_In in E. unfold all. rewrite idx_app by auto. pose proof (idx_lt _ _ E).
    destruct (Nat.ltb_spec (idx verts v) n); [auto|unfold n in *; lia].
  - assert (Hn : ~ In v verts) by (rewrite <- memZ_In; congruence).
    pose proof (idx_nth _ _ Hv) as Hk. fold all in Hk.
    destruct (Nat.ltb_spec (idx all v) n) as [L|L].
    + unfold all in Hk. rewrite nth_error_app1 in Hk by auto. apply nth_error_In in Hk. tauto.
    + unfold all in Hk at 1. rewrite nth_error_app2 in Hk by auto.
      rewrite HO, aget_ainit, nth_error_map. fold n in Hk. rewrite Hk. reflexivity.
Qed.

Lemma mapM_owner ps : incl ps all -> mapM (owner g) (map (fun v => S (idx all v)) ps) = Some (map owner_spec ps).
Proof.
  induction ps as [|v ps IH]; intros H; auto. cbn [map mapM].
  rewrite owner_ok by (apply H; left; auto). cbn [obind]. rewrite IH; auto. intros x Hx; apply H; right; auto.
Qed.

Lemma yields_iter_n S (step : S -> option (nat * S)) l s : yields step s l -> iter_n step (length l) s = Some l.
Proof. revert s; induction l as [|x l IH]; intros s H; auto. destruct H as (_ & s' & E & Hy).
  cbn [length iter_n]. rewrite E. cbn [obind]. rewrite (IH s' Hy). reflexivity. Qed.

Lemma getResidence_hyper t es ws i gid ps : hyper g = true -> nth_error tys t = Some (es, ws) -> nth_error es i = Some (gid, ps) ->
  getResidence g (getEdge (ntypes g) i t) = Some (map owner_spec ps).
Proof.
  intros Hh H Hi. unfold getResidence. rewrite (pins_begin_hyper _ _ _ _ _ HR t es ws i gid ps Hh H Hi). cbn [obind].
  rewrite (edegree_hyper _ _ _ _ _ HR t es ws i gid ps Hh H Hi). cbn [obind].
  pose proof (pins_yields _ _ _ _ _ HR t es ws i gid ps H Hi 0 ltac:(lia)) as Y. rewrite Nat.add_0_r in Y. cbn [skipn] in Y.
  apply yields_iter_n in Y. rewrite map_length in Y. rewrite Y. cbn [obind].
  apply mapM_owner. intros v Hv. eapply pins_in_all; eauto.
Qed.

Lemma isResidentOn_hyper t es ws i gid ps peer : hyper g = true -> nth_error tys t = Some (es, ws) -> nth_error es i = Some (gid, ps) ->
  isResidentOn g (getEdge (ntypes g) i t) peer = Some (memZ peer (map owner_spec ps)).
Proof.
  intros Hh H Hi. unfold isResidentOn. rewrite (pins_begin_hyper _ _ _ _ _ HR t es ws i gid ps Hh H Hi). cbn [obind].
  rewrite (edegree_hyper _ _ _ _ _ HR t es ws i gid ps Hh H Hi). cbn [obind].
  pose proof (pins_yields _ _ _ _ _ HR t es ws i gid ps H Hi 0 ltac:(lia)) as Y. rewrite Nat.add_0_r in Y. cbn [skipn] in Y.
  assert (Hin : incl ps all) by (intros v Hv; eapply pins_in_all; eauto).
  revert Y. generalize (PHyper t (nsum (firstn i (map (length (A:=Z)) (epins_of es))))
     (nsum (firstn i (map (length (A:=Z)) (epins_of es))) + length ps)) as it.
  clear - HR HO Hin n. revert Hin. fold all. induction ps as [|v ps IH]; intros Hin it Y; auto.
  destruct Y as (_ & it' & E & Y). cbn [length resident_loop]. rewrite E. cbn [obind].
  rewrite owner_ok by (apply Hin; left; auto). cbn [obind map]. unfold memZ. cbn [existsb].
  rewrite Z.eqb_sym. destruct (Z.eqb_spec peer (owner_spec v)); auto.
  cbn [orb]. fold (memZ peer (map owner_spec ps)). apply IH; auto. intros x Hx; apply Hin; right; auto.
Qed.

(** the loop of isCut once a part is known *)
Definition cut_spec (os : list Z) : bool :=
  match os with [] => false | o :: r => existsb (fun x => negb (Z.eqb x o)) r end.

Lemma cut_loop_known fuel part it ps : (part <> -1)%Z -> incl ps all -> length ps < fuel ->
  yields (pit_step g) it (map (fun v => S (idx all v)) ps) ->
  cut_loop g fuel part it = Some (existsb (fun x => negb (Z.eqb x part)) (map owner_spec ps)).
Proof.
  intros Hp. revert fuel it; induction ps as [|v ps IH]; intros [|f] it Hin Hf Y; simpl in Hf; try lia.
  - destruct Y as [it' E]. cbn [cut_loop]. rewrite E. reflexivity.
  - destruct Y as (_ & it' & E & Y). cbn [cut_loop]. rewrite E. cbn [obind].
    change (S (idx all v) =? 0) with false. cbn [obind].
    rewrite owner_ok by (apply Hin; left; auto). cbn [obind].
    destruct (Z.eqb_spec part (-1)); [congruence|]. cbn [map existsb].
    rewrite (Z.eqb_sym (owner_spec v) part). destruct (Z.eqb_spec part (owner_spec v)) as [Eo|]; auto.
    cbn [negb orb]. apply IH; auto; [|lia]. intros x Hx; apply Hin; right; auto.
Qed.

Lemma isCut_hyper t es ws i gid ps fuel : hyper g = true -> nth_error tys t = Some (es, ws) -> nth_error es i = Some (gid, ps) ->
  (forall v, In v ps -> owner_spec v <> (-1)%Z) -> length ps < fuel ->
  isCut g (getEdge (ntypes g) i t) fuel = Some (cut_spec (map owner_spec ps)).
Proof.
  intros Hh H Hi Hpos Hf. unfold isCut. rewrite (pins_begin_hyper _ _ _ _ _ HR t es ws i gid ps Hh H Hi). cbn [obind].
  pose proof (pins_yields _ _ _ _ _ HR t es ws i gid ps H Hi 0 ltac:(lia)) as Y. rewrite Nat.add_0_r in Y. cbn [skipn] in Y.
  assert (Hin : incl ps all) by (intros v Hv; eapply pins_in_all; eauto).
  destruct fuel as [|f]; [lia|]. destruct ps as [|v ps].
  - destruct Y as [it' E]. cbn [cut_loop]. rewrite E. reflexivity.
  - destruct Y as (_ & it' & E & Y). cbn [cut_loop]. rewrite E. cbn [obind].
    fold all. change (S (idx all v) =? 0) with false. cbn [obind].
    rewrite owner_ok by (apply Hin; left; auto). cbn [obind].
    destruct (Z.eqb_spec (-1) (-1)); [|congruence]. cbn [map cut_spec].
    apply cut_loop_known; auto.
    + apply Hpos; left; auto.
    + intros x Hx; apply Hin; right; auto.
    + simpl in Hf; lia.
Qed.
End Own.

(** ** weights and ids of hyperedges *)
Lemma eweight_ok g verts wts ghosts tys t es ws i w : Rep g verts wts ghosts tys ->
  nth_error tys t = Some (es, ws) -> nth_error ws i = Some w -> eweight g (getEdge (ntypes g) i t) = Some w.
Proof.
  intros HR H Hi. destruct (gtype_ok _ _ _ _ _ HR _ _ _ H) as (ed & E & HE & Ht).
  unfold eweight. rewrite edec_getEdge by auto. cbn [obind]. rewrite E. cbn [obind].
  rewrite (er_wgts _ _ _ _ _ _ HE), aget_ainit. auto.
Qed.
Lemma egid_hyper g verts wts ghosts tys t es ws i gid ps : Rep g verts wts ghosts tys -> hyper g = true ->
  nth_error tys t = Some (es, ws) -> nth_error es i = Some (gid, ps) -> egid g (getEdge (ntypes g) i t) = Some gid.
Proof.
  intros HR Hh H Hi. destruct (gtype_ok _ _ _ _ _ HR _ _ _ H) as (ed & E & HE & Ht).
  unfold egid. rewrite edec_getEdge by auto. cbn [obind]. rewrite Hh, E. cbn [obind].
  rewrite (er_unmap _ _ _ _ _ _ HE), aget_ainit, nth_error_map, Hi. reflexivity.
Qed.
Lemma vweight_ok g verts wts ghosts tys l w : Rep g verts wts ghosts tys -> nth_error wts l = Some w ->
  vweight g (S l) = Some w.
Proof.
  intros HR Hl. unfold vweight. cbn [vlid obind]. rewrite (rp_nlv _ _ _ _ _ HR).
  assert (L : l < length wts) by (apply nth_error_Some; congruence). rewrite (rp_wlen _ _ _ _ _ HR) in L.
  destruct (Nat.ltb_spec l (length verts)); [|lia]. rewrite (rp_lwg _ _ _ _ _ HR), aget_ainit. auto.
Qed.

(** ** pins of a traditional edge *)
Lemma edge_pins_trad g verts wts ghosts tys t es ws l m x fuel : Rep g verts wts ghosts tys -> hyper g = false ->
  nth_error tys t = Some (es, ws) -> l < length verts ->
  nth_error (vals_of l (occ_of g verts ghosts es)) m = Some x -> 2 < fuel ->
  edge_pins g (getEdge (ntypes g) (off (occ_of g verts ghosts es) l + m) t) fuel =
    Some (if l =? x then [S l] else [S l; S x]).
Proof.
  intros HR Hh H Hl Hm Hf. destruct (gtype_ok _ _ _ _ _ HR _ _ _ H) as (ed & E & HE & Ht).
  unfold edge_pins, pins_begin. rewrite edec_getEdge by auto. cbn [obind]. rewrite E. cbn [obind]. rewrite Hh.
  rewrite (u_of_ok _ _ _ _ _ HR t es ws l m H Hl).
  2:{ unfold cnt_of. apply nth_error_Some. congruence. }
  cbn [obind]. rewrite (elist_get g verts ghosts tys t es ws ed l m x H HE Hl Hm). cbn [obind].
  apply drain_yields; [|destruct (l =? x); simpl; lia].
  rewrite Nat.add_1_r. destruct (Nat.eqb_spec l x) as [->|N].
  - cbn. split; [lia|]. rewrite Nat.eqb_refl. eexists; split; [reflexivity|]. cbn. eauto.
  - cbn [yields]. split; [lia|]. eexists; split.
    + cbn [pit_step]. destruct (Nat.eqb_spec (S l) (S x)); [congruence|]. reflexivity.
    + cbn [yields]. split; [lia|]. eexists; split.
      * cbn [pit_step]. rewrite Nat.eqb_refl. reflexivity.
      * cbn. eauto.
Qed.
