(** The steps of migrate on one part of a traditional graph. *)
From Verif Require Import Base GraphModel CsrProofs ConstructProofs GraphSpec AccessProofs AccessProofs2 GraphTop GraphTop3 Comm TagModel TagProps MigrateModel MigrateSpec MigrateProofs1 MigrateProofs2 MigrateProofs3 TradSpec.

Definition arc_of (e : edge_input) : arc := match snd e with u :: w :: _ => (u, w) | _ => (0, 0)%Z end.
Lemma pin2_inj a b : pin2 a = pin2 b -> a = b.
Proof. destruct a, b. unfold pin2. cbn. congruence. Qed.

Lemma out_len v (es : list edge_input) : length (out_dests v es) <= length es.
Proof.
  unfold out_dests. induction es as [|e l IH]; [auto|]. cbn [flat_map length]. rewrite app_length.
  assert (length (match snd e with u :: w :: _ => if Z.eqb u v then [w] else [] | _ => [] end) <= 1); [|lia].
  destruct (snd e) as [|u [|w ps]]; cbn; auto. destruct (Z.eqb u v); cbn; auto.
Qed.

Section TP.
Variables (g : graph) (verts wts ghosts : list Z) (tys : list (list (Z * list Z) * list Z)) (ow : Z -> Z) (r : nat) (oo : list Z).
Hypothesis HR : Rep g verts wts ghosts tys.
Hypothesis HO : RepO g ghosts ow.
Hypothesis HH : hyper g = false.
Hypothesis HS : self g = Z.of_nat r.
Hypothesis HL : length oo = length verts.
Variables (es : list (Z * list Z)) (ws : list Z) (w0 : Z).
Hypothesis H0 : nth_error tys 0 = Some (es, ws).
Hypothesis H2 : forall e, In e es -> length (snd e) = 2.
Hypothesis HLS : local_sources verts es.
Hypothesis HNL : forall e, In e es -> fst (arc_of e) <> snd (arc_of e).
Hypothesis HW : Forall (eq w0) ws.
Notation all := (verts ++ ghosts).
Notation hd v := (S (idx (verts ++ ghosts) v)).
Notation own_now := (own_now verts ow r).
Notation tot := (occ_of g verts ghosts es).
Notation eh i := (getEdge (ntypes g) i 0).
Notation nm k := (nth k all 0%Z).

Lemma t_incl : incl (concat (map snd es)) all.
Proof. destruct (gtype_ok _ _ _ _ _ HR _ _ _ H0) as (ed & _ & HE & _). apply (er_incl _ _ _ _ _ _ HE). Qed.
Lemma t_wlen : length ws = length es.
Proof. destruct (gtype_ok _ _ _ _ _ HR _ _ _ H0) as (ed & _ & HE & _). apply (er_wlen _ _ _ _ _ _ HE). Qed.
Lemma t_pins e : In e es -> snd e = pin2 (arc_of e) /\ In (fst (arc_of e)) verts /\ In (snd (arc_of e)) all.
Proof.
  intros He. pose proof (H2 e He) as L. destruct e as (gid, ps). unfold arc_of, pin2. cbn [snd] in *.
  destruct ps as [|u [|w [|]]]; try discriminate. cbn [fst snd]. split; [reflexivity|]. split.
  - apply (HLS (gid, [u; w]) u w); auto.
  - apply t_incl. apply in_concat. exists [u; w]. split; [|cbn; auto]. apply in_map_iff. exists (gid, [u; w]). auto.
Qed.
Lemma t_tot : tot = map (fun e => (idx all (fst (arc_of e)), idx all (snd (arc_of e)))) es.
Proof.
  unfold occ_of, epins_of. rewrite HH.
  assert (G : forall l i, incl l es -> occs false (length verts) all i (map snd l) = map (fun e => (idx all (fst (arc_of e)), idx all (snd (arc_of e)))) l).
  { induction l as [|e l IH]; intros i Hl; auto. cbn [map occs]. rewrite IH by (intros x Hx; apply Hl; right; auto).
    destruct (t_pins e (Hl e (or_introl eq_refl))) as (-> & Hu & _). unfold pin2. cbn [locc].
    pose proof (idx_lt _ _ Hu) as Lu. rewrite (idx_app verts ghosts _ Hu). destruct (Nat.ltb_spec (idx verts (fst (arc_of e))) (length verts)); [reflexivity|lia]. }
  apply G. apply incl_refl.
Qed.
Lemma t_keys p : In p tot -> fst p < length verts.
Proof.
  rewrite t_tot. intros H. apply in_map_iff in H as (e & <- & He). cbn [fst]. destruct (t_pins e He) as (_ & Hu & _). rewrite idx_app by auto. now apply idx_lt.
Qed.
Lemma t_off : off tot (length verts) = length es.
Proof.
  transitivity (length (flat_map (fun u => map (fun x => (u, x)) (vals_of u tot)) (seq 0 (length verts)))).
  - unfold off. rewrite flat_map_concat_map, length_concat, map_map. f_equal. apply map_ext. intros u. now rewrite map_length.
  - rewrite (Permutation_length (rows_perm tot _ t_keys)), t_tot. apply map_length.
Qed.
(** the arcs in storage order *)
Definition rows : list (nat * nat) := flat_map (fun u => map (fun x => (u, x)) (vals_of u tot)) (seq 0 (length verts)).
Definition sarcs : list arc := map (fun p => (nm (fst p), nm (snd p))) rows.
Lemma sarcs_len : length sarcs = length es.
Proof. unfold sarcs, rows. rewrite map_length, (Permutation_length (rows_perm tot _ t_keys)), t_tot. apply map_length. Qed.
Lemma nm_idx v : In v all -> nm (idx all v) = v.
Proof. intros H. apply nth_error_nth. now apply idx_nth. Qed.
Lemma sarcs_perm : Permutation sarcs (map arc_of es).
Proof.
  unfold sarcs, rows. etransitivity; [apply Permutation_map, rows_perm, t_keys|]. rewrite t_tot, map_map.
  erewrite map_ext_in; [apply Permutation_refl|]. intros e He. cbn [fst snd]. destruct (t_pins e He) as (_ & Hu & Hw).
  rewrite !nm_idx by (auto; apply in_app_iff; auto). destruct (arc_of e); reflexivity.
Qed.
Lemma sarcs_in a : In a sarcs -> In (fst a) verts /\ In (snd a) all /\ fst a <> snd a.
Proof.
  intros H. apply (Permutation_in _ sarcs_perm) in H. apply in_map_iff in H as (e & <- & He). destruct (t_pins e He) as (_ & Hu & Hw). auto.
Qed.
Lemma nth_row l m x : l < length verts -> nth_error (vals_of l tot) m = Some x -> nth_error sarcs (off tot l + m) = Some (nm l, nm x).
Proof.
  intros Hl Hm. unfold sarcs, rows. rewrite flat_map_concat_map, nth_error_map.
  pose proof (concat_row _ (fun u => map (fun x => (u, x)) (vals_of u tot)) (length verts) l m (l, x) Hl) as C.
  replace (off tot l) with (nsum (map (fun k => length (map (fun x => (k, x)) (vals_of k tot))) (seq 0 l))).
  - rewrite C; [reflexivity|]. rewrite nth_error_map, Hm. reflexivity.
  - unfold off. f_equal. apply map_ext. intros k. apply map_length.
Qed.
Lemma sarcs_nth i a : nth_error sarcs i = Some a -> exists l m, l < length verts /\ m < cnt_of l tot /\ i = off tot l + m /\
  l = idx all (fst a) /\ nth_error (vals_of l tot) m = Some (idx all (snd a)).
Proof.
  intros H. assert (Hi : i < off tot (length verts)) by (rewrite t_off, <- sarcs_len; apply nth_error_Some; congruence).
  assert (Hs : In i (seq 0 (off tot (length verts)))) by (apply in_seq; lia). rewrite seq_rows in Hs. apply in_flat_map in Hs as (l & Hl & Hs).
  apply in_seq in Hl. apply in_seq in Hs. exists l, (i - off tot l).
  assert (Lm : i - off tot l < cnt_of l tot) by lia. destruct (nth_error (vals_of l tot) (i - off tot l)) as [x|] eqn:Ex; [|apply nth_error_None in Ex; unfold cnt_of in Lm; lia].
  pose proof (nth_row l (i - off tot l) x ltac:(lia) Ex) as N. replace (off tot l + (i - off tot l)) with i in N by lia. rewrite H in N. inversion N; subst a. cbn [fst snd].
  pose proof (rp_nd _ _ _ _ _ HR) as ND.
  assert (Lx : x < length all).
  { assert (In (l, x) tot). { apply (Permutation_in _ (rows_perm tot _ t_keys)). apply in_flat_map. exists l. split; [apply in_seq; lia|]. apply in_map. eapply nth_error_In; eauto. }
    rewrite t_tot in H1. apply in_map_iff in H1 as (e & Ee & He). inversion Ee. destruct (t_pins e He) as (_ & _ & Hw). now apply idx_lt. }
  split; [lia|]. split; [auto|]. split; [lia|]. split.
  - symmetry. apply nth_idx; auto. apply nth_error_nth'. rewrite app_length. lia.
  - f_equal. symmetry. apply nth_idx; auto. now apply nth_error_nth'.
Qed.

(** what the API reads from the i-th stored edge *)
Lemma rd_u i a : nth_error sarcs i = Some a -> u_of g (eh i) = Some (hd (fst a)).
Proof. intros H. destruct (sarcs_nth i a H) as (l & m & Hl & Hm & -> & El & _). rewrite (u_of_ok _ _ _ _ _ HR 0 es ws l m H0 Hl Hm). now rewrite El. Qed.
Lemma rd_v i a : nth_error sarcs i = Some a -> v_of g (eh i) = Some (hd (snd a)).
Proof. intros H. destruct (sarcs_nth i a H) as (l & m & Hl & Hm & -> & El & Ev). apply (v_of_ok _ _ _ _ _ HR 0 es ws l m _ HH H0 Hl Ev). Qed.
Lemma rd_pins i a fuel : nth_error sarcs i = Some a -> 2 < fuel -> edge_pins g (eh i) fuel = Some (map (fun v => hd v) (pin2 a)).
Proof.
  intros H Hf. destruct (sarcs_nth i a H) as (l & m & Hl & Hm & -> & El & Ev). rewrite (edge_pins_trad _ _ _ _ _ 0 es ws l m _ fuel HR HH H0 Hl Ev ltac:(lia)).
  destruct (sarcs_in a (nth_error_In _ _ H)) as (Iu & Iw & Ne). unfold pin2. cbn [map]. rewrite El.
  destruct (Nat.eqb_spec (idx all (fst a)) (idx all (snd a))) as [E|_]; [|reflexivity].
  exfalso. apply Ne. apply (idx_inj all); auto. apply in_app_iff; auto.
Qed.
Lemma nt_pos : 0 < ntypes g.
Proof. rewrite (ntypes_tys _ _ _ _ _ HR). destruct tys; [discriminate|cbn; lia]. Qed.
Lemma rd_w i a : nth_error sarcs i = Some a -> eweight g (eh i) = Some w0.
Proof.
  intros H. assert (i < length ws) by (rewrite t_wlen, <- sarcs_len; apply nth_error_Some; congruence).
  destruct (nth_error ws i) as [w|] eqn:E; [|apply nth_error_None in E; lia]. rewrite (eweight_ok _ _ _ _ _ 0 es ws i w HR H0 E). f_equal.
  rewrite Forall_forall in HW. symmetry. apply HW. eapply nth_error_In; eauto.
Qed.

(** neighbours *)
Lemma t_vals v : In v verts -> vals_of (idx all v) tot = map (idx all) (out_dests v es).
Proof.
  intros Hv. unfold occ_of, epins_of. rewrite HH. apply vals_of_occs_trad; [apply HR| | |apply t_incl].
  - apply idx_nth, in_app_iff; auto.
  - rewrite idx_app by auto. now apply idx_lt.
Qed.
Lemma out_arcs v o : In o (out_dests v es) <-> In (v, o) sarcs.
Proof.
  unfold out_dests. rewrite in_flat_map. split.
  - intros (e & He & Ho). apply (Permutation_in _ (Permutation_sym sarcs_perm)). apply in_map_iff. exists e. split; auto.
    destruct (t_pins e He) as (Ep & _). rewrite Ep in Ho. unfold pin2 in Ho. destruct (Z.eqb_spec (fst (arc_of e)) v) as [<-|]; [|destruct Ho].
    destruct Ho as [<-|[]]. now destruct (arc_of e).
  - intros H. apply (Permutation_in _ sarcs_perm) in H. apply in_map_iff in H as (e & Ee & He). exists e. split; auto.
    destruct (t_pins e He) as (-> & _). rewrite Ee. unfold pin2. cbn [fst snd]. rewrite Z.eqb_refl. cbn; auto.
Qed.
Lemma rd_adj v fuel : In v verts -> length es < fuel -> adjacent g (hd v) 0 fuel = Some (map (fun o => hd o) (out_dests v es)).
Proof.
  intros Hv Hf. assert (L : idx all v < length verts) by (rewrite idx_app by auto; now apply idx_lt).
  rewrite (adjacent_trad _ _ _ _ _ HR 0 es ws H0 (idx all v) fuel HH L).
  - rewrite (t_vals v Hv), map_map. reflexivity.
  - unfold cnt_of. rewrite (t_vals v Hv), map_length. pose proof (out_len v es) as OL; unfold edge_input in OL; lia.
Qed.

Lemma rd_adj_e l fuel : l < length verts -> cnt_of l tot < fuel ->
  adjacent_edges g (S l) 0 fuel = Some (map (fun i => eh i) (seq (off tot l) (cnt_of l tot))).
Proof.
  intros Hl Hf. unfold adjacent_edges, adj_begin.
  destruct (gtype_ok _ _ _ _ _ HR _ _ _ H0) as (ed & E & HE & Hlt).
  assert (Eit : eit_vertex g (S l) 0 = Some (mk_eiter 0 (ntypes g) (off tot l) (cnt_of l tot) false)).
  { unfold eit_vertex. cbn [vlid obind]. rewrite E. cbn [obind]. rewrite (er_deg _ _ _ _ _ _ HE) by lia.
    cbn [obind]. rewrite (vdegree_ok _ _ _ _ _ HR 0 es ws l H0 Hl). reflexivity. }
  rewrite Eit. cbn [obind]. apply drain_yields; [|rewrite map_length, seq_length; exact Hf].
  assert (G : forall j m pit edge c, m + j = cnt_of l tot ->
    yields (adj_estep g) (mkGiter c (mkEiter (getEdge (ntypes g) (off tot l + m) 0)
        (getEdge (ntypes g) (off tot l + cnt_of l tot) 0) (ntypes g) false) pit edge)
      (map (fun i => eh i) (seq (off tot l + m) j))).
  { induction j as [|j IH]; intros m pit edge c Hm.
    - cbn [seq map yields]. eexists. unfold adj_estep, adj_step. rewrite HH.
      cbn [gi_eit]. unfold eit_step. cbn [ei_end ei_loc]. replace m with (cnt_of l tot) by lia.
      rewrite Nat.leb_refl. cbn [obind]. unfold v_of. rewrite HH. cbn. reflexivity.
    - destruct (nth_error (vals_of l tot) m) as [x|] eqn:Ev.
      2:{ apply nth_error_None in Ev. unfold cnt_of in Hm; lia. }
      cbn [seq map yields]. split; [unfold getEdge; lia|]. eexists. split.
      + unfold adj_estep, adj_step. rewrite HH. cbn [gi_eit gi_count gi_pit]. unfold eit_step. cbn [ei_end ei_loc ei_nt ei_hyper].
        assert (Hlt2 : getEdge (ntypes g) (off tot l + m) 0 < getEdge (ntypes g) (off tot l + cnt_of l tot) 0).
        { unfold getEdge. assert (ntypes g * (off tot l + m) < ntypes g * (off tot l + cnt_of l tot))
            by (apply Nat.mul_lt_mono_pos_l; lia). lia. }
        destruct (Nat.leb_spec (getEdge (ntypes g) (off tot l + cnt_of l tot) 0) (getEdge (ntypes g) (off tot l + m) 0)); [lia|].
        rewrite HH. cbn [andb obind].
        rewrite (v_of_ok _ _ _ _ _ HR 0 es ws l m x HH H0 Hl Ev).
        cbn [obind Nat.eqb gi_edge]. reflexivity.
      + replace (getEdge (ntypes g) (off tot l + m) 0 + ntypes g) with (getEdge (ntypes g) (off tot l + S m) 0).
        2:{ unfold getEdge. replace (off tot l + S m) with (off tot l + m + 1) by lia. rewrite Nat.mul_add_distr_l. lia. }
        replace (S (off tot l + m)) with (off tot l + S m) by lia. apply IH. lia. }
  specialize (G (cnt_of l tot) 0 None 0 0 eq_refl). rewrite Nat.add_0_r in G.
  unfold mk_eiter. unfold getEdge in *.
  replace (1 + 0 + ntypes g * off tot l) with (ntypes g * off tot l + 0 + 1) by lia.
  replace (1 + 0 + ntypes g * (off tot l + cnt_of l tot)) with (ntypes g * (off tot l + cnt_of l tot) + 0 + 1) by lia.
  exact G.
Qed.

(* ------- with a plan ------- *)
Variables (plan : mplan) (mv : list Z) (dst : Z -> nat).
Hypothesis HP : PlanV verts ghosts plan mv dst.
Hypothesis HM : forall v, In v mv <-> In v verts /\ dst v <> r.
Notation st := (mkMP g (ainit oo) plan).
Notation newown := (newown verts ow r mv dst).

Lemma t_upd_send fuel : length es < fuel ->
  exists ms, upd_send fuel st = Some ms /\
   forall d x, In (d, x) ms <-> exists v o, In v mv /\ In (v, o) sarcs /\ own_now o <> Z.of_nat r /\ d = own_now o /\ x = (v, Z.of_nat (dst v)).
Proof.
  intros Hf. unfold upd_send. cbn [mp_g mp_plan]. rewrite (plv_send _ _ _ _ _ HP), mapM_map.
  rewrite mapM_some with (h := fun v => filter (fun m => negb (Z.eqb (fst m) (self g))) (map (fun o => (own_now o, (v, Z.of_nat (dst v)))) (out_dests v es))).
  - cbn [obind]. eexists. split; [reflexivity|]. intros d x. rewrite in_concat. split.
    + intros (l & Hl & Hin). apply in_map_iff in Hl as (v & <- & Hv). apply filter_In in Hin as (Hin & Hne). cbn [fst] in Hne.
      apply in_map_iff in Hin as (o & Eo & Ho). inversion Eo; subst d x. apply out_arcs in Ho.
      apply negb_true_iff, Z.eqb_neq in Hne. exists v, o. rewrite <- HS. auto 10.
    + intros (v & o & Hv & Ho & Hne & -> & ->). eexists. split; [apply in_map; exact Hv|]. apply filter_In. split.
      * apply in_map_iff. exists o. split; auto. now apply out_arcs.
      * cbn. apply negb_true_iff, Z.eqb_neq. now rewrite HS.
  - intros v Hv. assert (Hin : In v verts) by (now apply HM in Hv). rewrite (vgid_v _ _ _ _ _ HR) by (apply in_app_iff; auto). cbn [obind].
    rewrite (get_v _ _ _ _ _ r oo HR HL plan mv dst v HP Hv). cbn [obind]. rewrite (rd_adj v fuel Hin Hf). cbn [obind].
    rewrite mapM_map. rewrite mapM_some with (h := fun o => (own_now o, (v, Z.of_nat (dst v)))); [reflexivity|].
    intros o Ho. apply out_arcs, sarcs_in in Ho as (_ & Ho & _). cbn [snd] in Ho. rewrite (owner_v _ _ _ _ _ _ _ HR HO HS) by auto. reflexivity.
Qed.

Notation moved2 a := (memZ (fst a) mv || memZ (snd a) mv)%bool.
(** the record of arc a stored at position i *)
Definition arec (i : nat) (a : arc) : edge_input * Z := ((Z.of_nat i, pin2 a), w0).
Lemma t_keep fuel i a : nth_error sarcs i = Some a -> 2 < fuel ->
  keep_edge fuel st (eh i) = Some (if moved2 a then [] else [Mk own_now (arec i a)]).
Proof.
  intros H Hf. destruct (sarcs_in a (nth_error_In _ _ H)) as (Iu & Iw & Ne). assert (Iu' : In (fst a) all) by (apply in_app_iff; auto).
  unfold keep_edge, read_pins. cbn [mp_g mp_plan]. rewrite (rd_pins i a fuel H Hf). unfold pin2. cbn [obind map mapM].
  rewrite (has_v _ _ _ _ _ r oo HR HL plan mv dst _ HP Iu'), (has_v _ _ _ _ _ r oo HR HL plan mv dst _ HP Iw). cbn [obind existsb].
  rewrite orb_false_r. destruct (moved2 a); auto.
  unfold egid. rewrite edec_getEdge by apply nt_pos. cbn [obind]. rewrite HH. cbn [obind]. rewrite (rd_w i a H). cbn [obind].
  unfold edegree. rewrite HH. cbn [negb obind]. rewrite (vgid_v _ _ _ _ _ HR _ Iu'), (vgid_v _ _ _ _ _ HR _ Iw). cbn [obind].
  rewrite (owner_v _ _ _ _ _ _ _ HR HO HS _ Iu'), (owner_v _ _ _ _ _ _ _ HR HO HS _ Iw). cbn [obind]. reflexivity.
Qed.
Lemma t_kept_edges fuel : length es < fuel -> 2 < fuel ->
  exists K, kept_edges fuel st 0 = Some (map (Mk own_now) K) /\ Forall (fun x => snd x = w0) K /\
    map (fun x => snd (fst x)) K = map pin2 (filter (fun a => negb (moved2 a)) sarcs).
Proof.
  intros Hf Hf2. unfold kept_edges. cbn [mp_g]. rewrite (all_edges_ok _ _ _ _ _ HR 0 es ws fuel H0 Hf). cbn [obind]. rewrite mapM_map, <- sarcs_len.
  set (L := combine (seq 0 (length sarcs)) sarcs).
  assert (LL : length L = length sarcs) by (unfold L; rewrite combine_length, seq_length; lia).
  replace (length sarcs) with (length L).
  rewrite (mapM_seq_nth _ _ _ L (fun x => if moved2 (snd x) then [] else [Mk own_now (arec (fst x) (snd x))])).
  - cbn [obind]. exists (map (fun x => arec (fst x) (snd x)) (filter (fun x : nat * arc => negb (moved2 (snd x))) L)). split.
    + f_equal. clear LL. clearbody L. induction L as [|x l IH]; auto. cbn [map concat filter]. destruct (moved2 (snd x)); cbn [negb app map]; rewrite IH; reflexivity.
    + split; [apply Forall_forall; intros x Hx; apply in_map_iff in Hx as (y & <- & _); reflexivity|].
      rewrite map_map. cbn [arec fst snd]. unfold L.
      assert (G : forall (l : list arc) k, map (fun x : nat * arc => pin2 (snd x)) (filter (fun x : nat * arc => negb (moved2 (snd x))) (combine (seq k (length l)) l)) = map pin2 (filter (fun a => negb (moved2 a)) l)).
      { induction l as [|a l IH]; intros k; auto. cbn [length seq combine filter snd]. destruct (moved2 a); cbn [negb map snd]; now rewrite IH. }
      apply G.
  - intros i (j, a) Hx. apply combine_nth_inv in Hx as (Hi & Ha). cbn [fst snd].
    assert (j = i). { assert (i < length sarcs) by (apply nth_error_Some; congruence). rewrite nth_error_seq in Hi by auto. inversion Hi. lia. } subst j.
    now apply t_keep.
Qed.

Lemma t_pack i a : nth_error sarcs i = Some a -> In (fst a) mv -> pack_edge st (eh i) = Some (Mk newown (arec i a), [Z.of_nat (dst (fst a))]).
Proof.
  intros H Hm. destruct (sarcs_in a (nth_error_In _ _ H)) as (Iu & Iw & Ne). assert (Iu' : In (fst a) all) by (apply in_app_iff; auto).
  pose proof Hm as Em. apply memZ_In in Em.
  unfold pack_edge. cbn [mp_g mp_plan]. rewrite (rd_w i a H). cbn [obind]. rewrite HH. unfold elid. rewrite edec_getEdge by apply nt_pos. cbn [obind].
  rewrite (rd_u i a H). cbn [obind]. rewrite (vgid_v _ _ _ _ _ HR _ Iu'). cbn [obind]. rewrite (rd_v i a H). cbn [obind].
  rewrite (owner_v _ _ _ _ _ _ _ HR HO HS _ Iw). cbn [obind]. rewrite (has_v _ _ _ _ _ r oo HR HL plan mv dst _ HP Iw). cbn [obind].
  assert (En : (if memZ (snd a) mv then plan_get g plan (hd (snd a)) else Some (own_now (snd a))) = Some (newown (snd a))).
  { unfold newown. destruct (memZ (snd a) mv) eqn:E; auto. apply memZ_In in E. apply (get_v _ _ _ _ _ r oo HR HL plan mv dst _ HP E). }
  rewrite En. cbn [obind]. rewrite (vgid_v _ _ _ _ _ HR _ Iw). cbn [obind]. rewrite (has_v _ _ _ _ _ r oo HR HL plan mv dst _ HP Iu'), Em. cbn [obind negb].
  rewrite (get_v _ _ _ _ _ r oo HR HL plan mv dst _ HP Hm). cbn [obind]. unfold Mk, arec. cbn [fst snd pin2 length map]. unfold newown at 2. rewrite Em. reflexivity.
Qed.

Lemma t_affected fuel : length es < fuel -> exists I, affected_edges fuel st = Some (map (fun i => eh i) I) /\
  Permutation I (filter (fun i => memZ (fst (nth i sarcs (0, 0)%Z)) mv) (seq 0 (length sarcs))).
Proof.
  intros Hf. unfold affected_edges. rewrite (affected_verts_ok _ _ _ _ _ r oo HR HS HL plan mv dst HP HM). cbn [obind mp_g]. rewrite mapM_map.
  assert (Lv : forall v, In v mv -> idx all v < length verts).
  { intros v Hv. apply HM in Hv as (Hv & _). rewrite idx_app by auto. now apply idx_lt. }
  rewrite (mapM_some _ _ _ (fun v => map (fun i => eh i) (seq (off tot (idx all v)) (cnt_of (idx all v) tot)))).
  2: { intros v Hv. apply rd_adj_e; auto. unfold cnt_of. rewrite t_vals by (now apply HM in Hv). rewrite map_length. pose proof (out_len v es) as OL; unfold edge_input in OL; lia. }
  cbn [obind].
  set (l := nodup Nat.eq_dec _).
  set (J := filter (fun i => memZ (fst (nth i sarcs (0, 0)%Z)) mv) (seq 0 (length sarcs))).
  assert (EI : forall i j, eh i = eh j -> i = j) by (intros i j E; apply (getEdge_inj (ntypes g) i 0 j 0) in E; [tauto|apply nt_pos|apply nt_pos]).
  assert (PP : Permutation (map (fun i => eh i) J) l).
  { apply perm_by_mem.
    - apply FinFun.Injective_map_NoDup; [intros i j; apply EI|]. apply NoDup_filter, seq_NoDup.
    - apply NoDup_nodup.
    - intros h. unfold l. rewrite nodup_In, in_concat, in_map_iff. split.
      + intros (i & <- & Hi). apply filter_In in Hi as (Hi & Hm). apply in_seq in Hi. apply memZ_In in Hm.
        destruct (nth_error sarcs i) as [a|] eqn:Ea; [|apply nth_error_None in Ea; lia]. rewrite (nth_error_nth _ _ _ Ea) in Hm.
        destruct (sarcs_nth i a Ea) as (k & m & Hk & Hm' & -> & El & _). subst k.
        eexists. split; [apply in_map; exact Hm|]. apply in_map_iff. eexists. split; [reflexivity|]. apply in_seq. lia.
      + intros (x & Hx & Hh). apply in_map_iff in Hx as (v & <- & Hv). apply in_map_iff in Hh as (i & <- & Hi). apply in_seq in Hi.
        exists i. split; auto. pose proof (Lv v Hv) as Lk. set (k := idx all v) in *.
        destruct (nth_error (vals_of k tot) (i - off tot k)) as [x|] eqn:Ex; [|apply nth_error_None in Ex; unfold cnt_of in Hi; lia].
        pose proof (nth_row k (i - off tot k) x Lk Ex) as N. replace (off tot k + (i - off tot k)) with i in N by lia.
        apply filter_In. split; [apply in_seq; assert (i < length sarcs) by (apply nth_error_Some; congruence); lia|].
        rewrite (nth_error_nth _ _ _ N). cbn [fst]. unfold k. rewrite nm_idx by (apply in_app_iff; left; now apply HM in Hv). now apply memZ_In. }
  apply Permutation_sym, Permutation_map_inv in PP as (I & EI' & PI). exists I. split; [now rewrite EI'|now symmetry].
Qed.
Lemma map_nth_seq A B (f : A -> B) (P : A -> bool) (d : A) l : map (fun i => f (nth i l d)) (filter (fun i => P (nth i l d)) (seq 0 (length l))) = map f (filter P l).
Proof.
  assert (G : forall m k, (forall i, i < length m -> nth (k + i) l d = nth i m d) -> map (fun i => f (nth i l d)) (filter (fun i => P (nth i l d)) (seq k (length m))) = map f (filter P m)).
  { induction m as [|a m IH]; intros k H; auto. cbn [length seq filter]. pose proof (H 0 ltac:(cbn; lia)) as E0. rewrite Nat.add_0_r in E0. cbn in E0. rewrite E0.
    assert (R : map (fun i => f (nth i l d)) (filter (fun i => P (nth i l d)) (seq (S k) (length m))) = map f (filter P m)).
    { apply IH. intros i Hi. pose proof (H (S i) ltac:(cbn; lia)) as Q. cbn [nth] in Q. rewrite <- Q. f_equal. lia. }
    destruct (P a); cbn [map]; [now rewrite E0, R|exact R]. }
  apply (G l 0). auto.
Qed.
Lemma t_edge_send fuel w : w_part w = st -> length es < fuel ->
  exists X, edge_send fuel w = Some (map (fun x => (Z.of_nat (dst (fst (arc_of (fst x)))), Mk newown x)) X) /\ Forall (fun x => snd x = w0) X /\
    Permutation (map (fun x => snd (fst x)) X) (map pin2 (filter (fun a => memZ (fst a) mv) sarcs)) /\
    forall x, In x X -> exists a, In a sarcs /\ In (fst a) mv /\ snd (fst x) = pin2 a.
Proof.
  intros Ew Hf. unfold edge_send. rewrite Ew. destruct (t_affected fuel Hf) as (I & -> & PI). cbn [obind]. rewrite mapM_map.
  set (d0 := (0, 0)%Z) in *.
  assert (HI : forall i, In i I -> nth_error sarcs i = Some (nth i sarcs d0) /\ In (fst (nth i sarcs d0)) mv).
  { intros i Hi. apply (Permutation_in _ PI) in Hi. apply filter_In in Hi as (Hi & Hm). apply in_seq in Hi. apply memZ_In in Hm. split; [apply nth_error_nth'; lia|auto]. }
  rewrite (mapM_some _ _ _ (fun i => [(Z.of_nat (dst (fst (nth i sarcs d0))), Mk newown (arec i (nth i sarcs d0)))])).
  2: { intros i Hi. destruct (HI i Hi) as (Hn & Hm). rewrite (t_pack i _ Hn Hm). reflexivity. }
  cbn [obind]. exists (map (fun i => arec i (nth i sarcs d0)) I). split; [|split; [|split]].
  - f_equal. rewrite map_map. clear. induction I as [|i I IH]; auto. cbn [map concat app]. rewrite IH. reflexivity.
  - apply Forall_forall. intros x Hx. apply in_map_iff in Hx as (i & <- & _). reflexivity.
  - rewrite map_map. cbn [arec fst snd]. pose proof (map_nth_seq _ _ pin2 (fun a : arc => memZ (fst a) mv) d0 sarcs) as Q. etransitivity; [|apply Permutation_refl'; exact Q]. now apply Permutation_map.
  - intros x Hx. apply in_map_iff in Hx as (i & <- & Hi). destruct (HI i Hi) as (Hn & Hm). exists (nth i sarcs d0). split; [eapply nth_error_In; eauto|]. split; auto.
Qed.
End TP.
