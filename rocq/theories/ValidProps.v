(** C25: checkValidity accepts what construction builds, and an accepted graph satisfies the stated conditions. *)
From Verif Require Import Base GraphModel CsrProofs ConstructProofs GraphSpec AccessProofs AccessProofs2 CountProofs GraphTop GraphTop2 GraphIOProps ValidModel MigrateProofs2 ValidProofs.

(* ------------------------------------------------------------------ *)
(** * Specification *)

(** All parts build their graph, each with its own rank, and then compute the global counters together. *)
Definition build_parts (hg : bool) (parts : list part_input) : option (list graph) :=
  mapM (fun rp => build_part (Z.of_nat (fst rp)) hg (pi_verts (snd rp)) (pi_vws (snd rp)) (pi_tys (snd rp)) (pi_owns (snd rp)))
    (combine (seq 0 (length parts)) parts).

(** What the caller promises: valid input on every part, the same number of edge types, and every ghost
    attributed to an existing part other than this one. *)
Definition good_parts (hg : bool) (nt : nat) (parts : list part_input) : Prop :=
  forall r p, nth_error parts r = Some p ->
    valid_input hg (pi_verts p) (pi_vws p) (pi_tys p) /\ length (pi_tys p) = nt /\
    forall v, In v (ghosts_of (pi_verts p) (pi_tys p)) ->
      let o := part_of (Z.of_nat r) (pi_verts p) (pi_owns p) v in o <> Z.of_nat r /\ (o < Z.of_nat (length parts))%Z.

(** enough fuel for the loops *)
Definition fuel_for (p : part_input) (fuel : nat) : Prop :=
  2 < fuel /\ length (pi_verts p) < fuel /\ length (all_pins (pi_tys p)) < fuel /\ forall es ws, In (es, ws) (pi_tys p) -> length es < fuel.

(** the pin iterator started on edge [e] returns the vertex [h] before it returns NULL *)
Definition pin_walk_meets (g : graph) (e h : nat) : Prop :=
  exists it k hs, pins_begin g e = Some it /\ iter_n (pit_step g) (k + 1) it = Some (hs ++ [h]) /\ ~ In 0 hs /\ h <> 0.

(** an edge is accounted for by this part: in a hypergraph, when no pin of it is owned by a lower part *)
Definition accounted (g : graph) (e : nat) : Prop :=
  exists res, getResidence g e = Some res /\ (hyper g = true -> forall o, In o res -> (self g <= o)%Z).
Definition accounts (g : graph) (t fuel : nat) (mineL : list nat) : Prop :=
  exists es f, all_edges g t fuel = Some es /\ mineL = filter f es /\ forall e, In e es -> (f e = true <-> accounted g e).

(** the conditions checked on one part *)
Record consistent_part (fuel : nat) (peers : Z) (p : vpart) : Prop := {
  cp_verts : exists vs, all_verts (vp_g p) fuel = Some vs /\ length vs = nlv (vp_g p) /\
     forall h t, In h vs -> t < ntypes (vp_g p) ->
       exists es, vertex_edges (vp_g p) h t fuel = Some es /\ vdegree (vp_g p) h t = Some (length es) /\
         forall e, In e es -> pin_walk_meets (vp_g p) e h;
  cp_edges : forall t, t < ntypes (vp_g p) -> exists es ds ed,
     all_edges (vp_g p) t fuel = Some es /\ num_edges (vp_g p) t = Some (length es) /\
     mapM (edegree (vp_g p)) es = Some ds /\ gtype (vp_g p) t = Some ed /\ e_npins ed = nsum ds /\
     forall e, In e es -> exists pins, edge_pins (vp_g p) e fuel = Some pins /\ edegree (vp_g p) e = Some (length pins);
  cp_ghosts : exists hs, all_ghosts (vp_g p) fuel = Some hs /\
     forall h, In h hs -> exists o, owner (vp_g p) h = Some o /\ o <> self (vp_g p) /\ (o < peers)%Z
}.

(** the global counters of [p] agree with what the parts actually hold *)
Definition consistent_totals (fuel : nat) (ps : list vpart) (p : vpart) : Prop :=
  vp_gv p = zsum (map (fun q => Z.of_nat (nlv (vp_g q))) ps) /\
  forall t, t < ntypes (vp_g p) -> exists ls dss ge, nth_error (vp_ge p) t = Some ge /\
    Forall2 (fun q l => accounts (vp_g q) t fuel l) ps ls /\
    Forall2 (fun ql ds => mapM (edegree (vp_g (fst ql))) (snd ql) = Some ds) (combine ps ls) dss /\
    fst ge = zsum (map (fun l => Z.of_nat (length l)) ls) /\
    snd ge = zsum (map (fun ds => Z.of_nat (nsum ds)) dss).

(* ------------------------------------------------------------------ *)
(** * Built parts pass *)

Lemma incident_len v es : length (incident v es) <= length (concat (pins_of es)).
Proof.
  unfold incident. assert (G : forall l k, length (flat_map (fun p : nat * edge_input => repeat (fst p) (count_occ Z.eq_dec (snd (snd p)) v)) (combine (seq k (length l)) l)) <= length (concat (pins_of l))).
  { induction l as [|e l IH]; intros k; [cbn; lia|]. cbn [length seq combine flat_map pins_of map concat fst snd]. rewrite !app_length, repeat_length.
    specialize (IH (S k)). unfold pins_of in IH. pose proof (count_occ_bound Z.eq_dec v (snd e)). lia. }
  apply G.
Qed.
Lemma out_len v es : length (out_dests v es) <= length es.
Proof.
  induction es as [|e es IH]; [cbn; lia|]. unfold out_dests in *. cbn [flat_map length]. rewrite app_length.
  destruct (snd e) as [|u [|w l]]; cbn [length]; try lia. destruct (Z.eqb u v); cbn [length]; lia.
Qed.
Lemma pins_len tys es ws : In (es, ws) tys -> length (concat (pins_of es)) <= length (all_pins tys).
Proof.
  unfold all_pins. induction tys as [|ty tys IH]; intros []; cbn [flat_map]; rewrite app_length; [subst; cbn [fst]; lia|]. specialize (IH H). lia.
Qed.
Lemma first_occ_len l : forall seen, length (first_occ seen l) <= length l.
Proof. induction l as [|a l IH]; intros seen; cbn [first_occ length]; auto. destruct (existsb _ seen); cbn [length]; [specialize (IH seen)|specialize (IH (a :: seen))]; lia. Qed.
Lemma in_incident v es i : In i (incident v es) <-> exists e, nth_error es i = Some e /\ In v (snd e).
Proof.
  unfold incident. rewrite in_flat_map. split.
  - intros ([k e] & Hi & Hr). cbn [fst snd] in Hr. apply repeat_spec in Hr as E. subst k.
    assert (C : 0 < count_occ Z.eq_dec (snd e) v) by (destruct (count_occ Z.eq_dec (snd e) v); [destruct Hr|lia]).
    apply count_occ_In in C. exists e. split; auto. apply In_nth_error in Hi as (j & Hj).
    assert (X : forall (l : list edge_input) a j, nth_error (combine (seq a (length l)) l) j = Some (i, e) -> nth_error l (i - a) = Some e /\ a <= i).
    { induction l as [|x l IH]; intros a [|j'] H; cbn in H; try discriminate.
      - inversion H; subst. rewrite Nat.sub_diag. split; auto.
      - apply IH in H as (H1 & H2). split; [|lia]. replace (i - a) with (S (i - S a)) by lia. exact H1. }
    apply X in Hj as (Hj & _). now rewrite Nat.sub_0_r in Hj.
  - intros (e & He & Hv). exists (i, e). split.
    + assert (X : forall (l : list edge_input) a j, nth_error l j = Some e -> In (a + j, e) (combine (seq a (length l)) l)).
      { induction l as [|x l IH]; intros a [|j] H; cbn in H; try discriminate; cbn [length seq combine].
        - inversion H; subst. left. f_equal. lia. - right. replace (a + S j) with (S a + j) by lia. apply IH; auto. }
      apply (X es 0 i He).
    + cbn [fst snd]. apply count_occ_In with (eq_dec := Z.eq_dec) in Hv. destruct (count_occ Z.eq_dec (snd e) v); [lia|left; auto].
Qed.

Lemma ghosts_checked me hg verts vws tys owns g fuel peers : valid_input hg verts vws tys -> build_part me hg verts vws tys owns = Some g ->
  length (ghosts_of verts tys) < fuel ->
  (forall v, In v (ghosts_of verts tys) -> part_of me verts owns v <> me /\ (part_of me verts owns v < peers)%Z) ->
  exists hs, all_ghosts g fuel = Some hs /\ forall h, In h hs -> chk_ghost g peers h = Some true.
Proof.
  intros HV HB Hf Hg. pose proof (p_constructed _ _ _ _ _ _ _ HV HB) as HC. pose proof (proj1 (constructed_rep _ _ _ _ _ _ HC)) as HR.
  eexists. split; [apply (all_ghosts_ok _ _ _ _ _ HR); exact Hf|]. intros h Hh. apply in_map_iff in Hh as (l & <- & Hl). apply in_seq in Hl.
  destruct (nth_error (ghosts_of verts tys) (l - length verts)) as [v|] eqn:Ev; [|apply nth_error_None in Ev; lia].
  assert (Ea : nth_error (verts ++ ghosts_of verts tys) l = Some v) by (rewrite nth_error_app2 by lia; auto).
  pose proof (p_owner _ _ _ _ _ _ _ HV HB l v Ea) as Eo. unfold getVertex in Eo. rewrite Nat.add_1_r in Eo.
  unfold chk_ghost. rewrite Eo. cbn [obind]. rewrite (p_self _ _ _ _ _ _ _ HV HB).
  destruct (Hg v (nth_error_In _ _ Ev)) as (G1 & G2). destruct (Z.eqb_spec (part_of me verts owns v) me); [contradiction|].
  destruct (Z.leb_spec peers (part_of me verts owns v)); [lia|]. reflexivity.
Qed.

Lemma hyper_sound me verts vws tys owns g fuel peers : valid_input true verts vws tys -> build_part me true verts vws tys owns = Some g ->
  length verts < fuel -> length (all_pins tys) < fuel -> (forall es ws, In (es, ws) tys -> length es < fuel) ->
  (forall v, In v (ghosts_of verts tys) -> part_of me verts owns v <> me /\ (part_of me verts owns v < peers)%Z) ->
  sound_part fuel peers (length tys) g.
Proof.
  intros HV HB F1 F2 F3 Hg. pose proof (p_constructed _ _ _ _ _ _ _ HV HB) as HC. pose proof (proj1 (constructed_rep _ _ _ _ _ _ HC)) as HR.
  pose proof (p_hyper _ _ _ _ _ _ _ HV HB) as Hh. set (all := verts ++ ghosts_of verts tys).
  assert (EP : forall t es ws i gid ps, nth_error tys t = Some (es, ws) -> nth_error es i = Some (gid, ps) ->
     edge_pins g (getEdge (ntypes g) i t) fuel = Some (map (fun v => S (idx all v)) ps) /\ edegree g (getEdge (ntypes g) i t) = Some (length ps) /\ length ps < fuel).
  { intros t es ws i gid ps Ht Hi. pose proof (pins_len _ _ _ (nth_error_In _ _ Ht)) as L.
    assert (L2 : length ps <= length (concat (pins_of es))).
    { unfold pins_of. apply nth_error_In in Hi. clear - Hi. induction es as [|e es IH]; [destruct Hi|]. cbn [map concat]. rewrite app_length. destruct Hi as [->|Hi]; [cbn [snd]; lia|]. specialize (IH Hi). lia. }
    split; [apply (edge_pins_hyper _ _ _ _ _ HR t es (eff_wgts ws (length es)) i gid ps fuel Hh (nth_eff _ _ _ _ Ht) Hi); lia|]. split; [|lia].
    apply (edegree_hyper _ _ _ _ _ HR t es (eff_wgts ws (length es)) i gid ps Hh (nth_eff _ _ _ _ Ht) Hi). }
  constructor.
  - apply (c_ntypes _ _ _ _ _ _ HC).
  - exists (map S (seq 0 (length verts))). split; [apply (all_verts_ok _ _ _ _ _ HR); auto|]. split; [rewrite map_length, seq_length; symmetry; apply (c_counts _ _ _ _ _ _ HC)|].
    intros h t Hin Ht. apply in_map_iff in Hin as (l & <- & Hl). apply in_seq in Hl.
    destruct (nth_error tys t) as [[es ws]|] eqn:Et; [|apply nth_error_None in Et; lia].
    destruct (nth_error verts l) as [v|] eqn:Ev; [|apply nth_error_None in Ev; lia].
    pose proof (incident_len v es) as L1. pose proof (pins_len _ _ _ (nth_error_In _ _ Et)) as L2.
    destruct (c_incident _ _ _ _ _ _ HC t es ws l v fuel eq_refl Et Ev ltac:(lia)) as (C1 & C2). unfold getVertex in C1, C2. rewrite Nat.add_1_r in C1, C2.
    eexists. split; [exact C1|]. split; [rewrite map_length; exact C2|]. intros e He. apply in_map_iff in He as (i & <- & Hi). apply in_incident in Hi as ([gid ps] & Hi & Hv). cbn [snd] in Hv.
    destruct (EP t es ws i gid ps Et Hi) as (E1 & _). eapply chk_pin_in; [exact E1| |lia].
    apply in_map_iff. exists v. split; auto. f_equal. apply nth_idx; [apply HR|]. apply (nth_verts verts tys l v Ev).
  - intros t Ht. destruct (nth_error tys t) as [[es ws]|] eqn:Et; [|apply nth_error_None in Et; lia].
    destruct (gtype_ok _ _ _ _ _ HR _ _ _ (nth_eff _ _ _ _ Et)) as (ed & Eg & HE & _).
    exists (map (fun i => getEdge (ntypes g) i t) (seq 0 (length es))), ed.
    split; [apply (w_iter_edges _ _ _ _ _ _ HC t es ws); auto; apply (F3 es ws); eapply nth_error_In; eauto|]. split; auto.
    split; [rewrite map_length, seq_length, (er_num _ _ _ _ _ _ HE); auto|].
    exists (map (fun e => length (snd e)) es).
    assert (INV : forall e, In e (map (fun i => getEdge (ntypes g) i t) (seq 0 (length es))) -> exists i gid ps, e = getEdge (ntypes g) i t /\ nth_error es i = Some (gid, ps)).
    { intros e He. apply in_map_iff in He as (i & <- & Hi). apply in_seq in Hi. destruct (nth_error es i) as [[gid ps]|] eqn:Ei; [|apply nth_error_None in Ei; lia]. eauto. }
    split.
    { rewrite mapM_map. rewrite <- (map_length (fun e : edge_input => length (snd e)) es). apply GraphIOProps.mapM_seq_nth. intros j x Hj. rewrite nth_error_map in Hj. unfold edge_input in *.
      destruct (nth_error es j) as [[gid ps]|] eqn:Ej; [|cbn in Hj; discriminate Hj]. inversion Hj; subst x. apply (EP t es ws j gid ps Et Ej). }
    split. { rewrite (er_npins _ _ _ _ _ _ HE), length_concat. unfold epins_of. now rewrite map_map. }
    split. { intros e He. destruct (INV e He) as (i & gid & ps & -> & Hi). eexists. apply (p_residence _ _ _ _ _ _ _ HV HB eq_refl t es ws i gid ps Et Hi). }
    split. { intros e He. destruct (INV e He) as (i & gid & ps & -> & Hi). destruct (EP t es ws i gid ps Et Hi) as (E1 & E2 & _). unfold chk_pins. rewrite E1, E2. cbn [obind]. rewrite map_length, Nat.eqb_refl. reflexivity. }
    congruence.
  - eapply ghosts_checked; eauto. unfold ghosts_of. pose proof (first_occ_len (all_pins tys) verts). lia.
Qed.

Lemma trad_sound me verts vws tys owns g fuel peers : valid_input false verts vws tys -> build_part me false verts vws tys owns = Some g ->
  2 < fuel -> length verts < fuel -> length (all_pins tys) < fuel -> (forall es ws, In (es, ws) tys -> length es < fuel) ->
  (forall es ws, In (es, ws) tys -> local_sources verts es) ->
  (forall es ws e u, In (es, ws) tys -> In e es -> snd e <> [u; u]) ->
  (forall v, In v (ghosts_of verts tys) -> part_of me verts owns v <> me /\ (part_of me verts owns v < peers)%Z) ->
  sound_part fuel peers (length tys) g.
Proof.
  intros HV HB F0 F1 F2 F3 HS NL Hg. pose proof (p_constructed _ _ _ _ _ _ _ HV HB) as HC. pose proof (proj1 (constructed_rep _ _ _ _ _ _ HC)) as HR.
  pose proof (p_hyper _ _ _ _ _ _ _ HV HB) as Hh. set (all := verts ++ ghosts_of verts tys) in *.
  pose proof (rp_nd _ _ _ _ _ HR) as ND.
  assert (EP : forall t es ws l v m w, nth_error tys t = Some (es, ws) -> nth_error verts l = Some v -> nth_error (out_dests v es) m = Some w ->
     edge_pins g (getEdge (ntypes g) (off (occ_of g verts (ghosts_of verts tys) es) l + m) t) fuel = Some [S l; S (idx all w)] /\ In w all).
  { intros t es ws l v m w Ht Hl Hm. destruct (row_ends _ _ _ _ _ HC t es ws Ht l v m w Hl Hm) as (_ & Ex & Iw). split; auto.
    assert (L : l < length verts) by (apply nth_error_Some; congruence).
    rewrite (edge_pins_trad _ _ _ _ _ t es (eff_wgts ws (length es)) l m (idx all w) fuel HR Hh (nth_eff _ _ _ _ Ht) L Ex F0).
    destruct (Nat.eqb_spec l (idx all w)) as [E|E]; auto. exfalso.
    assert (v = w). { pose proof (idx_nth all w Iw) as X. rewrite <- E in X. unfold all in X. rewrite nth_error_app1 in X by auto. congruence. }
    subst w. apply nth_error_In in Hm. unfold out_dests in Hm. apply in_flat_map in Hm as (e & He & Hm).
    destruct (snd e) as [|u [|x r]] eqn:Es; try (destruct Hm; fail). destruct (Z.eqb_spec u v); [|destruct Hm]. destruct Hm as [->|[]]. subst u.
    destruct HV as (_ & _ & _ & H2). destruct (H2 es ws (nth_error_In _ _ Ht)) as (_ & H2'). pose proof (H2' eq_refl e He) as L2. rewrite Es in L2. destruct r; [|discriminate].
    apply (NL es ws e v (nth_error_In _ _ Ht) He). exact Es. }
  constructor.
  - apply (c_ntypes _ _ _ _ _ _ HC).
  - exists (map S (seq 0 (length verts))). split; [apply (all_verts_ok _ _ _ _ _ HR); auto|]. split; [rewrite map_length, seq_length; symmetry; apply (c_counts _ _ _ _ _ _ HC)|].
    intros h t Hin Ht. apply in_map_iff in Hin as (l & <- & Hl). apply in_seq in Hl.
    destruct (nth_error tys t) as [[es ws]|] eqn:Et; [|apply nth_error_None in Et; lia].
    destruct (nth_error verts l) as [v|] eqn:Ev; [|apply nth_error_None in Ev; lia].
    pose proof (out_len v es) as L1. pose proof (F3 es ws (nth_error_In _ _ Et)) as L2.
    assert (Hc : cnt_of l (occ_of g verts (ghosts_of verts tys) es) = length (out_dests v es)).
    { unfold cnt_of. rewrite (vals_dests _ _ _ _ _ _ HC t es ws l v eq_refl Et Ev). apply map_length. }
    eexists. split; [apply (vertex_edges_trad _ _ _ _ _ HR t es (eff_wgts ws (length es)) l fuel Hh (nth_eff _ _ _ _ Et)); lia|]. rewrite Hc. split.
    { rewrite map_length, seq_length. rewrite (vdegree_ok _ _ _ _ _ HR t es (eff_wgts ws (length es)) l (nth_eff _ _ _ _ Et)) by lia. now rewrite Hc. }
    intros e He. apply in_map_iff in He as (i & <- & Hi). apply in_seq in Hi.
    replace i with (off (occ_of g verts (ghosts_of verts tys) es) l + (i - off (occ_of g verts (ghosts_of verts tys) es) l)) by lia.
    destruct (nth_error (out_dests v es) (i - off (occ_of g verts (ghosts_of verts tys) es) l)) as [w|] eqn:Ew; [|apply nth_error_None in Ew; lia].
    destruct (EP t es ws l v _ w Et Ev Ew) as (E1 & _). eapply chk_pin_in; [exact E1|left; auto|lia].
  - intros t Ht. destruct (nth_error tys t) as [[es ws]|] eqn:Et; [|apply nth_error_None in Et; lia].
    destruct (gtype_ok _ _ _ _ _ HR _ _ _ (nth_eff _ _ _ _ Et)) as (ed & Eg & HE & _).
    assert (NP : e_npins ed = 2 * e_num ed).
    { rewrite (er_npins _ _ _ _ _ _ HE), (er_num _ _ _ _ _ _ HE), length_concat. unfold epins_of. rewrite map_map.
      destruct HV as (_ & _ & _ & H2). destruct (H2 es ws (nth_error_In _ _ Et)) as (_ & H2'). specialize (H2' eq_refl). clear - H2'.
      induction es as [|e es IH]; auto. cbn [map nsum fold_right length]. unfold nsum in *. rewrite IH by (intros; apply H2'; right; auto). rewrite (H2' e (or_introl eq_refl)). lia. }
    exists (map (fun i => getEdge (ntypes g) i t) (seq 0 (length es))), ed.
    split; [apply (w_iter_edges _ _ _ _ _ _ HC t es ws); auto; apply (F3 es ws); eapply nth_error_In; eauto|]. split; auto.
    split; [rewrite map_length, seq_length, (er_num _ _ _ _ _ _ HE); auto|].
    exists (repeat 2 (length es)).
    split. { rewrite mapM_some with (h := fun _ => 2). - f_equal. rewrite map_map. clear. assert (X : forall n k, map (fun _ : nat => 2) (seq k n) = repeat 2 n) by (induction n; intros k; cbn [seq map repeat]; f_equal; auto). apply X.
      - intros e _. unfold edegree. rewrite Hh. reflexivity. }
    split. { rewrite NP, (er_num _ _ _ _ _ _ HE). clear. assert (X : forall n, nsum (repeat 2 n) = 2 * n) by (induction n; cbn [repeat nsum fold_right]; auto; unfold nsum in *; lia). apply X. }
    assert (PB : forall e, In e (map (fun i => getEdge (ntypes g) i t) (seq 0 (length es))) -> exists l w, l < length verts /\ In w all /\ edge_pins g e fuel = Some [S l; S (idx all w)]).
    { intros e He. apply in_map_iff in He as (i & <- & Hi). apply in_seq in Hi.
      destruct (row_at _ _ _ _ _ HC t es ws Et (HS es ws (nth_error_In _ _ Et)) i ltac:(lia)) as (l & v & m & w & Ev & Ew & -> & _).
      destruct (EP t es ws l v m w Et Ev Ew) as (E1 & Iw). exists l, w. split; auto. apply nth_error_Some. congruence. }
    split.
    { intros e He. destruct (PB e He) as (l & w & Ll & Iw & E). unfold edge_pins in E. unfold getResidence. destruct (pins_begin g e) as [it|]; [|discriminate]. cbn [obind] in *.
      unfold edegree. rewrite Hh. cbn [negb obind]. destruct (drain_yields_inv _ _ _ _ _ E) as ((_ & s1 & S1 & _ & s2 & S2 & _) & _).
      cbn [iter_n]. rewrite S1. cbn [obind]. rewrite S2. cbn [obind mapM].
      assert (Ow : forall x, In x all -> exists o, owner g (S (idx all x)) = Some o).
      { intros x Ix. eexists. pose proof (p_owner _ _ _ _ _ _ _ HV HB (idx all x) x (idx_nth all x Ix)) as X. unfold getVertex in X. rewrite Nat.add_1_r in X. exact X. }
      destruct (nth_error verts l) as [v|] eqn:Ev; [|apply nth_error_None in Ev; lia].
      assert (Iv : In v all) by (apply in_app_iff; left; eapply nth_error_In; eauto).
      destruct (Ow w Iw) as (o2 & O2). destruct (Ow v Iv) as (o1 & O1).
      assert (El : idx all v = l) by (apply nth_idx; auto; apply (nth_verts verts tys l v Ev)). rewrite El in O1.
      rewrite O1, O2. cbn [obind]. eauto. }
    split. { intros e He. destruct (PB e He) as (l & w & Ll & Iw & E). unfold chk_pins. rewrite E. cbn [obind]. unfold edegree. rewrite Hh. reflexivity. }
    auto.
  - eapply ghosts_checked; eauto. unfold ghosts_of. pose proof (first_occ_len (all_pins tys) verts). lia.
Qed.

Lemma built_in hg parts gs g : build_parts hg parts = Some gs -> In g gs -> exists r p, nth_error parts r = Some p /\ build_part (Z.of_nat r) hg (pi_verts p) (pi_vws p) (pi_tys p) (pi_owns p) = Some g.
Proof.
  unfold build_parts. intros H Hg.
  assert (X : forall (l : list part_input) k out, mapM (fun rp : nat * part_input => build_part (Z.of_nat (fst rp)) hg (pi_verts (snd rp)) (pi_vws (snd rp)) (pi_tys (snd rp)) (pi_owns (snd rp))) (combine (seq k (length l)) l) = Some out ->
     In g out -> exists r p, nth_error l r = Some p /\ build_part (Z.of_nat (k + r)) hg (pi_verts p) (pi_vws p) (pi_tys p) (pi_owns p) = Some g).
  { induction l as [|p l IH]; intros k out E I; cbn [length seq combine mapM] in E; [inversion E; subst; destruct I|].
    cbn [fst snd] in E. destruct (build_part (Z.of_nat k) hg (pi_verts p) (pi_vws p) (pi_tys p) (pi_owns p)) as [g0|] eqn:E0; [|discriminate]. cbn [obind] in E.
    destruct (mapM _ (combine (seq (S k) (length l)) l)) as [out'|] eqn:E1; [|discriminate]. inversion E; subst out. destruct I as [->|I].
    - exists 0, p. rewrite Nat.add_0_r. auto.
    - destruct (IH (S k) out' E1 I) as (r & q & A & B). exists (S r), q. replace (k + S r) with (S k + r) by lia. auto. }
  apply (X parts 0 gs H Hg).
Qed.
Lemma built_len hg parts gs : build_parts hg parts = Some gs -> length gs = length parts.
Proof. unfold build_parts. intros H. apply mapM_length in H. rewrite combine_length, seq_length, Nat.min_id in H. auto. Qed.

(** Every distributed hypergraph built by the construction calls is accepted by every part. *)
Theorem C25_accepts_hypergraph parts gs nt fuel :
  parts <> [] -> good_parts true nt parts -> (forall p, In p parts -> fuel_for p fuel) -> build_parts true parts = Some gs ->
  exists ps, with_globals gs true nt fuel = Some ps /\ map vp_g ps = gs /\
    checkValidity fuel ps = Some (Answers (repeat true (length parts))).
Proof.
  intros Hne HG HF HB. pose proof (built_len _ _ _ HB) as L. rewrite <- L. apply accepted.
  - intros ->. destruct parts; [congruence|discriminate].
  - intros g Ig. destruct (built_in _ _ _ _ HB Ig) as (r & p & Hr & B). destruct (HG r p Hr) as (V & Nt & Gh). destruct (HF p (nth_error_In _ _ Hr)) as (F0 & F1 & F2 & F3).
    split; [|apply (p_hyper _ _ _ _ _ _ _ V B)]. rewrite <- Nt. eapply hyper_sound; eauto. rewrite L. exact Gh.
Qed.

(** So is every distributed traditional graph whose edges start at local vertices and which has no self loop. *)
Theorem C25_accepts_traditional parts gs nt fuel :
  parts <> [] -> good_parts false nt parts -> (forall p, In p parts -> fuel_for p fuel) -> build_parts false parts = Some gs ->
  (forall p es ws, In p parts -> In (es, ws) (pi_tys p) -> local_sources (pi_verts p) es /\ forall e u, In e es -> snd e <> [u; u]) ->
  exists ps, with_globals gs false nt fuel = Some ps /\ map vp_g ps = gs /\
    checkValidity fuel ps = Some (Answers (repeat true (length parts))).
Proof.
  intros Hne HG HF HB HL. pose proof (built_len _ _ _ HB) as L. rewrite <- L. apply accepted.
  - intros ->. destruct parts; [congruence|discriminate].
  - intros g Ig. destruct (built_in _ _ _ _ HB Ig) as (r & p & Hr & B). destruct (HG r p Hr) as (V & Nt & Gh). destruct (HF p (nth_error_In _ _ Hr)) as (F0 & F1 & F2 & F3).
    split; [|apply (p_hyper _ _ _ _ _ _ _ V B)]. rewrite <- Nt. eapply trad_sound; eauto.
    + intros es ws I. apply (HL p es ws (nth_error_In _ _ Hr) I).
    + intros es ws e u I. apply (HL p es ws (nth_error_In _ _ Hr) I).
    + rewrite L. exact Gh.
Qed.

(* ------------------------------------------------------------------ *)
(** * An accepted graph is consistent *)

Lemma seek_true g h : forall fuel it, seek g h fuel it = Some true -> exists k hs, iter_n (pit_step g) (k + 1) it = Some (hs ++ [h]) /\ ~ In 0 hs /\ h <> 0.
Proof.
  induction fuel as [|f IH]; intros it H; cbn [seek] in H; [discriminate|]. destruct (pit_step g it) as [[x it']|] eqn:E; [|discriminate]. cbn [obind] in H.
  destruct (Nat.eqb_spec x 0); [discriminate|]. destruct (Nat.eqb_spec x h) as [->|N].
  - exists 0, []. cbn [Nat.add iter_n]. rewrite E. cbn [obind app]. auto.
  - destruct (IH it' H) as (k & hs & A & B & C). exists (S k), (x :: hs). cbn [Nat.add iter_n]. rewrite E. cbn [obind]. rewrite A. cbn [obind app]. split; auto. split; auto. intros [X|X]; [congruence|auto].
Qed.

Lemma tally_inv g es s s' : foldM (tally1 g) es s = Some s' -> forall e, In e es -> (exists d, edegree g e = Some d) /\ exists res, getResidence g e = Some res.
Proof.
  revert s. induction es as [|e es IH]; intros s H e0 []; cbn [foldM] in H; destruct (tally1 g s e) as [s1|] eqn:E; try discriminate; cbn [obind] in H.
  - subst e0. unfold tally1 in E. destruct (edegree g e) as [d|]; [|discriminate]. destruct (getResidence g e) as [r|]; [|discriminate]. eauto.
  - eapply IH; eauto.
Qed.
Lemma tally_of_inv g fuel t ta : tally_of g fuel t = Some ta -> exists es ds, all_edges g t fuel = Some es /\ mapM (edegree g) es = Some ds /\
  ta_i ta = length es /\ ta_l ta = nsum ds /\ ta_j ta = length (filter (mine g) es) /\
  mapM (edegree g) (filter (mine g) es) = Some (map (deg_of g) (filter (mine g) es)) /\ ta_k ta = nsum (map (deg_of g) (filter (mine g) es)) /\
  accounts g t fuel (filter (mine g) es).
Proof.
  unfold tally_of. intros H. destruct (all_edges g t fuel) as [es|] eqn:Ea; [|discriminate]. cbn [obind] in H. exists es, (map (deg_of g) es).
  pose proof (tally_inv _ _ _ _ H) as D. apply tally_spec in H. cbn [ta_i ta_l ta_j ta_k] in H. destruct H as (A & B & C & E).
  assert (M : forall l, (forall e, In e l -> In e es) -> mapM (edegree g) l = Some (map (deg_of g) l)).
  { intros l Hl. apply mapM_some. intros e He. destruct (D e (Hl e He)) as ((d & Ed) & _). unfold deg_of. now rewrite Ed. }
  split; auto. split; [apply M; auto|]. split; [lia|]. split; [lia|]. split; [lia|]. split; [apply M; intros e He; apply filter_In in He; tauto|]. split; [lia|].
  exists es, (mine g). split; auto. split; auto. intros e He. destruct (D e He) as (_ & res & Er). unfold mine, accounted. rewrite Er. split.
  - intros X. exists res. split; auto. intros Hh. rewrite Hh in X. cbn [negb] in X. rewrite orb_false_r in X. apply negb_true_iff in X. intros o Ho.
    destruct (Z.ltb_spec o (self g)) as [L|L]; [|lia]. exfalso. assert (existsb (fun o => (o <? self g)%Z) res = true); [|congruence].
    apply existsb_exists. exists o. split; auto. apply Z.ltb_lt. auto.
  - intros (res' & E2 & X). inversion E2; subst res'. destruct (hyper g); cbn [negb]; [|apply orb_true_r]. rewrite orb_false_r. apply negb_true_iff.
    destruct (existsb _ res) eqn:Y; auto. apply existsb_exists in Y as (o & Ho & L). apply Z.ltb_lt in L. specialize (X eq_refl o Ho). lia.
Qed.

Lemma add_long_inv f ps z : add_long f ps = Some z -> exists xs, mapM f ps = Some xs /\ z = zsum (map Z.of_nat xs).
Proof. unfold add_long. destruct (mapM f ps) as [xs|]; [|discriminate]. cbn [obind]. intros H; inversion H. eauto. Qed.

Lemma broken_true al bs r : broken al = Answers bs -> nth_error bs r = Some true -> False.
Proof.
  unfold broken. destruct (existsb id al) eqn:E; [discriminate|]. intros H Hr. inversion H; subst. apply nth_error_In in Hr.
  assert (existsb id bs = true); [|congruence]. apply existsb_exists. exists true. auto.
Qed.

(** facts gathered for one type *)
Definition type_facts (fuel : nat) (ps : list vpart) (p : vpart) (t : nat) : Prop :=
  (exists es ds ed, all_edges (vp_g p) t fuel = Some es /\ num_edges (vp_g p) t = Some (length es) /\
     mapM (edegree (vp_g p)) es = Some ds /\ gtype (vp_g p) t = Some ed /\ e_npins ed = nsum ds /\
     forall e, In e es -> exists pins, edge_pins (vp_g p) e fuel = Some pins /\ edegree (vp_g p) e = Some (length pins)) /\
  exists ls dss ge, nth_error (vp_ge p) t = Some ge /\
    Forall2 (fun q l => accounts (vp_g q) t fuel l) ps ls /\
    Forall2 (fun ql ds => mapM (edegree (vp_g (fst ql))) (snd ql) = Some ds) (combine ps ls) dss /\
    fst ge = zsum (map (fun l => Z.of_nat (length l)) ls) /\ snd ge = zsum (map (fun ds => Z.of_nat (nsum ds)) dss).

Lemma types_facts fuel ps r p : nth_error ps r = Some p -> forall ts al bs, length al = length ps -> chk_types fuel ps ts al = Some (Answers bs) -> nth_error bs r = Some true ->
  nth_error al r = Some true /\ (forall t, In t ts -> type_facts fuel ps p t) /\ chk_ghosts fuel (Z.of_nat (length ps)) p = Some true.
Proof.
  intros Hp. induction ts as [|t ts IH]; intros al bs La H Hr; cbn [chk_types] in H.
  - destruct (each _ al ps) as [al'|] eqn:E; [|discriminate]. cbn [obind] in H. inversion H; subst al'. destruct (each_true _ _ _ _ _ E Hr) as (A & q & B & C).
    split; auto. split; [intros t []|]. congruence.
  - destruct (each (chk_edges fuel t) al ps) as [al1|] eqn:E1; [|discriminate]. cbn [obind] in H. pose proof (each_length _ _ _ _ La E1) as L1.
    destruct (forallb id al1) eqn:F1; [|inversion H as [H']; exfalso; eapply broken_true; eauto].
    destruct (add_long _ ps) as [j|] eqn:EJ in H; [|discriminate]. cbn [obind] in H.
    destruct (each (chk_gedges fuel t j) al1 ps) as [al2|] eqn:E2; [|discriminate]. cbn [obind] in H. pose proof (each_length _ _ _ _ L1 E2) as L2.
    destruct (forallb id al2) eqn:F2; [|inversion H as [H']; exfalso; eapply broken_true; eauto].
    destruct (add_long _ ps) as [k|] eqn:EK in H; [|discriminate]. cbn [obind] in H.
    destruct (each (chk_gpins fuel t k) al2 ps) as [al3|] eqn:E3; [|discriminate]. cbn [obind] in H. pose proof (each_length _ _ _ _ L2 E3) as L3.
    destruct (IH al3 bs L3 H Hr) as (T3 & TF & G). 
    destruct (each_true _ _ _ _ _ E3 T3) as (T2 & p3 & P3 & C3). destruct (each_true _ _ _ _ _ E2 T2) as (T1 & p2 & P2 & C2). destruct (each_true _ _ _ _ _ E1 T1) as (T0 & p1 & P1 & C1).
    assert (p1 = p) by congruence. assert (p2 = p) by congruence. assert (p3 = p) by congruence. subst p1 p2 p3.
    split; auto. split; auto. intros t' [<-|It]; [|auto].
    unfold chk_edges in C1. destruct (tally_of (vp_g p) fuel t) as [ta|] eqn:Et; [|discriminate]. cbn [obind] in C1. destruct (num_edges (vp_g p) t) as [ne|] eqn:En; [|discriminate]. cbn [obind] in C1.
    assert (X1 : ta_i ta = ne) by (inversion C1 as [Q]; now apply Nat.eqb_eq in Q).
    unfold chk_gedges in C2. rewrite Et in C2. cbn [obind] in C2. destruct (nth_error (vp_ge p) t) as [ge|] eqn:Ege; [|discriminate]. cbn [obind] in C2. destruct (gtype (vp_g p) t) as [ed|] eqn:Eg; [|discriminate]. cbn [obind] in C2.
    assert (X2 : j = fst ge /\ ta_l ta = e_npins ed) by (inversion C2 as [Q]; apply andb_true_iff in Q as (Q1 & Q2); now apply Z.eqb_eq in Q1; apply Nat.eqb_eq in Q2).
    unfold chk_gpins in C3. rewrite Ege in C3. cbn [obind] in C3. destruct (Z.eqb_spec k (snd ge)) as [X3|]; [|discriminate].
    destruct (tally_of_inv _ _ _ _ Et) as (es & ds & A1 & A2 & A3 & A4 & _). rewrite A1 in C3. cbn [obind] in C3. rewrite forM_true in C3.
    split.
    + exists es, ds, ed. split; auto. split; [congruence|]. split; auto. split; auto. split; [lia|]. intros e He. specialize (C3 e He). unfold chk_pins in C3.
      destruct (edge_pins (vp_g p) e fuel) as [pins|]; [|discriminate]. cbn [obind] in C3. destruct (edegree (vp_g p) e) as [d|]; [|discriminate]. cbn [obind] in C3.
      inversion C3 as [Q]. apply Nat.eqb_eq in Q. subst d. eauto.
    + apply add_long_inv in EJ as (js & MJ & ->). apply add_long_inv in EK as (ks & MK & ->).
      set (ls := map (fun q => match all_edges (vp_g q) t fuel with Some es => filter (mine (vp_g q)) es | None => [] end) ps).
      set (dss := map (fun q => map (deg_of (vp_g q)) (match all_edges (vp_g q) t fuel with Some es => filter (mine (vp_g q)) es | None => [] end)) ps).
      assert (W : js = map (@length nat) ls /\ ks = map nsum dss /\ Forall2 (fun q l => accounts (vp_g q) t fuel l) ps ls /\
        Forall2 (fun ql ds => mapM (edegree (vp_g (fst ql))) (snd ql) = Some ds) (combine ps ls) dss).
      { unfold ls, dss. clear - MJ MK. revert js ks MJ MK. induction ps as [|q ps IH]; intros js ks MJ MK; cbn [mapM] in MJ, MK.
        - inversion MJ; inversion MK. cbn. auto.
        - destruct (tally_of (vp_g q) fuel t) as [ta|] eqn:Et; [|discriminate]. cbn [obind] in MJ, MK.
          destruct (mapM _ ps) as [js'|] eqn:MJ' in MJ; [|discriminate]. destruct (mapM _ ps) as [ks'|] eqn:MK' in MK; [|discriminate]. cbn [obind] in MJ, MK. inversion MJ; inversion MK; subst js ks.
          destruct (IH js' ks' MJ' MK') as (I1 & I2 & I3 & I4). destruct (tally_of_inv _ _ _ _ Et) as (es & ds & A1 & A2 & A3 & A4 & A5 & A6 & A7 & A8).
          cbn [map combine]. rewrite A1. split; [congruence|]. split; [congruence|]. split; constructor; auto. }
      destruct W as (W1 & W2 & W3 & W4). exists ls, dss, ge. split; auto. split; auto. split; auto. subst js ks. rewrite !map_map in *.
      destruct X2 as (<- & _). rewrite <- X3. auto.
Qed.

(** If checkValidity answers true on part r, the conditions hold on that part and its global counters are the true totals,
    whatever the graph. *)
Theorem C25_sound fuel ps bs r p : checkValidity fuel ps = Some (Answers bs) -> nth_error bs r = Some true -> nth_error ps r = Some p ->
  consistent_part fuel (Z.of_nat (length ps)) p /\ consistent_totals fuel ps p.
Proof.
  intros H Hr Hp. unfold checkValidity in H. destruct ps as [|p0 ps0] eqn:Eps; [discriminate|]. rewrite <- Eps in *.
  destruct (forallb (fun q => ntypes (vp_g q) =? ntypes (vp_g p0)) ps) eqn:F; [|discriminate].
  rewrite forallb_forall in F. assert (N0 : ntypes (vp_g p) = ntypes (vp_g p0)) by (apply Nat.eqb_eq, F; eapply nth_error_In; eauto).
  destruct (each (chk_count fuel) _ ps) as [al|] eqn:E0; [|discriminate]. cbn [obind] in H.
  assert (L0 : length al = length ps) by (eapply each_length; [apply repeat_length|exact E0]).
  destruct (forallb id al) eqn:Fa; [|inversion H as [H']; exfalso; eapply broken_true; eauto].
  destruct (add_long _ ps) as [ig|] eqn:EI; [|discriminate]. cbn [obind] in H.
  destruct (each (chk_verts fuel ig) al ps) as [al'|] eqn:E1; [|discriminate]. cbn [obind] in H.
  pose proof (each_length _ _ _ _ L0 E1) as L1. destruct (types_facts fuel ps r p Hp _ _ _ L1 H Hr) as (T1 & TF & G).
  destruct (each_true _ _ _ _ _ E1 T1) as (T0 & q1 & Q1 & C1). destruct (each_true _ _ _ _ _ E0 T0) as (_ & q0 & Q0 & C0).
  assert (q0 = p) by congruence. assert (q1 = p) by congruence. subst q0 q1.
  assert (TF' : forall t, t < ntypes (vp_g p) -> type_facts fuel ps p t) by (intros t Ht; apply TF, in_seq; lia).
  unfold chk_verts in C1. destruct (Z.eqb_spec (vp_gv p) ig) as [Eig|]; [|discriminate].
  destruct (all_verts (vp_g p) fuel) as [vs|] eqn:Ev; [|discriminate]. cbn [obind] in C1.
  destruct (forM (fun h => forM (chk_degree (vp_g p) fuel h) _) vs) as [[|]|] eqn:F1; try discriminate. cbn [obind] in C1.
  rewrite forM_true in F1, C1.
  assert (ALL : forall q, In q ps -> chk_count fuel q = Some true).
  { intros q Iq. apply In_nth_error in Iq as (i & Hi). assert (Ha : nth_error al i = Some true).
    { rewrite (all_ones _ Fa). apply nth_error_repeat_lt. rewrite L0. apply nth_error_Some. congruence. }
    destruct (each_true _ _ _ _ _ E0 Ha) as (_ & q' & A & B). congruence. }
  assert (CNT : forall q, In q ps -> count_verts (vp_g q) fuel = Some (nlv (vp_g q))).
  { intros q Iq. specialize (ALL q Iq). unfold chk_count in ALL. destruct (count_verts (vp_g q) fuel) as [i|]; [|discriminate]. cbn [obind] in ALL. inversion ALL as [Q]. apply Nat.eqb_eq in Q. now subst. }
  split; [constructor|split].
  - exists vs. split; auto. split.
    { pose proof (CNT p (nth_error_In _ _ Hp)) as X. unfold count_verts in X. rewrite Ev in X. cbn [obind] in X. congruence. }
    intros h t Hh Ht. specialize (F1 h Hh). specialize (C1 h Hh). rewrite forM_true in F1, C1. assert (It : In t (seq 0 (ntypes (vp_g p)))) by (apply in_seq; lia).
    specialize (F1 t It). specialize (C1 t It). unfold chk_degree in F1. unfold chk_incident in C1. destruct (vertex_edges (vp_g p) h t fuel) as [es|]; [|discriminate]. cbn [obind] in *.
    destruct (vdegree (vp_g p) h t) as [d|]; [|discriminate]. cbn [obind] in F1. inversion F1 as [Q]. apply Nat.eqb_eq in Q. subst d.
    exists es. split; auto. split; auto. intros e He. rewrite forM_true in C1. specialize (C1 e He). unfold chk_pin in C1. destruct (pins_begin (vp_g p) e) as [it|] eqn:Ep; [|discriminate]. cbn [obind] in C1.
    destruct (seek_true _ _ _ _ C1) as (k & hs & A & B & C). exists it, k, hs. auto.
  - intros t Ht. apply (TF' t Ht).
  - unfold chk_ghosts in G. destruct (all_ghosts (vp_g p) fuel) as [hs|]; [|discriminate]. cbn [obind] in G. exists hs. split; auto. rewrite forM_true in G. intros h Hh. specialize (G h Hh).
    unfold chk_ghost in G. destruct (owner (vp_g p) h) as [o|]; [|discriminate]. cbn [obind] in G. inversion G as [Q]. apply andb_true_iff in Q as (Q1' & Q2).
    apply negb_true_iff in Q1', Q2. exists o. split; auto. split; [now apply Z.eqb_neq|]. apply Z.leb_gt in Q2. exact Q2.
  - apply add_long_inv in EI as (xs & M & Ex). rewrite Eig, Ex. rewrite mapM_some with (h := fun q => nlv (vp_g q)) in M by (intros q Iq; apply CNT; auto).
    inversion M; subst xs. now rewrite map_map.
  - intros t Ht. apply (TF' t Ht).
Qed.

(* ------------------------------------------------------------------ *)
(** * Where it fails, and examples *)

(** two parts with vertices {1,2} and {3}; a hyperedge over all three and one inside part 0; a second type *)
Definition ex25_p0 := mkPart [1;2]%Z [] [([(10, [1;2;3]); (11, [1;2])], []); ([(20, [2;3])], [])]%Z [(3, 1)]%Z.
Definition ex25_p1 := mkPart [3]%Z [] [([(10, [3;1;2])], []); ([(20, [3;2])], [])]%Z [(1, 0); (2, 0)]%Z.
Example C25_hypergraph_nontrivial : good_parts true 2 [ex25_p0; ex25_p1] /\ (forall p, In p [ex25_p0; ex25_p1] -> fuel_for p 20) /\
  exists gs ps, build_parts true [ex25_p0; ex25_p1] = Some gs /\ with_globals gs true 2 20 = Some ps /\
    map vp_ge ps = [[(2, 5); (1, 2)]; [(2, 5); (1, 2)]]%Z /\ checkValidity 20 ps = Some (Answers [true; true]).
Proof.
  split; [|split].
  - intros r p Hr. destruct r as [|[|r]]; [| |destruct r; discriminate Hr]; inversion Hr; subst p; (split; [|split; [reflexivity|]]).
    + split; [repeat constructor; cbn; intuition discriminate|]. split; [cbn; lia|]. split; [cbn; lia|]. intros es ws H. split; [|discriminate].
      left. cbn in H. destruct H as [H|[H|[]]]; inversion H; auto.
    + intros v Hv. cbn in Hv. destruct Hv as [<-|[]]. vm_compute. split; [discriminate|reflexivity].
    + split; [repeat constructor; cbn; intuition discriminate|]. split; [cbn; lia|]. split; [cbn; lia|]. intros es ws H. split; [|discriminate].
      left. cbn in H. destruct H as [H|[H|[]]]; inversion H; auto.
    + intros v Hv. cbn in Hv. destruct Hv as [<-|[<-|[]]]; vm_compute; (split; [discriminate|reflexivity]).
  - intros p [<-|[<-|[]]]; (split; [lia|]; split; [cbn; lia|]; split; [cbn; lia|]); intros es ws H; cbn in H; destruct H as [H|[H|[]]]; inversion H; cbn; lia.
  - destruct (build_parts true [ex25_p0; ex25_p1]) as [gs|] eqn:E; [|vm_compute in E; discriminate]. vm_compute in E. inversion E; subst gs.
    eexists. eexists. split; [reflexivity|]. split; [vm_compute; reflexivity|]. split; [vm_compute; reflexivity|]. vm_compute; reflexivity.
Qed.

(** a traditional graph on two parts *)
Definition ex25_t0 (loop : list Z) := mkPart [1;2]%Z [] [([(0, [1;2]); (1, [2;3]); (2, loop)], []); ([(0, [1;2])], [])]%Z [(3, 1)]%Z.
Definition ex25_t1 := mkPart [3]%Z [] [([(0, [3;2])], []); ([(0, [3;1])], [])]%Z [(1, 0); (2, 0)]%Z.
Example C25_traditional_hyps : good_parts false 2 [ex25_t0 [1;3]%Z; ex25_t1] /\ (forall p, In p [ex25_t0 [1;3]%Z; ex25_t1] -> fuel_for p 20) /\
  (forall p es ws, In p [ex25_t0 [1;3]%Z; ex25_t1] -> In (es, ws) (pi_tys p) -> local_sources (pi_verts p) es /\ forall e u, In e es -> snd e <> [u; u]).
Proof.
  split; [|split].
  - intros r p Hr. destruct r as [|[|r]]; [| |destruct r; discriminate Hr]; inversion Hr; subst p; (split; [|split; [reflexivity|]]).
    + split; [repeat constructor; cbn; intuition discriminate|]. split; [cbn; lia|]. split; [cbn; lia|]. intros es ws H.
      cbn in H. destruct H as [H|[H|[]]]; inversion H; subst; (split; [auto|]); intros _ e He; cbn in He; intuition (subst; reflexivity).
    + intros v Hv. cbn in Hv. destruct Hv as [<-|[]]. vm_compute. split; [discriminate|reflexivity].
    + split; [repeat constructor; cbn; intuition discriminate|]. split; [cbn; lia|]. split; [cbn; lia|]. intros es ws H.
      cbn in H. destruct H as [H|[H|[]]]; inversion H; subst; (split; [auto|]); intros _ e He; cbn in He; intuition (subst; reflexivity).
    + intros v Hv. cbn in Hv. destruct Hv as [<-|[<-|[]]]; vm_compute; (split; [discriminate|reflexivity]).
  - intros p [<-|[<-|[]]]; (split; [lia|]; split; [cbn; lia|]; split; [cbn; lia|]); intros es ws H; cbn in H; destruct H as [H|[H|[]]]; inversion H; cbn; lia.
  - intros p es ws [<-|[<-|[]]] H; cbn in H; destruct H as [H|[H|[]]]; inversion H; subst; split.
    all: try (intros e u w He Es; cbn in He; intuition (subst; cbn in Es; inversion Es; subst; cbn; tauto)).
    all: intros e u He Es; cbn in He; intuition (subst; cbn in Es; inversion Es; subst; discriminate).
Qed.
Example C25_traditional_nontrivial : exists gs ps, build_parts false [ex25_t0 [1;3]%Z; ex25_t1] = Some gs /\ with_globals gs false 2 20 = Some ps /\
  map vp_ge ps = [[(4, 8); (2, 4)]; [(4, 8); (2, 4)]]%Z /\ checkValidity 20 ps = Some (Answers [true; true]).
Proof.
  destruct (build_parts false [ex25_t0 [1;3]%Z; ex25_t1]) as [gs|] eqn:E; [|vm_compute in E; discriminate]. vm_compute in E. inversion E; subst gs.
  eexists. eexists. split; [reflexivity|]. split; [vm_compute; reflexivity|]. split; [vm_compute; reflexivity|]. vm_compute; reflexivity.
Qed.

(** "returns true for every graph produced by the construction API" fails for a self loop: the edge has degree 2 but one pin.
    With two edge types the part that notices returns while the other part waits in PCU_Add_Long. *)
Theorem C25_self_loop_refuted : 
  (exists gs ps, build_parts false [mkPart [1;2]%Z [] [([(0, [1;1]); (1, [1;2])], [])]%Z []] = Some gs /\ with_globals gs false 1 20 = Some ps /\
     checkValidity 20 ps = Some (Answers [false])) /\
  (exists gs ps, build_parts false [ex25_t0 [1;1]%Z; ex25_t1] = Some gs /\ with_globals gs false 2 20 = Some ps /\
     checkValidity 20 ps = Some Stuck).
Proof.
  split.
  - destruct (build_parts false [mkPart [1;2]%Z [] [([(0, [1;1]); (1, [1;2])], [])]%Z []]) as [gs|] eqn:E; [|vm_compute in E; discriminate]. vm_compute in E. inversion E; subst gs.
    eexists. eexists. split; [reflexivity|]. split; [vm_compute; reflexivity|]. vm_compute; reflexivity.
  - destruct (build_parts false [ex25_t0 [1;1]%Z; ex25_t1]) as [gs|] eqn:E; [|vm_compute in E; discriminate]. vm_compute in E. inversion E; subst gs.
    eexists. eexists. split; [reflexivity|]. split; [vm_compute; reflexivity|]. vm_compute; reflexivity.
Qed.

(** The parts need not agree: when the error shows after the last PCU_Add_Long one part says no and the other yes. *)
Theorem C25_agreement_refuted : exists parts gs ps, build_parts false parts = Some gs /\ with_globals gs false 1 20 = Some ps /\
  checkValidity 20 ps = Some (Answers [false; true]).
Proof.
  exists [mkPart [1;2]%Z [] [([(0, [1;1]); (1, [1;2])], [])]%Z []; mkPart [3]%Z [] [([(0, [3;1])], [])]%Z [(1, 0)]%Z].
  destruct (build_parts false [mkPart [1;2]%Z [] [([(0, [1;1]); (1, [1;2])], [])]%Z []; mkPart [3]%Z [] [([(0, [3;1])], [])]%Z [(1, 0)]%Z]) as [gs|] eqn:E; [|vm_compute in E; discriminate]. vm_compute in E. inversion E; subst gs.
  eexists. eexists. split; [reflexivity|]. split; [vm_compute; reflexivity|]. vm_compute; reflexivity.
Qed.

(** and it does reject: a ghost recorded as owned by this very part *)
Example C25_rejects : exists gs ps, build_parts true [mkPart [1]%Z [] [([(10, [1;2])], [])]%Z [(2, 0)]%Z] = Some gs /\ with_globals gs true 1 20 = Some ps /\
  checkValidity 20 ps = Some (Answers [false]).
Proof.
  destruct (build_parts true [mkPart [1]%Z [] [([(10, [1;2])], [])]%Z [(2, 0)]%Z]) as [gs|] eqn:E; [|vm_compute in E; discriminate]. vm_compute in E. inversion E; subst gs.
  eexists. eexists. split; [reflexivity|]. split; [vm_compute; reflexivity|]. vm_compute; reflexivity.
Qed.

Print Assumptions C25_accepts_hypergraph.
Print Assumptions C25_accepts_traditional.
Print Assumptions C25_sound.
Print Assumptions C25_self_loop_refuted.
Print Assumptions C25_agreement_refuted.
