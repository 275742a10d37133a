(** Second adjacencies (C22, C23). *)
From Verif Require Import Base GraphModel CsrProofs ConstructProofs GraphSpec AccessProofs AccessProofs2 CountProofs GraphTop GraphTop2 GraphProps SecondAdjModel SecondAdjProofs.

Lemma drain_nz S (step : S -> option (nat * S)) fuel s l : drain step fuel s = Some l -> (forall x, In x l -> x <> 0) /\ length l < fuel.
Proof.
  revert s l; induction fuel as [|f IH]; intros s l E; cbn in E; [discriminate|]. destruct (step s) as [(h, s')|]; [|discriminate]. cbn in E.
  destruct (Nat.eqb_spec h 0); [inversion E; subst; split; [intros x []|cbn; lia]|].
  destruct (drain step f s') as [r|] eqn:Er; [|discriminate]. inversion E; subst. destruct (IH _ _ Er) as (A & B). split; [intros x [<-|Hx]; auto|cbn; lia].
Qed.
Lemma uniq_len h l : length (uniq_adj h l) <= length l.
Proof.
  unfold uniq_adj. transitivity (length (nodup Nat.eq_dec l)).
  - induction (nodup Nat.eq_dec l) as [|a k IH]; cbn; [lia|]. destruct (Nat.eq_dec h a); cbn; lia.
  - apply NoDup_incl_length; [apply NoDup_nodup|]. intros x Hx. now apply nodup_In in Hx.
Qed.
Lemma row_out_len ord compress h l : ord_ok ord -> length (row_out ord compress h l) <= length l.
Proof. intros HO. unfold row_out. destruct compress; [|lia]. rewrite (Permutation_length (HO h (uniq_adj h l))). apply uniq_len. Qed.
Lemma uniq_in h l x : In x (uniq_adj h l) <-> In x l /\ x <> h.
Proof.
  unfold uniq_adj. split.
  - intros X. apply in_remove in X as (X & N). apply nodup_In in X. auto.
  - intros (X & N). apply in_in_remove; auto. now apply nodup_In.
Qed.
Lemma uniq_nodup h l : NoDup (uniq_adj h l).
Proof.
  unfold uniq_adj. assert (ND : NoDup (nodup Nat.eq_dec l)) by apply NoDup_nodup. revert ND. generalize (nodup Nat.eq_dec l). clear. induction l as [|a l IH]; intros ND; cbn; [constructor|].
  inversion ND; subst. destruct (Nat.eq_dec h a); auto. constructor; auto. intros X. apply in_remove in X. tauto.
Qed.
Lemma sa_get_upd tb t s : t < length tb -> sa_get (upd tb t (Some s)) t = Some s.
Proof. intros H. unfold sa_get. now rewrite nth_error_upd_eq. Qed.

(** ** C23: the loop over the second adjacency of a vertex visits what adjacent() reports for it, uniquely and without itself when compressed *)
Theorem C23_vev_partial : forall me hg verts vws tys g tb ord compress fuel,
  constructed me hg verts vws tys g -> 0 < length tys -> 0 < length tb -> ord_ok ord -> length verts < fuel ->
  (forall l, l < length verts -> exists hs, adjacent g (getVertex l) 0 fuel = Some hs) ->
  exists tb', create_vev g tb ord 0 compress fuel = Some tb' /\
    forall l hs, l < length verts -> adjacent g (getVertex l) 0 fuel = Some hs ->
      exists out, vev_visit g tb' (getVertex l) 0 fuel = Some out /\
        if compress then Permutation out (remove Nat.eq_dec (getVertex l) (nodup Nat.eq_dec hs)) else out = hs.
Proof.
  intros me hg verts vws tys g tb ord compress fuel HC Ht Htb HO Hf HA.
  pose proof (proj1 (constructed_rep _ _ _ _ _ _ HC)) as HR.
  set (R := fun h => match adjacent g h 0 fuel with Some l => l | None => [] end).
  assert (HRow : forall h, In h (map S (seq 0 (length verts))) -> vev_row g fuel h = Some (R h)).
  { intros h Hh. apply in_map_iff in Hh as (l & <- & Hl). apply in_seq in Hl. destruct (HA l) as (hs & E); [lia|]. unfold vev_row, R. unfold getVertex in E. rewrite Nat.add_1_r in E. now rewrite E. }
  assert (HNZ : forall h x, In x (R h) -> x <> 0).
  { intros h x Hx. unfold R in Hx. destruct (adjacent g h 0 fuel) as [l|] eqn:E; [|destruct Hx]. unfold adjacent in E. destruct (adj_begin g h 0) as [it|]; [|discriminate].
    cbn [obind] in E. apply drain_nz in E as (E & _). auto. }
  destruct (sa_make_ok (nlv g) (vev_row g fuel) vlid ord compress (map S (seq 0 (length verts))) R pred) as (s & Es & Hoff & Hlist); auto.
  { rewrite map_length, seq_length. symmetry. apply (rp_nlv _ _ _ _ _ HR). }
  { intros h x _ Hx. apply HNZ in Hx. destruct x; [congruence|reflexivity]. }
  exists (upd tb 0 (Some s)). split.
  { unfold create_vev. rewrite (all_verts_ok _ _ _ _ _ HR) by auto. cbn [obind]. rewrite Es. cbn [obind]. destruct (Nat.ltb_spec 0 (length tb)); [reflexivity|lia]. }
  intros l hs Hl Eh.
  assert (Hnth : nth_error (map S (seq 0 (length verts))) l = Some (S l)) by (rewrite nth_error_map, nth_error_seq by auto; reflexivity).
  assert (Hlen : length (R (S l)) < fuel).
  { unfold R. unfold getVertex in Eh. rewrite Nat.add_1_r in Eh. rewrite Eh. unfold adjacent in Eh. destruct (adj_begin g (S l) 0); [|discriminate]. apply drain_nz in Eh. tauto. }
  exists (row_out ord compress (S l) (R (S l))). split.
  - unfold vev_visit, vev_begin, vev_end, getVertex. rewrite Nat.add_1_r. cbn [vlid obind]. rewrite sa_get_upd by auto. cbn [obind].
    assert (Hn : nlv g = length verts) by apply (rp_nlv _ _ _ _ _ HR).
    rewrite Hoff by lia. cbn [obind]. rewrite Hoff by lia. cbn [obind]. replace (l + 1) with (S l) by lia. unfold vev_iterate.
    rewrite (sa_loop_ok (nlv g) ord compress (map S (seq 0 (length verts))) R pred) with (s := s) (h := S l); auto.
    + f_equal. rewrite map_map. rewrite <- (map_id (row_out ord compress (S l) (R (S l)))) at 2. apply map_ext_in. intros x Hx.
      assert (Hx' : In x (R (S l))). { unfold row_out in Hx. destruct compress; auto. apply (Permutation_in _ (HO _ _)) in Hx. now apply uniq_in in Hx. }
      apply HNZ in Hx'. lia.
    + now rewrite map_length, seq_length.
    + rewrite (c_ntypes _ _ _ _ _ _ HC). auto.
    + now rewrite sa_get_upd.
    + rewrite map_length. pose proof (row_out_len ord compress (S l) (R (S l)) HO). lia.
  - unfold getVertex in *. rewrite Nat.add_1_r in *. unfold row_out, R. rewrite Eh. destruct compress; [apply HO|reflexivity].
Qed.
Print Assumptions C23_vev_partial.

(** on two or more edge types the loop never finishes for a type other than 0: iterate() forgets the type *)
Lemma sa_loop_stuck nt num enc tb t o : 0 < t < nt -> forall fuel p, sa_loop (sa_iterate nt num enc tb) fuel (o * nt + nt + t + 1) p = None.
Proof.
  intros Ht. induction fuel as [|f IH]; intros p; [reflexivity|]. cbn [sa_loop]. destruct (sa_iterate nt num enc tb p) as [(h, p')|] eqn:E; [|reflexivity].
  cbn [obind]. assert (Hp : exists q, p' = q * nt + nt + 1).
  { unfold sa_iterate in E. destruct (edec nt p) as [(t', id)|]; [|discriminate]. cbn [obind] in E. destruct (sa_get tb t') as [s|]; [|discriminate]. cbn [obind] in E.
    destruct (num t') as [k|]; [|discriminate]. cbn [obind] in E. destruct (aget (sa_off s) k) as [tot|]; [|discriminate]. cbn [obind] in E.
    destruct (tot <=? id); cbn [obind] in E; [inversion E; eauto|]. destruct (aget (sa_list s) id); [|discriminate]. cbn [obind] in E. inversion E; eauto. }
  destruct Hp as (q & ->). destruct (Nat.eqb_spec (q * nt + nt + 1) (o * nt + nt + t + 1)) as [X|X].
  - exfalso. assert (q * nt = o * nt + t) by lia. assert (Y : (q * nt) mod nt = 0) by (apply Nat.mod_mul; lia).
    rewrite H in Y. rewrite Nat.add_comm, Nat.mod_add, Nat.mod_small in Y by lia. lia.
  - now rewrite IH.
Qed.
Theorem C23_other_types_refuted : forall g tb h t fuel, 0 < t < ntypes g ->
  vev_visit g tb h t fuel = None /\ forall l, eve_visit g tb (getEdge (ntypes g) l t) fuel = None.
Proof.
  intros g tb h t fuel Ht. split.
  - unfold vev_visit. destruct (vev_begin g tb h t) as [b|]; [|reflexivity]. cbn [obind]. unfold vev_end. destruct (vlid h) as [l|]; [|reflexivity]. cbn [obind].
    destruct (sa_get tb t) as [s|]; [|reflexivity]. cbn [obind]. destruct (aget (sa_off s) (l + 1)) as [o|]; [|reflexivity]. cbn [obind]. now apply sa_loop_stuck.
  - intros l. unfold eve_visit. destruct (eve_begin g tb (getEdge (ntypes g) l t)) as [b|]; [|reflexivity]. cbn [obind]. unfold eve_end. rewrite edec_getEdge by lia. cbn [obind].
    destruct (sa_get tb t) as [s|]; [|reflexivity]. cbn [obind]. destruct (aget (sa_off s) (l + 1)) as [o|]; [|reflexivity]. cbn [obind]. now apply sa_loop_stuck.
Qed.
Print Assumptions C23_other_types_refuted.

(** ** C22: the rows are the two-step neighbourhoods (type 0) *)
Lemma incident_in v es i : In i (incident v es) <-> exists e, nth_error es i = Some e /\ In v (snd e).
Proof.
  rewrite (count_occ_In Nat.eq_dec), C03_incident_meaning. destruct (nth_error es i) as [e|].
  - split; [intros H; exists e; split; auto; now apply (count_occ_In Z.eq_dec)|]. intros (e' & E & H). inversion E; subst. now apply (count_occ_In Z.eq_dec) in H.
  - split; [lia|]. intros (e & E & _). discriminate.
Qed.
Definition all_pins_at (es : list edge_input) (is : list nat) : list Z := flat_map (fun i => match nth_error es i with Some e => snd e | None => [] end) is.

Theorem C22_vev_hypergraph_partial : forall me verts vws tys g tb ord compress fuel es ws,
  constructed me true verts vws tys g -> nth_error tys 0 = Some (es, ws) -> 0 < length tb -> ord_ok ord -> length verts < fuel ->
  (forall v, In v verts -> length (all_pins_at es (incident v es)) < fuel) ->
  exists tb', create_vev g tb ord 0 compress fuel = Some tb' /\
    forall l v, nth_error verts l = Some v -> exists hs gs, vev_visit g tb' (getVertex l) 0 fuel = Some hs /\ mapM (vgid g) hs = Some gs /\
      if compress then NoDup gs /\ forall w, In w gs <-> w <> v /\ exists e, In e es /\ In v (snd e) /\ In w (snd e)
      else gs = all_pins_at es (incident v es).
Proof.
  intros me verts vws tys g tb ord compress fuel es ws HC Ht Htb HO Hf HF.
  assert (HA : forall l v, nth_error verts l = Some v -> exists hs, adjacent g (getVertex l) 0 fuel = Some hs /\ mapM (vgid g) hs = Some (all_pins_at es (incident v es))).
  { intros l v Hl. apply (w_adj_hyper _ _ _ _ _ _ HC 0 es ws l v fuel); auto. apply HF. eapply nth_error_In; eauto. }
  destruct (C23_vev_partial me true verts vws tys g tb ord compress fuel HC) as (tb' & E & HV); auto.
  { apply nth_error_Some. congruence. }
  { intros l Hl. destruct (nth_error verts l) as [v|] eqn:El; [|apply nth_error_None in El; lia]. destruct (HA l v El) as (hs & A & _). eauto. }
  exists tb'. split; auto. intros l v Hl. destruct (HA l v Hl) as (hs & A & B). assert (L : l < length verts) by (apply nth_error_Some; congruence).
  destruct (HV l hs L A) as (out & Ev & Ho). exists out. destruct compress.
  - assert (Hg : vgid g (getVertex l) = Some v) by (apply (c_vgid _ _ _ _ _ _ HC); rewrite nth_error_app1; auto).
    destruct (uniq_gids _ _ _ _ _ _ HC (fun _ l' => if list_eq_dec Nat.eq_dec l' (uniq_adj (getVertex l) hs) then out else l') hs (all_pins_at es (incident v es)) (getVertex l) v) as (gs & G1 & G2 & G3); auto.
    { intros h' l'. destruct (list_eq_dec Nat.eq_dec l' (uniq_adj (getVertex l) hs)) as [->|]; [exact Ho|apply Permutation_refl]. }
    destruct (list_eq_dec Nat.eq_dec (uniq_adj (getVertex l) hs) (uniq_adj (getVertex l) hs)) as [_|N]; [|congruence].
    exists gs. split; auto. split; auto. split; auto. intros w. rewrite G3. unfold all_pins_at. rewrite in_flat_map. split.
    + intros ((i & Hi & Hw) & N). split; auto. apply incident_in in Hi as (e & Ee & Hv). rewrite Ee in Hw. exists e. split; auto. eapply nth_error_In; eauto.
    + intros (N & e & He & Hv & Hw). split; auto. apply In_nth_error in He as (i & Hi). exists i. split; [apply incident_in; eauto|]. now rewrite Hi.
  - subst out. exists (all_pins_at es (incident v es)). auto.
Qed.
Print Assumptions C22_vev_hypergraph_partial.

(** traditional graph: the destinations of the vertex' edges *)
Theorem C22_vev_traditional_partial : forall me verts vws tys g tb ord compress fuel es ws,
  constructed me false verts vws tys g -> nth_error tys 0 = Some (es, ws) -> 0 < length tb -> ord_ok ord -> length verts < fuel ->
  (forall v, In v verts -> length (out_dests v es) < fuel) ->
  exists tb', create_vev g tb ord 0 compress fuel = Some tb' /\
    forall l v, nth_error verts l = Some v -> exists hs gs, vev_visit g tb' (getVertex l) 0 fuel = Some hs /\ mapM (vgid g) hs = Some gs /\
      if compress then NoDup gs /\ forall w, In w gs <-> w <> v /\ exists e, In e es /\ snd e = [v; w]
      else gs = out_dests v es.
Proof.
  intros me verts vws tys g tb ord compress fuel es ws HC Ht Htb HO Hf HF.
  assert (HA : forall l v, nth_error verts l = Some v -> exists hs, adjacent g (getVertex l) 0 fuel = Some hs /\ mapM (vgid g) hs = Some (out_dests v es)).
  { intros l v Hl. apply (w_adj_trad _ _ _ _ _ _ HC 0 es ws l v fuel); auto. apply HF. eapply nth_error_In; eauto. }
  destruct (C23_vev_partial me false verts vws tys g tb ord compress fuel HC) as (tb' & E & HV); auto.
  { apply nth_error_Some. congruence. }
  { intros l Hl. destruct (nth_error verts l) as [v|] eqn:El; [|apply nth_error_None in El; lia]. destruct (HA l v El) as (hs & A & _). eauto. }
  exists tb'. split; auto. intros l v Hl. destruct (HA l v Hl) as (hs & A & B). assert (L : l < length verts) by (apply nth_error_Some; congruence).
  destruct (HV l hs L A) as (out & Ev & Ho). exists out. destruct compress.
  - assert (Hg : vgid g (getVertex l) = Some v) by (apply (c_vgid _ _ _ _ _ _ HC); rewrite nth_error_app1; auto).
    destruct (uniq_gids _ _ _ _ _ _ HC (fun _ l' => if list_eq_dec Nat.eq_dec l' (uniq_adj (getVertex l) hs) then out else l') hs (out_dests v es) (getVertex l) v) as (gs & G1 & G2 & G3); auto.
    { intros h' l'. destruct (list_eq_dec Nat.eq_dec l' (uniq_adj (getVertex l) hs)) as [->|]; [exact Ho|apply Permutation_refl]. }
    destruct (list_eq_dec Nat.eq_dec (uniq_adj (getVertex l) hs) (uniq_adj (getVertex l) hs)) as [_|N]; [|congruence].
    exists gs. split; auto. split; auto. split; auto. intros w. rewrite G3. unfold out_dests. rewrite in_flat_map.
    assert (L2 : forall e, In e es -> length (snd e) = 2) by (intros e He; eapply two_pins; eauto). split.
    + intros ((e & He & Hw) & N). split; auto. exists e. split; auto. specialize (L2 e He). destruct (snd e) as [|a [|b [|]]]; try discriminate.
      destruct (Z.eqb_spec a v) as [->|]; [|destruct Hw]. destruct Hw as [->|[]]. reflexivity.
    + intros (N & e & He & Hw). split; auto. exists e. split; auto. rewrite Hw, Z.eqb_refl. left; auto.
  - subst out. exists (out_dests v es). auto.
Qed.
Print Assumptions C22_vev_traditional_partial.

(** ** edge-vertex-edge *)
Section E.
Variables (me : Z) (hg : bool) (verts vws : list Z) (tys : list type_input) (g : graph).
Hypothesis HC : constructed me hg verts vws tys g.
Variables (es : list edge_input) (ws : list Z).
Hypothesis Ht : nth_error tys 0 = Some (es, ws).
Variables (tb : satab) (ord : nat -> list nat -> list nat) (compress : bool) (fuel : nat) (J : nat -> list nat).
Hypothesis Htb : 0 < length tb.
Hypothesis HO : ord_ok ord.
Hypothesis Hf : length es < fuel.
Notation ge := (fun j => getEdge (ntypes g) j 0).
Hypothesis HJ : forall i, i < length es -> eve_row g fuel (getEdge (ntypes g) i 0) = Some (map ge (J i)) /\ length (J i) < fuel.
Lemma ge_nt : 0 < ntypes g.
Proof. rewrite (c_ntypes _ _ _ _ _ _ HC). apply nth_error_Some. congruence. Qed.
Lemma ge_inj i j : getEdge (ntypes g) i 0 = getEdge (ntypes g) j 0 -> i = j.
Proof. intros E. apply (getEdge_inj (ntypes g) i 0 j 0) in E; [tauto| |]; apply ge_nt. Qed.
Lemma eve_ok : exists tb', create_eve g tb ord 0 compress fuel = Some tb' /\
  forall i, i < length es -> exists js, eve_visit g tb' (getEdge (ntypes g) i 0) fuel = Some (map ge js) /\
    if compress then NoDup js /\ forall j, In j js <-> In j (J i) /\ j <> i else js = J i.
Proof.
  set (hs := map ge (seq 0 (length es))).
  set (R := fun h => match eve_row g fuel h with Some l => l | None => [] end).
  set (L := fun h => match edec (ntypes g) h with Some (_, j) => j | None => 0 end).
  destruct (c_numedges _ _ _ _ _ _ HC 0 es ws Ht) as (En & _). destruct (gtype g 0) as [ed|] eqn:Eg; [|discriminate]. cbn in En. assert (En' : e_num ed = length es) by congruence. clear En.
  assert (HLge : forall j, L (getEdge (ntypes g) j 0) = j) by (intros j; unfold L; now rewrite edec_getEdge by apply ge_nt).
  assert (HRow : forall i, i < length es -> R (getEdge (ntypes g) i 0) = map ge (J i)) by (intros i Hi; unfold R; now rewrite (proj1 (HJ i Hi))).
  destruct (sa_make_ok (length es) (eve_row g fuel) (elid g) ord compress hs R L) as (s & Es & Hoff & Hlist); auto.
  { unfold hs. now rewrite map_length, seq_length. }
  { intros h Hh. unfold hs in Hh. apply in_map_iff in Hh as (i & <- & Hi). apply in_seq in Hi. unfold R. rewrite (proj1 (HJ i ltac:(lia))). reflexivity. }
  { intros h x Hh Hx. unfold hs in Hh. apply in_map_iff in Hh as (i & <- & Hi). apply in_seq in Hi. rewrite HRow in Hx by lia. apply in_map_iff in Hx as (j & <- & _).
    rewrite HLge. unfold elid. rewrite edec_getEdge by apply ge_nt. reflexivity. }
  exists (upd tb 0 (Some s)). split.
  { unfold create_eve. rewrite Eg. cbn [obind]. rewrite (w_iter_edges _ _ _ _ _ _ HC 0 es ws fuel Ht Hf). cbn [obind]. rewrite En'. unfold hs in Es. rewrite Es. cbn [obind].
    destruct (Nat.ltb_spec 0 (length tb)); [reflexivity|lia]. }
  intros i Hi. destruct (HJ i Hi) as (EJ & LJ).
  assert (Hnth : nth_error hs i = Some (getEdge (ntypes g) i 0)) by (unfold hs; rewrite nth_error_map, nth_error_seq by auto; reflexivity).
  assert (Hin : forall x, In x (row_out ord compress (getEdge (ntypes g) i 0) (R (getEdge (ntypes g) i 0))) -> exists j, x = getEdge (ntypes g) j 0 /\ In j (J i)).
  { intros x Hx. assert (In x (R (getEdge (ntypes g) i 0))) as Hx'. { unfold row_out in Hx. destruct compress; auto. apply (Permutation_in _ (HO _ _)) in Hx. now apply uniq_in in Hx. }
    rewrite HRow in Hx' by auto. apply in_map_iff in Hx' as (j & <- & Hj). eauto. }
  exists (map L (row_out ord compress (getEdge (ntypes g) i 0) (R (getEdge (ntypes g) i 0)))). split.
  - unfold eve_visit, eve_begin, eve_end. rewrite edec_getEdge by apply ge_nt. cbn [obind]. rewrite sa_get_upd by auto. cbn [obind].
    rewrite Hoff by lia. cbn [obind]. rewrite Hoff by lia. cbn [obind]. replace (i + 1) with (S i) by lia. unfold eve_iterate.
    rewrite (sa_loop_ok (length es) ord compress hs R L) with (s := s) (h := getEdge (ntypes g) i 0); auto.
    + f_equal. apply map_ext_in. intros x _. unfold getEdge. lia.
    + unfold hs. now rewrite map_length, seq_length.
    + apply ge_nt.
    + rewrite Eg. cbn [obind]. now rewrite En'.
    + now rewrite sa_get_upd.
    + rewrite map_length. pose proof (row_out_len ord compress (getEdge (ntypes g) i 0) (R (getEdge (ntypes g) i 0)) HO) as X. rewrite (HRow i Hi) in X at 2. rewrite map_length in X. lia.
  - unfold row_out in *. destruct compress.
    + split.
      * assert (ND : NoDup (ord (getEdge (ntypes g) i 0) (uniq_adj (getEdge (ntypes g) i 0) (R (getEdge (ntypes g) i 0))))) by (apply (Permutation_NoDup (Permutation_sym (HO _ _))), uniq_nodup).
        revert ND Hin. generalize (ord (getEdge (ntypes g) i 0) (uniq_adj (getEdge (ntypes g) i 0) (R (getEdge (ntypes g) i 0)))). induction l as [|x l IH]; intros ND Hin; cbn [map]; constructor; inversion ND; subst.
        -- intros X. apply in_map_iff in X as (y & Ey & Hy). destruct (Hin x (or_introl eq_refl)) as (j & -> & _). destruct (Hin y (or_intror Hy)) as (k & -> & _). rewrite !HLge in Ey. subst. auto.
        -- apply IH; auto. intros y Hy. apply Hin. now right.
      * intros j. split.
        -- intros X. apply in_map_iff in X as (y & Ey & Hy). destruct (Hin y Hy) as (k & -> & Hk). rewrite HLge in Ey. subst k. split; auto.
           apply (Permutation_in _ (HO _ _)) in Hy. apply uniq_in in Hy as (_ & N). intros ->. auto.
        -- intros (Hj & N). apply in_map_iff. exists (getEdge (ntypes g) j 0). split; [apply HLge|]. apply (Permutation_in _ (Permutation_sym (HO _ _))). apply uniq_in. split; [|intros X; apply ge_inj in X; auto].
           rewrite HRow by auto. apply in_map_iff. eauto.
    + rewrite HRow by auto. rewrite map_map. rewrite <- (map_id (J i)) at 2. apply map_ext. exact HLge.
Qed.
End E.

Lemma drain_all {St} (I : St -> Prop) (P : nat -> Prop) (f : St -> option (nat * St)) : (forall s h s', I s -> f s = Some (h, s') -> (h <> 0 -> P h) /\ I s') ->
  forall fuel s l, I s -> drain f fuel s = Some l -> Forall P l.
Proof.
  intros H. induction fuel as [|n IH]; intros s l Hs E; [discriminate|]. cbn [drain] in *. destruct (f s) as [[h s']|] eqn:F; [|discriminate]. cbn [obind] in E.
  destruct (H _ _ _ Hs F) as (Ph & Hs'). destruct (Nat.eqb_spec h 0); [inversion E; subst; constructor|].
  destruct (drain f n s') as [r|] eqn:D; [|discriminate]. cbn [obind] in E. inversion E; subst. constructor; eauto.
Qed.
Lemma vertex_edges_shape g h fuel l : vertex_edges g h 0 fuel = Some l -> 0 < ntypes g -> Forall (fun x => exists id, x = getEdge (ntypes g) id 0) l.
Proof.
  unfold vertex_edges, eit_vertex. destruct (vlid h) as [l0|]; [|discriminate]. cbn [obind]. destruct (gtype g 0) as [ed|]; [|discriminate]. cbn [obind].
  destruct (aget (e_deg ed) l0) as [o|]; [|discriminate]. cbn [obind]. destruct (vdegree g h 0) as [d|]; [|discriminate]. cbn [obind]. intros H Hnt.
  revert H. apply (drain_all (fun s => ei_hyper s = false /\ ei_nt s = ntypes g /\ exists k, ei_loc s = getEdge (ntypes g) k 0)).
  - intros s x s' (Hs & Hn & k & Hk) F. unfold eit_step in F. rewrite Hs in F. destruct (ei_end s <=? ei_loc s).
    + inversion F; subst. split; [congruence|]. split; auto. split; auto. eauto.
    + assert (K : exists k', ei_loc s + ei_nt s = getEdge (ntypes g) k' 0) by (exists (S k); rewrite Hk, Hn; unfold getEdge; lia).
      destruct (hyper g); cbn [andb negb] in F.
      * rewrite Hk, edec_getEdge in F by auto. cbn [obind] in F. destruct (gtype g 0) as [ed'|]; [|discriminate]. cbn [obind] in F. destruct (aget (e_list ed') k) as [e|]; [|discriminate]. cbn [obind] in F. inversion F; subst. cbn. rewrite <- Hk. split; [intros _; exists e; unfold getEdge; lia|]. auto.
      * inversion F; subst. cbn. split; [intros _; eauto|]. auto.
  - cbn. split; auto. split; auto. exists o. unfold getEdge. lia.
Qed.
Lemma mapM_nth_inv {X Y} (f : X -> option Y) : forall l r, mapM f l = Some r -> forall i y, nth_error r i = Some y -> exists x, nth_error l i = Some x /\ f x = Some y.
Proof.
  induction l as [|a l IH]; intros r H i y Hy; cbn in H; [inversion H; subst; destruct i; discriminate|]. destruct (f a) as [b|] eqn:E; [|discriminate]. cbn in H. destruct (mapM f l) as [r'|]; [|discriminate]. inversion H; subst.
  destruct i as [|i]; cbn in *; [exists a; split; congruence|eauto].
Qed.
(** C23 for edges: the loop visits exactly what create_eve_adjacency saw from that edge: the edges of its pins that belong to this part, in order;
    under compress, once each and without the edge itself *)
Theorem C23_eve_partial : forall me hg verts vws tys g tb ord compress fuel es ws,
  constructed me hg verts vws tys g -> nth_error tys 0 = Some (es, ws) -> 0 < length tb -> ord_ok ord -> length es < fuel ->
  (forall i, i < length es -> exists row, eve_row g fuel (getEdge (ntypes g) i 0) = Some row /\ length row < fuel) ->
  exists tb', create_eve g tb ord 0 compress fuel = Some tb' /\
    forall i row, i < length es -> eve_row g fuel (getEdge (ntypes g) i 0) = Some row ->
      exists out, eve_visit g tb' (getEdge (ntypes g) i 0) fuel = Some out /\
        if compress then Permutation out (remove Nat.eq_dec (getEdge (ntypes g) i 0) (nodup Nat.eq_dec row)) else out = row.
Proof.
  intros me hg verts vws tys g tb ord compress fuel es ws HC Ht Htb HO Hf HA.
  pose proof (ge_nt _ _ _ _ _ _ HC es ws Ht) as Hnt.
  set (L := fun h => match edec (ntypes g) h with Some (_, j) => j | None => 0 end).
  set (J := fun i => match eve_row g fuel (getEdge (ntypes g) i 0) with Some r => map L r | None => [] end).
  assert (HS : forall h r x, eve_row g fuel h = Some r -> In x r -> x = getEdge (ntypes g) (L x) 0).
  { intros h r x E Hx. unfold eve_row in E. destruct (edge_pins g h fuel) as [vs|]; [|discriminate]. cbn [obind] in E. destruct (mapM _ vs) as [rs|] eqn:M; [|discriminate]. cbn [obind] in E.
    inversion E; subst r. apply in_concat in Hx as (r & Hr & Hx). apply In_nth_error in Hr as (k & Hk). destruct (mapM_nth_inv _ _ _ M _ _ Hk) as (v & _ & Ev). destruct (owner g v) as [o|]; [|discriminate]. cbn [obind] in Ev.
    destruct (Z.eqb o (self g)); [|inversion Ev; subst; destruct Hx].
    pose proof (vertex_edges_shape g v fuel r Ev Hnt) as S2. rewrite Forall_forall in S2. destruct (S2 x Hx) as (id & ->). unfold L. now rewrite edec_getEdge. }
  assert (HJ : forall i r, eve_row g fuel (getEdge (ntypes g) i 0) = Some r -> map (fun j => getEdge (ntypes g) j 0) (J i) = r).
  { intros i r E. unfold J. rewrite E, map_map. rewrite <- (map_id r) at 2. apply map_ext_in. intros x Hx. symmetry. eapply HS; eauto. }
  destruct (eve_ok me hg verts vws tys g HC es ws Ht tb ord compress fuel J Htb HO Hf) as (tb' & E & H).
  { intros i Hi. destruct (HA i Hi) as (r & Er & Lr). rewrite (HJ i r Er), Er. split; [reflexivity|]. unfold J. rewrite Er, map_length. exact Lr. }
  exists tb'. split; [exact E|]. intros i r Hi Er. destruct (H i Hi) as (js & Ev & Hj). eexists. split; [exact Ev|]. destruct compress.
  - destruct Hj as (ND & Hj). apply NoDup_Permutation.
    + apply FinFun.Injective_map_NoDup; [|exact ND]. intros a b X. eapply (ge_inj me hg verts vws tys g HC es ws Ht); eauto.
    + exact (uniq_nodup (getEdge (ntypes g) i 0) r).
    + intros x. rewrite <- (HJ i r Er). change (remove Nat.eq_dec ?a (nodup Nat.eq_dec ?l)) with (uniq_adj a l). rewrite uniq_in, !in_map_iff. split.
      * intros (j & <- & X). apply Hj in X as (X & N). split; [eauto|]. intros Q. apply N. eapply (ge_inj me hg verts vws tys g HC es ws Ht); eauto.
      * intros ((j & <- & X) & N). exists j. split; [reflexivity|]. apply Hj. split; [exact X|]. intros ->. congruence.
  - subst js. apply HJ. exact Er.
Qed.
Print Assumptions C23_eve_partial.

(** hypergraph: edge j is in the row of edge i exactly when they share a vertex of this part *)
Theorem C22_eve_hypergraph_partial : forall me verts vws tys owns g tb ord compress fuel es ws,
  valid_input true verts vws tys -> build_part me true verts vws tys owns = Some g -> nth_error tys 0 = Some (es, ws) ->
  (forall v, ~ In v verts -> part_of me verts owns v <> me) -> 0 < length tb -> ord_ok ord -> length es < fuel ->
  (forall e, In e es -> length (snd e) < fuel) -> (forall v, In v verts -> length (incident v es) < fuel) ->
  (forall e, In e es -> length (flat_map (fun v => if in_dec Z.eq_dec v verts then incident v es else []) (snd e)) < fuel) ->
  exists tb', create_eve g tb ord 0 compress fuel = Some tb' /\
    forall i e, nth_error es i = Some e -> exists js, eve_visit g tb' (getEdge (ntypes g) i 0) fuel = Some (map (fun j => getEdge (ntypes g) j 0) js) /\
      if compress then NoDup js /\ forall j, In j js <-> j <> i /\ exists v e', In v verts /\ In v (snd e) /\ nth_error es j = Some e' /\ In v (snd e')
      else js = flat_map (fun v => if in_dec Z.eq_dec v verts then incident v es else []) (snd e).
Proof.
  intros me verts vws tys owns g tb ord compress fuel es ws HV HB Ht HG Htb HO Hf HF1 HF2 HF3.
  pose proof (p_constructed _ _ _ _ _ _ _ HV HB) as HC.
  set (J := fun i => match nth_error es i with Some e => flat_map (fun v => if in_dec Z.eq_dec v verts then incident v es else []) (snd e) | None => [] end).
  destruct (eve_ok _ _ _ _ _ _ HC es ws Ht tb ord compress fuel J) as (tb' & E & H); auto.
  { intros i Hi. destruct (nth_error es i) as [(gid, ps)|] eqn:Ei; [|apply nth_error_None in Ei; lia]. unfold J. rewrite Ei. cbn [snd].
    assert (Hin : In (gid, ps) es) by (eapply nth_error_In; eauto). split; [|exact (HF3 _ Hin)].
    destruct (c_pins _ _ _ _ _ _ HC 0 es ws i gid ps fuel eq_refl Ht Ei (HF1 _ Hin)) as (hs & E1 & E2 & _). unfold eve_row. rewrite E1. cbn [obind].
    assert (G : forall hs ps, mapM (vgid g) hs = Some ps -> mapM (fun v => o <- owner g v ;; if Z.eqb o (self g) then vertex_edges g v 0 fuel else Some []) hs =
       Some (map (fun v => map (fun j => getEdge (ntypes g) j 0) (if in_dec Z.eq_dec v verts then incident v es else [])) ps)).
    { clear - HV HB HC HG HF2 Ht. induction hs as [|h hs IH]; intros ps E; cbn [mapM] in E.
      - inversion E. reflexivity.
      - destruct (vgid g h) as [v|] eqn:Ev; [|discriminate]. cbn [obind] in E. destruct (mapM (vgid g) hs) as [r|]; [|discriminate]. cbn [obind] in E. inversion E; subst ps. clear E.
        cbn [mapM map]. rewrite (IH r eq_refl). destruct (vgid_inv _ _ _ _ _ _ HC h v Ev) as (l & -> & Hl). rewrite (p_owner _ _ _ _ _ _ _ HV HB l v Hl). cbn [obind].
        rewrite (p_self _ _ _ _ _ _ _ HV HB). destruct (in_dec Z.eq_dec v verts) as [Hv|Hv].
        + assert (X : part_of me verts owns v = me) by (unfold part_of; destruct (in_dec Z.eq_dec v verts); tauto). rewrite X, Z.eqb_refl.
          assert (Hl' : nth_error verts l = Some v).
          { destruct (Nat.lt_ge_cases l (length verts)) as [L|L]; [now rewrite nth_error_app1 in Hl|]. exfalso. rewrite nth_error_app2 in Hl by auto.
            apply (c_ghost_not_local _ _ _ _ _ _ HC v); [|exact Hv]. eapply nth_error_In; eauto. }
          rewrite (proj1 (c_incident _ _ _ _ _ _ HC 0 es ws l v fuel eq_refl Ht Hl' (HF2 v Hv))). reflexivity.
        + specialize (HG v Hv). apply Z.eqb_neq in HG. rewrite HG. reflexivity. }
    rewrite (G hs ps E2). cbn [obind]. f_equal. rewrite flat_map_concat_map, concat_map, map_map. reflexivity. }
  exists tb'. split; auto. intros i e Hi. destruct (H i) as (js & Ev & Hj); [apply nth_error_Some; congruence|]. exists js. split; auto. unfold J in Hj. rewrite Hi in Hj.
  destruct compress; auto. destruct Hj as (ND & Hj). split; auto. intros j. rewrite Hj, in_flat_map. split.
  - intros ((v & Hv & Hx) & N). split; auto. destruct (in_dec Z.eq_dec v verts) as [Hvv|]; [|destruct Hx]. apply incident_in in Hx as (e' & E' & Hx). exists v, e'. auto.
  - intros (N & v & e' & Hvv & Hv & E' & Hx). split; auto. exists v. split; auto. destruct (in_dec Z.eq_dec v verts); [|tauto]. apply incident_in. eauto.
Qed.
Print Assumptions C22_eve_hypergraph_partial.

(** traditional graph: the edges leaving one of the two ends *)
Theorem C22_eve_traditional_partial : forall me verts vws tys owns g tb ord compress fuel es ws,
  valid_input false verts vws tys -> build_part me false verts vws tys owns = Some g -> nth_error tys 0 = Some (es, ws) -> local_sources verts es ->
  (forall v, ~ In v verts -> part_of me verts owns v <> me) -> 0 < length tb -> ord_ok ord -> 2 * length es + 2 < fuel ->
  exists tb', create_eve g tb ord 0 compress fuel = Some tb' /\
    forall i a b, i < length es -> edge_ends g 0 i = Some (a, b) ->
      exists js, eve_visit g tb' (getEdge (ntypes g) i 0) fuel = Some (map (fun j => getEdge (ntypes g) j 0) js) /\ (compress = true -> NoDup js) /\
        forall j, In j js <-> (compress = true -> j <> i) /\ j < length es /\ exists c d, edge_ends g 0 j = Some (c, d) /\ (c = a \/ c = b).
Proof.
  intros me verts vws tys owns g tb ord compress fuel es ws HV HB Ht HS HG Htb HO Hf.
  pose proof (p_constructed _ _ _ _ _ _ _ HV HB) as HC. pose proof (proj1 (constructed_rep _ _ _ _ _ _ HC)) as HR.
  set (tot := occ_of g verts (ghosts_of verts tys) es). pose proof (nth_eff _ _ _ _ Ht) as HT.
  assert (Hyp : hyper g = false) by apply (c_hyper _ _ _ _ _ _ HC).
  assert (Hlen : off tot (length verts) = length es).
  { unfold tot. rewrite (off_total _ _ _ _ _ HC es), (tot_eq _ _ _ _ _ HC 0 es ws Ht HS). apply map_length. }
  assert (Hcnt : forall u, u < length verts -> cnt_of u tot <= length es).
  { intros u Hu. rewrite <- Hlen. pose proof (off_S tot u). pose proof (off_mono_le tot (S u) (length verts) ltac:(lia)). lia. }
  (* every stored edge: its row, its destination *)
  assert (HE : forall i, i < length es -> exists u m x va vb, u < length verts /\ m < cnt_of u tot /\ i = off tot u + m /\ nth_error (vals_of u tot) m = Some x /\
     nth_error verts u = Some va /\ nth_error (verts ++ ghosts_of verts tys) x = Some vb /\ edge_ends g 0 i = Some (va, vb)).
  { intros i Hi. destruct (row_of verts tys g es i) as (u & m & Hu & Hm & Ei); [fold tot; lia|]. fold tot in Hm, Ei.
    destruct (nth_error (vals_of u tot) m) as [x|] eqn:Ex; [|apply nth_error_None in Ex; unfold cnt_of in Hm; lia].
    destruct (nth_error verts u) as [va|] eqn:Eu; [|apply nth_error_None in Eu; lia].
    pose proof (edge_ends_row _ _ _ _ _ HC 0 es ws Ht u m x Hu Ex) as EE. fold tot in EE. rewrite <- Ei in EE. rewrite nth_error_app1, Eu in EE by auto. cbn [obind] in EE.
    assert (Hx : x < length (verts ++ ghosts_of verts tys)).
    { assert (Hin : In x (vals_of u tot)) by (eapply nth_error_In; eauto). unfold tot in Hin. rewrite (vals_dests _ _ _ _ _ _ HC 0 es ws u va eq_refl Ht Eu) in Hin.
      apply in_map_iff in Hin as (w & <- & Hw). apply idx_lt. eapply (c_incl _ _ _ _ _ _ HC); eauto. eapply out_dests_in; eauto. }
    destruct (nth_error (verts ++ ghosts_of verts tys) x) as [vb|] eqn:Evb; [|apply nth_error_None in Evb; lia]. cbn [obind] in EE.
    exists u, m, x, va, vb. repeat split; auto. }
  set (rowof := fun u => seq (off tot u) (cnt_of u tot)).
  assert (HRow : forall j u va, u < length verts -> nth_error verts u = Some va -> (In j (rowof u) <-> j < length es /\ exists d, edge_ends g 0 j = Some (va, d))).
  { intros j u va Hu Eu. unfold rowof. rewrite in_seq. split.
    - intros Hj. assert (j < length es) as L by (rewrite <- Hlen; pose proof (off_S tot u); pose proof (off_mono_le tot (S u) (length verts) ltac:(lia)); lia). split; auto.
      destruct (HE j L) as (u' & m & x & va' & vb & Hu' & Hm & Ej & Hx & Eu' & _ & EE). assert (u' = u) as ->.
      { apply (off_unique tot j); rewrite off_S; lia. } exists vb. rewrite EE. congruence.
    - intros (L & d & EE). destruct (HE j L) as (u' & m & x & va' & vb & Hu' & Hm & Ej & Hx & Eu' & _ & EE'). assert (va' = va) by congruence. subst va'.
      assert (u' = u) as -> by (eapply NoDup_nth_error_inj; eauto; apply HV). lia. }
  set (J := fun i => match edge_ends g 0 i with
     | Some (a, b) => rowof (idx verts a) ++ (if Z.eq_dec a b then [] else if in_dec Z.eq_dec b verts then rowof (idx verts b) else [])
     | None => [] end).
  assert (HJ : forall i, i < length es -> eve_row g fuel (getEdge (ntypes g) i 0) = Some (map (fun j => getEdge (ntypes g) j 0) (J i)) /\ length (J i) < fuel).
  { intros i Hi. destruct (HE i Hi) as (u & m & x & va & vb & Hu & Hm & Ei & Hx & Eu & Ex & EE). unfold J. rewrite EE.
    assert (ND : NoDup verts) by apply HV. assert (Iu : idx verts va = u) by (apply nth_idx; auto).
    rewrite Iu. split.
    - unfold eve_row. rewrite Ei. unfold tot. rewrite (edge_pins_trad g verts _ (ghosts_of verts tys) _ 0 es _ u m x fuel HR Hyp HT Hu Hx ltac:(lia)).
      cbn [obind]. assert (Hov : owner g (S u) = Some me).
      { replace (S u) with (getVertex u) by (unfold getVertex; lia). rewrite (p_owner _ _ _ _ _ _ _ HV HB u va) by (rewrite nth_error_app1; auto).
        unfold part_of. destruct (in_dec Z.eq_dec va verts) as [|N]; auto. exfalso. apply N. eapply nth_error_In; eauto. }
      assert (HVE : forall k, k < length verts -> vertex_edges g (S k) 0 fuel = Some (map (fun p => getEdge (ntypes g) p 0) (rowof k))).
      { intros k Hk. apply (vertex_edges_trad _ _ _ _ _ HR 0 es _ k fuel Hyp HT Hk). fold tot. specialize (Hcnt k Hk). lia. }
      assert (Hxa : x = u <-> va = vb).
      { split; intros Q. - subst x. rewrite nth_error_app1 in Ex by auto. congruence.
        - subst vb. apply (NoDup_nth_error_inj _ (verts ++ ghosts_of verts tys) x u va (rp_nd _ _ _ _ _ HR)); auto. rewrite nth_error_app1; auto. }
      destruct (Nat.eqb_spec u x) as [Q|Q].
      + cbn [mapM]. rewrite Hov. cbn [obind]. rewrite (p_self _ _ _ _ _ _ _ HV HB), Z.eqb_refl, (HVE u Hu). cbn [obind concat]. destruct (Z.eq_dec va vb) as [_|N]; [now rewrite !app_nil_r|]. exfalso. apply N, Hxa. auto.
      + cbn [mapM]. rewrite Hov. cbn [obind]. rewrite (p_self _ _ _ _ _ _ _ HV HB), Z.eqb_refl, (HVE u Hu). cbn [obind].
        replace (S x) with (getVertex x) at 1 by (unfold getVertex; lia). rewrite (p_owner _ _ _ _ _ _ _ HV HB x vb Ex). cbn [obind].
        destruct (Z.eq_dec va vb) as [Y|_]; [exfalso; apply Q; symmetry; apply Hxa; auto|].
        destruct (in_dec Z.eq_dec vb verts) as [Hv|Hv].
        * assert (X : part_of me verts owns vb = me) by (unfold part_of; destruct (in_dec Z.eq_dec vb verts); tauto). rewrite X, Z.eqb_refl.
          assert (Lx : x < length verts). { destruct (Nat.lt_ge_cases x (length verts)) as [L|L]; auto. exfalso. rewrite nth_error_app2 in Ex by auto.
            apply (c_ghost_not_local _ _ _ _ _ _ HC vb); [|exact Hv]. eapply nth_error_In; eauto. }
          assert (Ix : idx verts vb = x) by (apply nth_idx; auto; now rewrite nth_error_app1 in Ex).
          rewrite (HVE x Lx), Ix. cbn [obind concat]. now rewrite app_nil_r, map_app.
        * specialize (HG vb Hv). apply Z.eqb_neq in HG. rewrite HG. cbn [obind concat]. now rewrite !app_nil_r.
    - rewrite app_length. unfold rowof at 1. rewrite seq_length. pose proof (Hcnt u Hu).
      destruct (Z.eq_dec va vb); [cbn; lia|]. destruct (in_dec Z.eq_dec vb verts) as [Hv|Hv]; [|cbn; lia]. unfold rowof. rewrite seq_length. pose proof (Hcnt (idx verts vb) (idx_lt _ _ Hv)). lia. }
  destruct (eve_ok _ _ _ _ _ _ HC es ws Ht tb ord compress fuel J Htb HO ltac:(lia) HJ) as (tb' & E & H).
  exists tb'. split; auto. intros i a b Hi EE. destruct (H i Hi) as (js & Ev & Hj). exists js. split; auto.
  assert (HJin : forall j, In j (J i) <-> j < length es /\ exists c d, edge_ends g 0 j = Some (c, d) /\ (c = a \/ c = b)).
  { intros j. unfold J. rewrite EE. destruct (HE i Hi) as (u & m & x & va & vb & Hu & Hm & Ei & Hx & Eu & Ex & EE'). assert (va = a /\ vb = b) as (-> & ->) by (split; congruence).
    assert (Iu : idx verts a = u) by (apply nth_idx; auto; apply HV). rewrite in_app_iff, Iu, (HRow j u a Hu Eu).
    assert (SB : In j (if Z.eq_dec a b then [] else if in_dec Z.eq_dec b verts then rowof (idx verts b) else []) <-> a <> b /\ j < length es /\ exists d, edge_ends g 0 j = Some (b, d)).
    { destruct (Z.eq_dec a b) as [->|N]; [cbn; tauto|]. destruct (in_dec Z.eq_dec b verts) as [Hv|Hv].
      - rewrite (HRow j (idx verts b) b (idx_lt _ _ Hv) (idx_nth _ _ Hv)). tauto.
      - split; [intros []|]. intros (_ & L & d & Ed). destruct (HE j L) as (u' & m' & x' & va' & vb' & Hu' & _ & _ & _ & Eu' & _ & Ej). apply Hv. assert (va' = b) by congruence. subst. eapply nth_error_In; eauto. }
    rewrite SB. split.
    - intros [(L & d & Ed)|(_ & L & d & Ed)]; split; eauto 8.
    - intros (L & c & d & Ed & [Q|Q]); subst c; [left; eauto|]. destruct (Z.eq_dec a b) as [->|N]; [left|right]; eauto. }
  destruct compress.
  - destruct Hj as (ND & Hj). split; auto. intros j. rewrite Hj, HJin. tauto.
  - subst js. split; [discriminate|]. intros j. rewrite HJin. split; [intros X; split; [discriminate|exact X]|tauto].
Qed.
Print Assumptions C22_eve_traditional_partial.

(** create_vev_adjacency(1) stores the neighbours through edges of type 0: vertex 1 has the type-1 neighbour 3 (handle 3), the first
    stored neighbour is vertex 2 (handle 2).  create_eve_adjacency(1) likewise lists type-0 edges. *)
Definition sa_tys : list type_input := [([(100, [1; 2]); (101, [2; 4])], []); ([(200, [1; 3]); (201, [3; 4])], [])]%Z.
Definition sa_g : option graph := build_part 0 true [1; 2; 3]%Z [] sa_tys [(4, 1)]%Z.
Definition sa_tb0 : satab := repeat None 7.
Theorem C22_other_types_refuted : exists g tb, sa_g = Some g /\ constructed 0 true [1; 2; 3]%Z [] sa_tys g /\
  create_vev g sa_tb0 (fun _ l => l) 1 true 20 = Some tb /\ adjacent g 1 1 20 = Some [1; 3] /\
  (p <- vev_begin g tb 1 1 ;; '(h, _) <- vev_iterate g tb p ;; Some h) = Some 2 /\
  exists tb2, create_eve g sa_tb0 (fun _ l => l) 1 false 20 = Some tb2 /\ eve_row g 20 (getEdge 2 0 1) = Some [getEdge 2 0 0] /\ option_map sa_list (sa_get tb2 1) = Some [Some 0].
Proof.
  destruct sa_g as [g|] eqn:E; [|vm_compute in E; discriminate]. destruct (create_vev g sa_tb0 (fun _ l => l) 1 true 20) as [tb|] eqn:E1; [|vm_compute in E; inversion E; subst g; vm_compute in E1; discriminate].
  exists g, tb. split; [reflexivity|]. split.
  { split; [|right; exists [(4, 1)]%Z; exact E]. split; [repeat constructor; cbn; intuition lia|]. split; [cbn; lia|]. split; [cbn; lia|].
    intros es ws [X|[X|[]]]; inversion X; subst; split; auto; discriminate. }
  vm_compute in E. inversion E; subst g. vm_compute in E1. inversion E1; subst tb. split; [reflexivity|]. split; [reflexivity|]. split; [reflexivity|].
  eexists. split; [reflexivity|]. split; reflexivity.
Qed.
Print Assumptions C22_other_types_refuted.
(** the hypotheses of the theorems for type 0 hold here, and the rows are these *)
Example C22_example : (g <- sa_g ;; tb <- create_vev g sa_tb0 (fun _ l => rev l) 0 true 20 ;; vev_visit g tb 2 0 20) = Some [4; 1] /\
  (g <- sa_g ;; tb <- create_eve g sa_tb0 (fun _ l => l) 0 true 20 ;; eve_visit g tb (getEdge 2 0 0) 20) = Some [getEdge 2 1 0] /\
  (g <- sa_g ;; tb <- create_eve g sa_tb0 (fun _ l => l) 0 false 20 ;; eve_visit g tb (getEdge 2 0 0) 20) = Some (map (fun j => getEdge 2 j 0) [0; 0; 1]) /\
  ord_ok (fun _ l => rev l) /\ (forall v, ~ In v [1; 2; 3]%Z -> part_of 0 [1; 2; 3]%Z [(v, 1%Z)] v <> 0%Z).
Proof.
  split; [reflexivity|]. split; [reflexivity|]. split; [reflexivity|]. split; [intros h l; symmetry; apply Permutation_rev|].
  intros v Hv. unfold part_of. destruct (in_dec Z.eq_dec v [1; 2; 3]%Z); [tauto|]. cbn. rewrite Z.eqb_refl. discriminate.
Qed.
(** traditional: 1->2, 2->3, 3->1; the compressed row of edge 1->2 is the edge 2->3 *)
Example C22_example_trad : local_sources [1; 2; 3]%Z [(0, [1; 2]); (1, [2; 3]); (2, [3; 1])]%Z /\
  (g <- build_part 0 false [1; 2; 3]%Z [] [([(0, [1; 2]); (1, [2; 3]); (2, [3; 1])], [])]%Z [] ;; tb <- create_eve g sa_tb0 (fun _ l => l) 0 true 20 ;; eve_visit g tb (getEdge 1 0 0) 20) = Some [getEdge 1 1 0].
Proof.
  split; [|reflexivity]. intros e u w [<-|[<-|[<-|[]]]] E; inversion E; subst; cbn; auto.
Qed.
(** the hypotheses of C23_eve_partial on that graph: the rows of the two edges of type 0 *)
Example C23_eve_example : (g <- sa_g ;; mapM (fun i => eve_row g 20 (getEdge (ntypes g) i 0)) (seq 0 2)) = Some [[1; 1; 3]; [1; 3]] /\
  (g <- sa_g ;; tb <- create_eve g sa_tb0 (fun _ l => l) 0 false 20 ;; mapM (fun i => eve_visit g tb (getEdge (ntypes g) i 0) 20) (seq 0 2)) = Some [[1; 1; 3]; [1; 3]].
Proof. split; reflexivity. Qed.
