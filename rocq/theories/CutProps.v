(** The hypergraph that ZoltanCutVertex describes to Zoltan and the partition it makes of the answer (C64). *)
From Verif Require Import Base GraphModel GraphSpec CsrProofs ConstructProofs AccessProofs GraphTop GraphTop2 GraphProps GraphIOModel GraphIOProps TagModel TagProps ColorProofs2 ZoltanModel ZoltanProps BinModel VcutModel.
From Coq Require Import QArith.
Local Open Scope nat_scope.

(** ** The edges are the objects *)
Theorem C64_objects : forall me hg verts vws tys g es ws, constructed me hg verts vws tys g -> nth_error tys 0 = Some (es, ws) ->
  num_obj g = Some (length es) /\ obj_list g = Some (ainit (map (fun i => zid (Z.of_nat i)) (seq 0 (length es))), ainit (seq 0 (length es))).
Proof.
  intros me hg verts vws tys g es ws HC Ht. pose proof (proj1 (constructed_rep _ _ _ _ _ _ HC)) as HR.
  assert (E : num_obj g = Some (length es)). { unfold num_obj, num_edges. destruct (gtype_ok _ _ _ _ _ HR _ _ _ (nth_eff _ _ _ _ Ht)) as (ed & E & HE & _). rewrite E. f_equal. apply HE. }
  split; auto. unfold obj_list. rewrite E. cbn [obind]. set (n := length es).
  destruct (foldM_count _ (fun (s : arr Z * arr nat) i => li <- aset (snd s) i i ;; gi <- aset (fst s) i (zid (Z.of_nat i)) ;; Some (gi, li)) (fun i => i) n
    (fun k s => s = (ainit (map (fun i => zid (Z.of_nat i)) (seq 0 k)) ++ anew (n - k), ainit (seq 0 k) ++ anew (n - k))) (anew n, anew n)) as (s & Es & ->).
  - cbn. now rewrite Nat.sub_0_r.
  - intros k s Hk ->. cbn [fst snd]. rewrite fill_at by (rewrite ?seq_length; lia). cbn [obind]. rewrite fill_at by (rewrite ?map_length, ?seq_length; lia). cbn [obind]. eexists. split; [reflexivity|].
    rewrite seq_app, map_app. cbn. rewrite Nat.sub_add_distr. reflexivity.
  - rewrite map_id in Es. rewrite Es, Nat.sub_diag. cbn. now rewrite !app_nil_r.
Qed.
Print Assumptions C64_objects.

(** ** The nets *)
Section Sums.
Variable d : nat -> nat.
Definition sums (k : nat) : nat := nsum (map d (seq 0 k)).
Lemma sums_S k : sums (k + 1) = sums k + d k.
Proof. unfold sums. rewrite seq_app, map_app, nsum_app. cbn. lia. Qed.
Lemma sums_mono a b : a <= b -> sums a <= sums b.
Proof. induction 1 as [|b H IH]; auto. rewrite <- Nat.add_1_r, sums_S. lia. Qed.
Definition zn (k : nat) : Z := zid (Z.of_nat k).
Lemma ptr_at k i m : i < k -> aget (ainit (map sums (seq 0 k)) ++ anew m) i = Some (sums i).
Proof. intros H. unfold aget. rewrite nth_error_app1 by (rewrite ainit_length, map_length, seq_length; auto). unfold ainit. rewrite !nth_error_map, nth_error_seq by auto. reflexivity. Qed.
Lemma pins_at k i m : i < k -> aget (ainit (map zn (seq 0 k)) ++ anew m) i = Some (zn i).
Proof. intros H. unfold aget. rewrite nth_error_app1 by (rewrite ainit_length, map_length, seq_length; auto). unfold ainit. rewrite !nth_error_map, nth_error_seq by auto. reflexivity. Qed.
End Sums.
Section Data.
Variables (g : graph) (n np : nat) (d : nat -> nat) (x : nat -> Z).
Hypothesis Hn : nlv g = n.
Hypothesis Hv : forall l, l < n -> vgid g (S l) = Some (x l).
Hypothesis Hd : forall l, l < n -> vdegree g (S l) 0 = Some (d l).
Definition DInv (slack k : nat) (s : cuthg) : Prop :=
  ch_i s = k /\ ch_gid s = ainit (map (fun i => zid (x i)) (seq 0 k)) ++ anew (n - k) /\ ch_ptr s = ainit (map (sums d) (seq 0 (k + 1))) ++ anew (n + slack - (k + 1)) /\
  ch_pin s = ainit (map zn (seq 0 (sums d k))) ++ anew (np - sums d k).
Lemma data_step slack k s : sums d n <= np -> 0 < slack -> k < n -> DInv slack k s -> exists s', hg_data1 g np s (S k) = Some s' /\ DInv slack (k + 1) s'.
Proof.
  intros HN Hs Hk (A & B & C & D). unfold hg_data1. rewrite A, (Hv k Hk), Hn. cbn [obind]. rewrite B, fill_at by (rewrite ?map_length, ?seq_length; lia). cbn [obind]. rewrite (Hd k Hk). cbn [obind].
  destruct (Nat.ltb_spec k n); [|lia]. rewrite C, ptr_at by lia. cbn [obind]. rewrite fill_at by (rewrite ?map_length, ?seq_length; lia). cbn [obind].
  replace (map (sums d) (seq 0 (k + 1)) ++ [sums d k + d k]) with (map (sums d) (seq 0 (k + 1 + 1))) by (rewrite (seq_app (k + 1) 1), map_app; cbn [seq map Nat.add]; now rewrite sums_S).
  set (ptr := ainit (map (sums d) (seq 0 (k + 1 + 1))) ++ anew (n + slack - (k + 1) - 1)).
  pose proof (sums_S d k) as SS. pose proof (sums_mono d (k + 1) n ltac:(lia)) as SM.
  destruct (foldM_count _ (fun (a : arr Z) j => o <- aget ptr k ;; a' <- aset a (o + j) (zid (Z.of_nat (o + j))) ;; hi <- aget ptr (k + 1) ;; if (o + j <? np) && (o + j <? hi) then Some a' else None) (fun j => j) (d k)
    (fun j a => a = ainit (map zn (seq 0 (sums d k + j))) ++ anew (np - (sums d k + j))) (ch_pin s)) as (pin & Ep & HP).
  - rewrite D, Nat.add_0_r. reflexivity.
  - intros j a Hj ->. unfold ptr. rewrite (ptr_at d (k + 1 + 1) k), (ptr_at d (k + 1 + 1) (k + 1)) by lia. cbn [obind]. rewrite fill_at by (rewrite ?map_length, ?seq_length; lia). cbn [obind].
    destruct (Nat.ltb_spec (sums d k + j) np); [|lia]. destruct (Nat.ltb_spec (sums d k + j) (sums d (k + 1))); [|lia]. cbn [andb]. eexists. split; [reflexivity|].
    rewrite Nat.add_assoc. set (q := sums d k + j). rewrite (seq_app q 1), map_app, Nat.sub_add_distr. reflexivity.
  - rewrite map_id in Ep. rewrite Ep. cbn [obind]. eexists. split; [reflexivity|]. unfold DInv. cbn [ch_i ch_gid ch_ptr ch_pin]. split; auto. split; [|split].
    + rewrite seq_app, map_app. cbn. now rewrite Nat.sub_add_distr.
    + unfold ptr. f_equal. f_equal. lia.
    + rewrite HP, SS. reflexivity.
Qed.
Lemma data_run slack fuel : all_verts g fuel = Some (map S (seq 0 n)) -> num_obj g = Some np -> sums d n <= np -> 0 < slack ->
  exists s, hg_data slack g fuel = Some s /\ DInv slack n s.
Proof.
  intros EA EN HS Hsl. unfold hg_data, hg_size. rewrite EN. cbn [obind]. rewrite Hn.
  assert (E0 : aset (anew (n + slack)) 0 0 = Some (ainit [0] ++ anew (n + slack - 1))) by (apply (fill_next nat [] (n + slack) 0); lia). rewrite E0. cbn [obind]. rewrite EA. cbn [obind].
  apply (foldM_count _ (hg_data1 g np) S n (DInv slack)).
  - unfold DInv. cbn. rewrite !Nat.sub_0_r. auto.
  - intros k s Hk HI. apply data_step; auto.
Qed.
(** what it means that the loop ran to the end *)
Lemma data_bound slack fuel s : all_verts g fuel = Some (map S (seq 0 n)) -> num_obj g = Some np -> hg_data slack g fuel = Some s -> sums d n <= np.
Proof.
  intros EA EN E. unfold hg_data, hg_size in E. rewrite EN in E. cbn [obind] in E. rewrite Hn in E. destruct (aset (anew (n + slack)) 0 0) as [p0|] eqn:Ep; [|discriminate]. cbn [obind] in E. rewrite EA in E. cbn [obind] in E.
  assert (G : forall m k s0, k + m = n -> ch_i s0 = k -> aget (ch_ptr s0) k = Some (sums d k) -> sums d k <= np -> forall s', foldM (hg_data1 g np) (map S (seq k m)) s0 = Some s' -> sums d n <= np).
  { induction m as [|m IH]; intros k s0 Ek Hi Hp Hle s' E'; cbn [seq map foldM] in E'; [replace n with k by lia; auto|].
    destruct (hg_data1 g np s0 (S k)) as [s1|] eqn:E1; [|discriminate]. cbn [obind] in E'. unfold hg_data1 in E1. rewrite Hi, (Hv k ltac:(lia)), Hn in E1. cbn [obind] in E1. destruct (aset (ch_gid s0) k _) as [gi|]; [|discriminate]. cbn [obind] in E1.
    rewrite (Hd k ltac:(lia)) in E1. cbn [obind] in E1. destruct (Nat.ltb_spec k n); [|lia]. rewrite Hp in E1. cbn [obind] in E1. destruct (aset (ch_ptr s0) (k + 1) (sums d k + d k)) as [ptr|] eqn:EP; [|discriminate]. cbn [obind] in E1.
    destruct (foldM _ (seq 0 (d k)) (ch_pin s0)) as [pin|] eqn:EF; [|discriminate]. cbn [obind] in E1. injection E1 as <-.
    assert (P1 : aget ptr (k + 1) = Some (sums d (k + 1))) by (rewrite sums_S; apply aset_inv in EP as (LP & ->); now apply aget_upd_eq).
    assert (P0 : aget ptr k = Some (sums d k)) by (rewrite <- Hp; apply aset_inv in EP as (LP & ->); apply aget_upd_neq; lia).
    assert (L : sums d (k + 1) <= np).
    { rewrite sums_S. destruct (d k) as [|dk] eqn:Edk; [lia|]. rewrite seq_S, foldM_app in EF. cbn [Nat.add] in EF. destruct (foldM _ (seq 0 dk) (ch_pin s0)) as [a|]; [|discriminate]. cbn [obind foldM] in EF. rewrite P0 in EF. cbn [obind] in EF.
      destruct (aset a (sums d k + dk) _); [|discriminate]. cbn [obind] in EF. rewrite P1 in EF. cbn [obind] in EF. destruct (Nat.ltb_spec (sums d k + dk) np); [lia|discriminate]. }
    apply (IH (k + 1) (mkCH gi ptr pin (k + 1)) ltac:(lia) eq_refl P1 L s'). rewrite <- E'. do 2 f_equal. f_equal. lia. }
  apply (G n 0 (mkCH (anew n) p0 (anew np) 0) eq_refl eq_refl) with (s' := s); auto; [|unfold sums; cbn; lia]. cbn [ch_ptr]. apply aset_inv in Ep as (LP & ->). now apply aget_upd_eq.
Qed.
(** without room for a last offset the last round writes outside *)
Lemma data_slot fuel : 0 < n -> all_verts g fuel = Some (map S (seq 0 n)) -> hg_data 0 g fuel = None.
Proof.
  intros Hpos EA. unfold hg_data. destruct (hg_size g) as [[nl m]|] eqn:EH; [|reflexivity]. cbn [obind]. assert (nl = n). { unfold hg_size in EH. destruct (num_obj g); [|discriminate]. cbn [obind] in EH. injection EH as <- <-. auto. } subst nl.
  destruct (aset (anew (n + 0)) 0 0) as [p0|] eqn:Ep; [|reflexivity]. cbn [obind]. rewrite EA. cbn [obind].
  assert (L0 : length p0 = n) by (apply aset_length in Ep; rewrite Ep, anew_length; lia).
  assert (G : forall k' k s0, k + k' = n -> 0 < k' -> ch_i s0 = k -> length (ch_ptr s0) = n -> foldM (hg_data1 g m) (map S (seq k k')) s0 = None).
  { induction k' as [|k' IH]; intros k s0 Ek Hk' Hi HL; [lia|]. cbn [seq map foldM]. destruct (hg_data1 g m s0 (S k)) as [s1|] eqn:E1; [|reflexivity]. cbn [obind].
    unfold hg_data1 in E1. rewrite Hi, (Hv k ltac:(lia)), Hn in E1. cbn [obind] in E1. destruct (aset (ch_gid s0) k _) as [gi|]; [|discriminate]. cbn [obind] in E1.
    rewrite (Hd k ltac:(lia)) in E1. cbn [obind] in E1. destruct (Nat.ltb_spec k n); [|lia]. destruct (aget (ch_ptr s0) k) as [o|]; [|discriminate]. cbn [obind] in E1. destruct (aset (ch_ptr s0) (k + 1) (o + d k)) as [ptr|] eqn:EP; [|discriminate]. cbn [obind] in E1.
    destruct (foldM _ (seq 0 (d k)) (ch_pin s0)) as [pin|]; [|discriminate]. cbn [obind] in E1. injection E1 as <-. pose proof (aset_length _ _ _ _ _ EP) as LP.
    destruct k' as [|k']. { exfalso. unfold aset in EP. destruct (Nat.ltb_spec (k + 1) (length (ch_ptr s0))); [lia|discriminate]. }
    apply (IH (S k)); cbn [ch_i ch_ptr]; lia. }
  apply (G n 0); auto.
Qed.
End Data.

(** facts of a constructed part used below *)
Lemma read_part me hg verts vws tys g es ws fuel : constructed me hg verts vws tys g -> nth_error tys 0 = Some (es, ws) -> length verts < fuel ->
  all_verts g fuel = Some (map S (seq 0 (length verts))) /\ nlv g = length verts /\ num_obj g = Some (length es) /\
  (forall l, l < length verts -> vgid g (S l) = Some (nth l verts 0%Z)) /\ (forall l, l < length verts -> vdegree g (S l) 0 = Some (cnt_of l (occ_of g verts (ghosts_of verts tys) es))).
Proof.
  intros HC Ht Hf. pose proof (proj1 (constructed_rep _ _ _ _ _ _ HC)) as HR. split; [now apply (all_verts_ok _ _ _ _ _ HR)|]. split; [apply (rp_nlv _ _ _ _ _ HR)|]. split; [eapply C64_objects; eauto|]. split.
  - intros l Hl. rewrite (vgid_ok _ _ _ _ _ HR) by (rewrite app_length; lia). rewrite nth_error_app1 by auto. now apply nth_error_nth'.
  - intros l Hl. apply (vdegree_ok _ _ _ _ _ HR 0 es (eff_wgts ws (length es)) l (nth_eff _ _ _ _ Ht) Hl).
Qed.
Lemma sums_off tot k : sums (fun l => cnt_of l tot) k = off tot k.
Proof. reflexivity. Qed.

(** A traditional graph: one net per vertex, in order, holding each edge that leaves the vertex exactly once.
    Missing: the edges that arrive at the vertex; see C64_targets_refuted. *)
Theorem C64_nets_partial : forall me verts vws tys g es ws fuel slack, constructed me false verts vws tys g -> nth_error tys 0 = Some (es, ws) -> local_sources verts es ->
  length verts < fuel -> 0 < slack ->
  hg_size g = Some (length verts, length es) /\
  exists s, hg_data slack g fuel = Some s /\ ch_gid s = ainit (map zid verts) /\
    forall i v, nth_error verts i = Some v -> exists ks, zoltan_net (length verts) (length es) s i = Some (map (fun k => zid (Z.of_nat k)) ks) /\ NoDup ks /\
      forall k, In k ks <-> k < length es /\ exists w, edge_ends g 0 k = Some (v, w).
Proof.
  intros me verts vws tys g es ws fuel slack HC Ht LS Hf Hs. destruct (read_part _ _ _ _ _ _ _ _ _ HC Ht Hf) as (EA & EN & EO & EV & ED). split; [unfold hg_size; rewrite EO, EN; reflexivity|].
  set (tot := occ_of g verts (ghosts_of verts tys) es) in *. set (d := fun l => cnt_of l tot) in *. pose proof (stored_total _ _ _ _ _ HC 0 es ws Ht LS) as ST. fold tot in ST.
  destruct (data_run g (length verts) (length es) d (fun l => nth l verts 0%Z) EN EV ED slack fuel EA EO) as (s & Es & _ & A & B & C); [rewrite <- ST; apply le_n|auto|].
  exists s. split; auto. split.
  { rewrite A, Nat.sub_diag. cbn. rewrite app_nil_r. f_equal. rewrite <- (map_map (fun i => nth i verts 0%Z) zid). f_equal. clear. induction verts as [|v l IH]; [reflexivity|]. cbn [length seq map nth]. f_equal. rewrite <- seq_shift, map_map. exact IH. }
  intros i v Hi. assert (Li : i < length verts) by (apply nth_error_Some; congruence). exists (seq (off tot i) (cnt_of i tot)).
  assert (OT : forall k, k <= length verts -> off tot k <= length es) by (intros k Hk; rewrite <- ST; apply (sums_mono d); auto).
  assert (OS : off tot (i + 1) = off tot i + cnt_of i tot) by apply (sums_S d).
  split; [|split; [apply seq_NoDup|]].
  - unfold zoltan_net. rewrite B, (ptr_at d) by lia. cbn [obind]. assert (EH : (if i + 1 =? length verts then Some (length es) else aget (ainit (map (sums d) (seq 0 (length verts + 1))) ++ anew (length verts + slack - (length verts + 1))) (i + 1)) = Some (off tot (i + 1))).
    { destruct (Nat.eqb_spec (i + 1) (length verts)) as [E|E]; [rewrite E, ST; reflexivity|]. rewrite (ptr_at d) by lia. reflexivity. }
    rewrite EH. cbn [obind]. change (sums d i) with (off tot i). destruct (Nat.leb_spec (off tot i) (off tot (i + 1))); [|lia]. rewrite OS. replace (off tot i + cnt_of i tot - off tot i) with (cnt_of i tot) by lia.
    apply mapM_some. intros k Hk. apply in_seq in Hk. rewrite C. apply (pins_at (sums d (length verts))). change (sums d (length verts)) with (off tot (length verts)). rewrite ST. specialize (OT (i + 1) ltac:(lia)). lia.
  - intros k. rewrite in_seq. split.
    + intros Hk. specialize (OT (i + 1) ltac:(lia)). split; [lia|]. pose proof (vals_dests _ _ _ _ _ _ HC 0 es ws i v eq_refl Ht Hi) as VD. fold tot in VD.
      destruct (nth_error (out_dests v es) (k - off tot i)) as [w|] eqn:Ew.
      * exists w. replace k with (off tot i + (k - off tot i)) by lia. apply (row_ends _ _ _ _ _ HC 0 es ws Ht i v _ w Hi Ew).
      * exfalso. apply nth_error_None in Ew. unfold cnt_of in Hk. rewrite VD, map_length in Hk. lia.
    + intros (Lk & w & E). destruct (row_at _ _ _ _ _ HC 0 es ws Ht LS k Lk) as (l & v' & m & w' & H1 & H2 & H3 & H4). fold tot in H3. destruct (row_ends _ _ _ _ _ HC 0 es ws Ht l v' m w' H1 H2) as (E' & H5 & _). fold tot in E', H5. rewrite <- H3, E in E'. injection E' as -> ->.
      assert (l = i). { destruct HC as ((ND & _) & _). apply (proj1 (NoDup_nth_error verts) ND); [apply nth_error_Some; congruence|congruence]. } subst l. assert (m < cnt_of i tot) by (unfold cnt_of; apply nth_error_Some; congruence). lia.
Qed.
Print Assumptions C64_nets_partial.

(** The net of a vertex never contains an edge that arrives there from another vertex: no edge is in two nets, so cutting a net is never
    weighed against the end of an edge. *)
Theorem C64_targets_refuted : forall me verts vws tys g es ws fuel slack, constructed me false verts vws tys g -> nth_error tys 0 = Some (es, ws) -> local_sources verts es ->
  length verts < fuel -> 0 < slack -> (Z.of_nat (length es) <= 4294967296)%Z ->
  exists s, hg_data slack g fuel = Some s /\
    (forall k v w j, k < length es -> edge_ends g 0 k = Some (v, w) -> v <> w -> nth_error verts j = Some w ->
       exists net, zoltan_net (length verts) (length es) s j = Some net /\ ~ In (zid (Z.of_nat k)) net) /\
    (forall i j a b x, i <> j -> zoltan_net (length verts) (length es) s i = Some a -> zoltan_net (length verts) (length es) s j = Some b -> i < length verts -> j < length verts -> In x a -> ~ In x b).
Proof.
  intros me verts vws tys g es ws fuel slack HC Ht LS Hf Hs HZ. destruct (C64_nets_partial _ _ _ _ _ _ _ _ _ HC Ht LS Hf Hs) as (_ & s & Es & _ & H). exists s. split; auto.
  assert (INJ : forall a b, a < length es -> b < length es -> zid (Z.of_nat a) = zid (Z.of_nat b) -> a = b). { intros a b Ha Hb E. rewrite !zid_small in E by lia. lia. }
  split.
  - intros k v w j Hk He Hne Hj. destruct (H j w Hj) as (ks & E & _ & K). eexists. split; [exact E|]. intros Hin. apply in_map_iff in Hin as (k' & E' & Hk'). apply K in Hk' as (L' & w' & E2). apply INJ in E'; auto. subst k'. congruence.
  - intros i j a b x Hij Ea Eb Li Lj Ha Hb. destruct (nth_error verts i) as [v|] eqn:Ev; [|apply nth_error_None in Ev; lia]. destruct (nth_error verts j) as [w|] eqn:Ew; [|apply nth_error_None in Ew; lia].
    destruct (H i v Ev) as (ks & E & _ & K). destruct (H j w Ew) as (ks' & E' & _ & K'). rewrite E in Ea. rewrite E' in Eb. injection Ea as <-. injection Eb as <-.
    apply in_map_iff in Ha as (k & <- & Hk). apply in_map_iff in Hb as (k' & Ek & Hk'). apply K in Hk as (L1 & w1 & E1). apply K' in Hk' as (L2 & w2 & E2). apply INJ in Ek; auto. subst k'. assert (v = w) by congruence. subst w.
    apply Hij. destruct HC as ((ND & _) & _). apply (proj1 (NoDup_nth_error verts) ND); [auto|congruence].
Qed.
Print Assumptions C64_targets_refuted.

(** hg_data writes one offset more than there are lists: with an array of the announced length it writes outside of it for every graph with a vertex *)
Theorem C64_offsets_refuted : forall me hg verts vws tys g es ws fuel, constructed me hg verts vws tys g -> nth_error tys 0 = Some (es, ws) -> length verts < fuel -> verts <> [] -> hg_data 0 g fuel = None.
Proof.
  intros me hg verts vws tys g es ws fuel HC Ht Hf Hne. destruct (read_part _ _ _ _ _ _ _ _ _ HC Ht Hf) as (EA & EN & EO & EV & ED).
  apply (data_slot g (length verts) _ _ EN EV ED); auto. destruct verts; [congruence|cbn; lia].
Qed.
Print Assumptions C64_offsets_refuted.

(** For a hypergraph the number of edges is announced as the number of pins: as soon as the vertices of the part have more incidences than there
    are edges hg_data writes outside the array or stops at its assertion. *)
Theorem C64_hypergraph_refuted : forall me verts vws tys g es ws fuel slack, constructed me true verts vws tys g -> nth_error tys 0 = Some (es, ws) -> length verts < fuel ->
  length es < nsum (map (fun v => length (incident v es)) verts) -> hg_data slack g fuel = None.
Proof.
  intros me verts vws tys g es ws fuel slack HC Ht Hf Hm. destruct (read_part _ _ _ _ _ _ _ _ _ HC Ht Hf) as (EA & EN & EO & EV & ED).
  destruct (hg_data slack g fuel) as [s|] eqn:E; [|reflexivity]. exfalso. pose proof (data_bound g (length verts) (length es) _ _ EN EV ED slack fuel s EA EO E) as B.
  apply (Nat.lt_irrefl (length es)). eapply Nat.lt_le_trans; [exact Hm|]. etransitivity; [|exact B]. apply Nat.eq_le_incl. unfold sums. f_equal.
  assert (G : forall l v, nth_error verts l = Some v -> cnt_of l (occ_of g verts (ghosts_of verts tys) es) = length (incident v es)).
  { intros l v Hl. destruct (C03_incidence_inverse _ _ _ _ _ 0 es ws l v (S (length (incident v es))) HC Ht Hl (Nat.lt_succ_diag_r _)) as (_ & X). assert (L : l < length verts) by (apply nth_error_Some; congruence). specialize (ED l L). unfold getVertex in X. rewrite Nat.add_1_r in X. congruence. }
  apply nth_error_ext. intros i. rewrite !nth_error_map. destruct (Nat.lt_ge_cases i (length verts)) as [L|L].
  - rewrite nth_error_seq by auto. destruct (nth_error verts i) as [v|] eqn:Ev; [|apply nth_error_None in Ev; lia]. cbn. now rewrite (G i v Ev).
  - rewrite !(proj2 (nth_error_None _ _)); auto. now rewrite seq_length.
Qed.
Print Assumptions C64_hypergraph_refuted.

(** ** The weights of the nets *)
Lemma ew_run me hg verts vws tys g es ws fuel : constructed me hg verts vws tys g -> nth_error tys 0 = Some (es, ws) -> length verts < fuel -> verts <> [] ->
  exists k v dg, nth_error verts k = Some v /\ k + 1 = length verts /\ vdegree g (getVertex k) 0 = Some dg /\
  hg_ew g fuel = Some (ainit [zid v] ++ anew k, ainit [0] ++ anew k, ainit [inv_degree dg] ++ anew k).
Proof.
  intros HC Ht Hf Hne. destruct (read_part _ _ _ _ _ _ _ _ _ HC Ht Hf) as (EA & EN & EO & EV & ED). destruct (length verts) as [|n'] eqn:En; [destruct verts; [congruence|discriminate]|].
  assert (Ln' : n' < length verts) by lia. exists n', (nth n' verts 0%Z), (cnt_of n' (occ_of g verts (ghosts_of verts tys) es)). split; [apply nth_error_nth'; auto|]. split; [lia|]. split; [unfold getVertex; rewrite Nat.add_1_r; apply ED; lia|].
  unfold hg_ew. rewrite EA, EN. cbn [obind].
  destruct (foldM_count _ (fun (s : arr Z * arr nat * arr ewgt) h => let '(gi, li, w) := s in x <- vgid g h ;; gi' <- aset gi 0 (zid x) ;; li' <- aset li 0 0 ;; d <- vdegree g h 0 ;; w' <- aset w 0 (inv_degree d) ;; Some (gi', li', w')) S (S n')
    (fun k s => match k with 0 => s = (anew (S n'), anew (S n'), anew (S n')) | S k' => s = (ainit [zid (nth k' verts 0%Z)] ++ anew n', ainit [0] ++ anew n', ainit [inv_degree (cnt_of k' (occ_of g verts (ghosts_of verts tys) es))] ++ anew n') end)
    (anew (S n'), anew (S n'), anew (S n')) eq_refl) as (s & Es & Ps).
  - intros k s Hk Ps. rewrite Nat.add_1_r. destruct k as [|k]; subst s; rewrite EV, ED by lia; cbn [obind].
    + change (@anew Z (S n')) with (@None Z :: anew n'). change (@anew nat (S n')) with (@None nat :: anew n'). change (@anew ewgt (S n')) with (@None ewgt :: anew n'). cbn. eexists. split; reflexivity.
    + cbn. eexists. split; reflexivity.
  - rewrite Es. rewrite Ps. reflexivity.
Qed.
(** all weights are written to the first entry: with two or more vertices the ids and weights of all nets but the first are never set, and the
    first net gets the id and weight of the last vertex *)
Theorem C64_weights_refuted : forall me hg verts vws tys g es ws fuel, constructed me hg verts vws tys g -> nth_error tys 0 = Some (es, ws) -> length verts < fuel -> 2 <= length verts ->
  exists gi li w, hg_ew g fuel = Some (gi, li, w) /\ length w = length verts /\ (forall i, 0 < i -> aget w i = None /\ aget gi i = None /\ aget li i = None) /\
    exists k v, k + 1 = length verts /\ nth_error verts k = Some v /\ aget gi 0 = Some (zid v).
Proof.
  intros me hg verts vws tys g es ws fuel HC Ht Hf H2. assert (Hne : verts <> []) by (intros ->; cbn in H2; lia). destruct (ew_run _ _ _ _ _ _ _ _ _ HC Ht Hf Hne) as (k & v & dg & Hv & Hk & Hd & E).
  do 3 eexists. split; [exact E|]. split; [cbn; rewrite anew_length; lia|]. split; [|exists k, v; auto].
  intros i Hi. destruct i as [|i]; [lia|]. unfold aget. cbn. repeat split; exact (aget_anew _ k i).
Qed.
Print Assumptions C64_weights_refuted.
(** with one vertex the weight is right.  Missing: every graph with two or more *)
Theorem C64_weights_partial : forall me hg v vws tys g es ws fuel, constructed me hg [v] vws tys g -> nth_error tys 0 = Some (es, ws) -> 1 < fuel ->
  exists dg, vdegree g (getVertex 0) 0 = Some dg /\ hg_ew g fuel = Some (ainit [zid v], ainit [0], ainit [inv_degree dg]).
Proof.
  intros me hg v vws tys g es ws fuel HC Ht Hf. destruct (ew_run _ _ _ _ _ _ _ _ _ HC Ht Hf) as (k & v' & dg & Hv & Hk & Hd & E); [congruence|]. cbn in Hk. assert (k = 0) by lia. subst k. cbn in Hv. injection Hv as <-. eauto.
Qed.
Print Assumptions C64_weights_partial.

(** ** The partition *)
(** the part given to an edge is the one of its last entry in the export list; every edge has at most one part *)
Definition last_part (l : nat) (exports : list (nat * Z)) : option Z :=
  fold_left (fun r x => if fst x =? l then Some (snd x) else r) exports None.
Fixpoint ptn_find (m : list (nat * Z)) (l : nat) : option Z := match m with [] => None | (k, p) :: m' => if k =? l then Some p else ptn_find m' l end.
Lemma ptn_set_find m l p k : ptn_find (ptn_set m l p) k = if l =? k then Some p else ptn_find m k.
Proof.
  induction m as [|[a q] m IH]; cbn; [reflexivity|]. destruct (Nat.eqb_spec a l) as [->|N]; cbn; [destruct (l =? k); reflexivity|]. rewrite IH. destruct (Nat.eqb_spec a k) as [->|]; auto. destruct (Nat.eqb_spec l k); congruence.
Qed.
Lemma ptn_set_keys m l p k : In k (map fst (ptn_set m l p)) <-> k = l \/ In k (map fst m).
Proof. induction m as [|[a q] m IH]; cbn; [intuition|]. destruct (Nat.eqb_spec a l) as [->|N]; cbn; [intuition|]. rewrite IH. intuition. Qed.
Lemma ptn_set_nodup m l p : NoDup (map fst m) -> NoDup (map fst (ptn_set m l p)).
Proof.
  induction m as [|[a q] m IH]; intros H; cbn; [repeat constructor; auto|]. inversion H as [|? ? H1 H2]; subst. destruct (Nat.eqb_spec a l) as [->|N]; cbn; constructor; auto. intros X. apply ptn_set_keys in X as [->|X]; [congruence|auto].
Qed.
Theorem C64_partition : forall exports, NoDup (map fst (createPtn exports)) /\ forall l p, In (l, p) (createPtn exports) <-> last_part l exports = Some p.
Proof.
  intros exports. unfold createPtn, last_part.
  assert (G : forall ex m r, NoDup (map fst m) -> (forall l, ptn_find m l = r l) -> let m' := fold_left (fun m x => ptn_set m (fst x) (snd x)) ex m in NoDup (map fst m') /\ forall l, ptn_find m' l = fold_left (fun r x => if fst x =? l then Some (snd x) else r) ex (r l)).
  { induction ex as [|[k q] ex IH]; intros m r ND E; cbn [fold_left fst snd]; [auto|]. cbv zeta in IH. specialize (IH (ptn_set m k q) (fun l => if k =? l then Some q else r l) (ptn_set_nodup _ _ _ ND)). cbv beta in IH. apply IH. intros l. rewrite ptn_set_find, E. reflexivity. }
  destruct (G exports [] (fun _ => None)) as (ND & F); [constructor|reflexivity|]. split; auto. intros l p. rewrite <- F. clear F. revert ND. generalize (fold_left (fun m x => ptn_set m (fst x) (snd x)) exports []). induction l0 as [|[a q] m IH]; intros ND; cbn; [split; [tauto|discriminate]|]. inversion ND as [|? ? N1 N2]; subst. cbn in N1.
  destruct (Nat.eqb_spec a l) as [->|N].
  - split; [intros [E|E]; [congruence|exfalso; apply N1; now apply (in_map fst) in E]|intros E; injection E as ->; auto].
  - rewrite <- IH by auto. split; [intros [E|E]; [congruence|auto]|auto].
Qed.
Print Assumptions C64_partition.

(** ** The hypotheses are met *)
(** the directed triangle 1 -> 2, 1 -> 3, 2 -> 3, 3 -> 1: the nets are {0,1}, {2} and {3}; edge 0 (to vertex 2) is not in the net of 2, and the
    weights of the second and third net are not set *)
Definition cex : list type_input := [([(10, [1; 2]); (11, [1; 3]); (12, [2; 3]); (13, [3; 1])], [])]%Z.
Example C64_hypotheses_met : exists g s, constructed 0 false [1; 2; 3]%Z [] cex g /\ local_sources [1; 2; 3]%Z (fst (nth 0 cex ([], []))) /\ hg_size g = Some (3, 4) /\
  hg_data 1 g 9 = Some s /\ map (zoltan_net 3 4 s) [0; 1; 2] = [Some [0; 1]; Some [2]; Some [3]]%Z /\ edge_ends g 0 0 = Some (1, 2)%Z /\ hg_data 0 g 9 = None /\
  hg_ew g 9 = Some ([Some 3%Z; None; None], [Some 0; None; None], [Some (inv_degree 1); None; None]).
Proof.
  destruct (build_graph 0 false [1; 2; 3]%Z [] cex) as [g|] eqn:E; [|exfalso; vm_compute in E; discriminate]. destruct (hg_data 1 g 9) as [s|] eqn:Es; [|exfalso; revert Es; vm_compute in E; injection E as <-; vm_compute; discriminate]. exists g, s.
  assert (VI : valid_input false [1; 2; 3]%Z [] cex).
  { split; [repeat constructor; cbn; intuition discriminate|]. split; [cbn; lia|]. split; [cbn; lia|]. intros es ws [H|[]]. injection H as <- <-. split; [auto|]. intros _ e [<-|[<-|[<-|[<-|[]]]]]; reflexivity. }
  split; [split; [exact VI|left; exact E]|]. split; [intros e u w [<-|[<-|[<-|[<-|[]]]]] H; injection H as <- <-; cbn; auto|].
  vm_compute in E. injection E as <-. split; [vm_compute; reflexivity|]. split; auto. vm_compute in Es. injection Es as <-. split; [vm_compute; reflexivity|]. split; [vm_compute; reflexivity|]. split; [vm_compute; reflexivity|]. vm_compute; reflexivity.
Qed.
Example C64_partition_example : createPtn [(0, 1%Z); (2, 0%Z); (0, 2%Z)] = [(0, 2%Z); (2, 0%Z)].
Proof. reflexivity. Qed.
