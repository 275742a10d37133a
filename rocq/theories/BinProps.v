(** C49, C50: the binary edge-list reader. *)
From Verif Require Import Base GraphModel GraphSpec CsrProofs AccessProofs BinModel BinProofs BinCsr BinSpec BinTop.

(** ** C49 *)
(** The records the processes read, one process after the other, are the file. *)
Theorem C49_slices : forall file P, 0 < P -> concat (map (read_slice file P) (seq 0 P)) = file.
Proof. exact slices_ok. Qed.

(** Without a partition file every vertex has exactly one owner among the P processes, and the owners are contiguous
    blocks: they do not decrease with the id. *)
Theorem C49_block_owners : forall file P, 0 < P ->
  well_owned file P None /\
  length (vert_block_ranks (num_ids file) P) = num_ids file /\
  (forall v, v < num_ids file -> nth_error (vert_block_ranks (num_ids file) P) v = Some (Z.of_nat (own file P None v))) /\
  (forall v w, v <= w -> own file P None v <= own file P None w).
Proof.
  intros file P HP. split; [|split; [apply block_ranks_len|split]].
  - split; [exact HP|]. intros v Hv. eexists; split; [reflexivity|]. now apply block_lt.
  - intros v Hv. now apply block_ranks_nth.
  - intros v w H. unfold own, home. now apply Nat.div_le_mono; [lia|].
Qed.

(** Every process receives exactly the edges of the file whose source it owns, in file order, whatever the owners. *)
Theorem C49_exchange : forall file P part ranks, well_owned file P part -> ranks_of part (num_ids file) P = Some ranks ->
  exists outs, mapM (make_outbox ranks P) (map (read_slice file P) (seq 0 P)) = Some outs /\
    forall r, r < P -> exchange outs r = Some (ainit (endpoints (filter (fun e => own file P part (fst e) =? r) file))).
Proof.
  intros file P part ranks HW Er. destruct (exchanged file P part HW ranks Er) as (outs & E & _ & H). exists outs. split; [exact E|exact H].
Qed.

Lemma split_by A (key : A -> nat) (l : list A) P : (forall x, In x l -> key x < P) ->
  Permutation (concat (map (fun r => filter (fun x => key x =? r) l) (seq 0 P))) l.
Proof.
  induction l as [|a l IH]; intros H.
  - cbn. clear. induction (seq 0 P) as [|x s IH]; cbn; auto.
  - assert (Ha : key a < P) by (apply H; left; auto). specialize (IH (fun x Hx => H x (or_intror Hx))).
    rewrite (seq_split3 P (key a) Ha) in *. rewrite !map_app, !concat_app in *. cbn [map concat filter] in *. rewrite Nat.eqb_refl.
    assert (R : forall s, ~ In (key a) s -> map (fun r => filter (fun x => key x =? r) (a :: l)) s = map (fun r => filter (fun x => key x =? r) l) s).
    { intros s Hs. apply map_ext_in. intros r Hr. cbn [filter]. destruct (Nat.eqb_spec (key a) r); [subst; tauto|reflexivity]. }
    rewrite !R. 2,3: rewrite in_seq; lia.
    etransitivity; [symmetry; apply Permutation_middle|]. now apply perm_skip.
Qed.

(** Over all processes nothing is lost or duplicated: the edges given to the processes are the edges of the file, and the
    graphs have as many edges and as many vertices as the file. *)
Theorem C49_partition : forall file P part, well_owned file P part ->
  Permutation (concat (map (own_edges file P part) (seq 0 P))) file /\
  exists gs, create_bin file P part = Some gs /\ length gs = P /\
    (forall r g, nth_error gs r = Some g -> num_edges g 0 = Some (length (own_edges file P part r)) /\
       nlv g = length (filter (fun v => own file P part v =? r) (seq 0 (num_ids file)))) /\
    nsum (map nlv gs) = num_ids file.
Proof.
  intros file P part HW. split.
  - apply split_by. intros e He. apply (own_lt file P part HW). apply (ids_lt file P part HW), (end_in file), He.
  - destruct (bin_ok file P part HW) as (gs & E & L & H). exists gs. split; [exact E|]. split; [exact L|].
    assert (G : forall r g, nth_error gs r = Some g -> num_edges g 0 = Some (length (own_edges file P part r)) /\
       nlv g = length (filter (fun v => own file P part v =? r) (seq 0 (num_ids file)))).
    { intros r g Hg. destruct (H r g Hg) as (ranks & ed & Hl & Hn & Eg & Ht).
      destruct (part_ok file P part HW ranks Hl Hn r g ed Eg Ht) as (_ & _ & Hnl & Hne & _). split; [|exact Hnl].
      unfold num_edges, gtype. rewrite Ht. cbn. now rewrite Hne. }
    split; [exact G|].
    assert (Em : map nlv gs = map (fun r => length (filter (fun v => own file P part v =? r) (seq 0 (num_ids file)))) (seq 0 P)).
    { apply nth_error_ext. intros r. rewrite !nth_error_map. destruct (nth_error gs r) as [g|] eqn:Eg.
      - assert (r < P) by (rewrite <- L; apply nth_error_Some; congruence). rewrite nth_error_seq by auto. cbn. f_equal. now apply G.
      - apply nth_error_None in Eg. rewrite (proj2 (nth_error_None (seq 0 P) r)); auto. rewrite seq_length. lia. }
    rewrite Em. rewrite <- (map_map (fun r => filter (fun v => own file P part v =? r) (seq 0 (num_ids file))) (@length nat)), <- length_concat.
    rewrite (Permutation_length (split_by nat (own file P part) (seq 0 (num_ids file)) P ltac:(intros x Hx; apply in_seq in Hx; apply (own_lt file P part HW); lia))).
    apply seq_length.
Qed.

(** ** C50 *)
(** What every process shows of the file, for every file and every owners: a vertex its edges mention is found by its id
    and its neighbours are, in file order, [shown] of the destinations, each with the owner of the vertex shown. *)
Theorem C50_adjacency : forall file P part, well_owned file P part ->
  exists gs, create_bin file P part = Some gs /\ length gs = P /\
  forall r g v, nth_error gs r = Some g -> In (Z.of_nat v) (met file P part r) -> exists h,
    findGID g (Z.of_nat v) = Some h /\ vgid g h = Some (Z.of_nat v) /\ owner g h = Some (Z.of_nat r) /\
    forall fuel, length file < fuel -> exists hs, adjacent g h 0 fuel = Some hs /\
      Forall2 (fun d x => vgid g x = Some (Z.of_nat (shown file P part r d)) /\
                          owner g x = Some (Z.of_nat (own file P part (shown file P part r d)))) (dests file v) hs.
Proof.
  intros file P part HW. destruct (bin_ok file P part HW) as (gs & E & L & H). exists gs. split; [exact E|]. split; [exact L|].
  intros r g v Hg Hv. destruct (H r g Hg) as (ranks & ed & Hl & Hn & Eg & Ht).
  destruct (part_ok file P part HW ranks Hl Hn r g ed Eg Ht) as (_ & _ & _ & _ & _ & G). exact (G v Hv).
Qed.

(** which vertices are in [met] *)
Lemma met_spec file P part r v : well_owned file P part ->
  (In (Z.of_nat v) (met file P part r) <-> own file P part v = r /\ exists e, In e file /\ own file P part (fst e) = r /\ (v = fst e \/ v = snd e)).
Proof.
  intros HW. destruct (table file P part HW) as (ranks & _ & Hl & Hn).
  rewrite (in_met file P part HW ranks Hl Hn r). split.
  - intros (w & Ew & Hw & Ow). apply Nat2Z.inj in Ew. subst w. split; [exact Ow|]. unfold endpoints in Hw.
    apply in_flat_map in Hw as (e & He & Hw). apply es_in in He. exists e. cbn in Hw. destruct Hw as [<-|[<-|[]]]; tauto.
  - intros (Ow & e & He & Oe & Hv). exists v. split; [reflexivity|]. split; [|exact Ow]. unfold endpoints. apply in_flat_map.
    exists e. split; [apply es_in; auto|]. cbn. destruct Hv as [->| ->]; auto.
Qed.

(** Destinations owned by other processes are always shown right. *)
Theorem C50_remote : forall file P part r d, own file P part d <> r -> shown file P part r d = d.
Proof. intros. unfold shown. now rewrite (proj2 (Nat.eqb_neq _ _) H). Qed.

Lemma shown_right file P part r d : (forall k, k < length (met file P part r) -> In (Z.of_nat k) (met file P part r)) ->
  In (Z.of_nat d) (met file P part r) -> shown file P part r d = d.
Proof.
  intros H Hd. unfold shown. destruct (own file P part d =? r); auto. cbv zeta.
  assert (X : existsb (Z.eqb (Z.of_nat (idx (met file P part r) (Z.of_nat d)))) (met file P part r) = true).
  { apply existsb_exists. eexists. split; [apply H, idx_lt, Hd|apply Z.eqb_refl]. }
  now rewrite X.
Qed.

(** Where the k vertices a process meets are the ids 0 .. k-1 (a single process whose file mentions every id, for one) the
    graph is the file: every neighbour has the id and the owner it should have. *)
Theorem C50_consistent_partial : forall file P part r, well_owned file P part -> r < P ->
  (forall k, k < length (met file P part r) -> In (Z.of_nat k) (met file P part r)) ->
  exists gs g, create_bin file P part = Some gs /\ nth_error gs r = Some g /\
  forall v, In (Z.of_nat v) (met file P part r) -> exists h,
    findGID g (Z.of_nat v) = Some h /\ vgid g h = Some (Z.of_nat v) /\ owner g h = Some (Z.of_nat r) /\
    forall fuel, length file < fuel -> exists hs, adjacent g h 0 fuel = Some hs /\
      Forall2 (fun d x => vgid g x = Some (Z.of_nat d) /\ owner g x = Some (Z.of_nat (own file P part d))) (dests file v) hs.
Proof.
  intros file P part r HW Hr Hm. destruct (C50_adjacency file P part HW) as (gs & E & L & H).
  destruct (nth_error gs r) as [g|] eqn:Eg; [|apply nth_error_None in Eg; lia]. exists gs, g. split; [exact E|]. split; [exact Eg|].
  intros v Hv. destruct (H r g v Eg Hv) as (h & H1 & H2 & H3 & H4). exists h. repeat (split; [assumption|]).
  intros fuel Hf. destruct (H4 fuel Hf) as (hs & Ea & F). exists hs. split; [exact Ea|].
  assert (S : forall d, In d (dests file v) -> shown file P part r d = d).
  { intros d Hd. destruct (Nat.eq_dec (own file P part d) r) as [Od|Od]; [|now apply C50_remote].
    apply shown_right; auto. apply (met_spec file P part r d HW). split; [exact Od|].
    unfold dests in Hd. apply in_map_iff in Hd as (e & <- & He). apply filter_In in He as (He & Ev). apply Nat.eqb_eq in Ev.
    exists e. split; [exact He|]. split; [|auto]. rewrite Ev. now apply (met_spec file P part r v HW). }
  clear - S F. induction F as [|d x ds xs H F IH]; constructor.
  - rewrite S in H by (left; auto). exact H.
  - apply IH. intros; apply S; right; auto.
Qed.

(** One process, a file that mentions every id below the largest: the graph is the file. *)
Theorem C50_serial : forall file, (forall v, v < num_ids file -> In v (endpoints file)) ->
  exists g, create_bin file 1 None = Some [g] /\
  forall v, v < num_ids file -> exists h,
    findGID g (Z.of_nat v) = Some h /\ vgid g h = Some (Z.of_nat v) /\ owner g h = Some 0%Z /\
    forall fuel, length file < fuel -> exists hs, adjacent g h 0 fuel = Some hs /\
      Forall2 (fun d x => vgid g x = Some (Z.of_nat d) /\ owner g x = Some 0%Z) (dests file v) hs.
Proof.
  intros file Hall. destruct (C49_block_owners file 1 ltac:(lia)) as (HW & _).
  assert (O : forall v, v < num_ids file -> own file 1 None v = 0).
  { intros v Hv. pose proof (own_lt file 1 None HW v Hv). lia. }
  assert (I : forall v, v < num_ids file -> In (Z.of_nat v) (met file 1 None 0)).
  { intros v Hv. apply (met_spec file 1 None 0 v HW). split; [auto|]. specialize (Hall v Hv). unfold endpoints in Hall.
    apply in_flat_map in Hall as (e & He & Hx). exists e. split; [exact He|]. split; [apply O; apply (ids_lt file 1 None HW), (end_in file), He|].
    cbn in Hx. destruct Hx as [<-|[<-|[]]]; auto. }
  destruct (C50_consistent_partial file 1 None 0 HW ltac:(lia)) as (gs & g & E & Eg & H).
  { intros k Hk. apply I. destruct (table file 1 None HW) as (ranks & _ & Hl & Hn).
    pose proof (met_le file 1 None HW ranks Hl Hn 0). pose proof (filter_length_le' _ (fun v => own file 1 None v =? 0) (seq 0 (num_ids file))).
    rewrite seq_length in H0. lia. }
  assert (L : length gs = 1) by (destruct (bin_ok file 1 None HW) as (gs' & E' & L' & _); congruence).
  destruct gs as [|g' [|]]; try discriminate L. inversion Eg; subst g'. exists g. split; [exact E|].
  intros v Hv. destruct (H v (I v Hv)) as (h & H1 & H2 & H3 & H4). exists h. repeat (split; [assumption|]).
  intros fuel Hf. destruct (H4 fuel Hf) as (hs & Ea & F). exists hs. split; [exact Ea|].
  assert (Hd : forall d, In d (dests file v) -> d < num_ids file).
  { intros d Hd. unfold dests in Hd. apply in_map_iff in Hd as (e & <- & He). apply filter_In in He as (He & _).
    apply (ids_lt file 1 None HW), (end_in file), He. }
  clear - F Hd O. induction F as [|d x ds xs (A & B) F IH]; constructor.
  - split; auto. rewrite B, O by (apply Hd; left; auto). reflexivity.
  - apply IH. intros; apply Hd; right; auto.
Qed.

(** In the block distribution the claim is false on every process but the first: an edge between two vertices of process
    r >= 1 is reported by r as leading to some vertex of process 0. *)
Theorem C50_consistent_refuted : forall file P s d, 0 < P -> In (s, d) file -> own file P None s = own file P None d -> own file P None s <> 0 ->
  let r := own file P None s in
  exists gs g h, create_bin file P None = Some gs /\ nth_error gs r = Some g /\ findGID g (Z.of_nat s) = Some h /\
  forall fuel, length file < fuel -> exists hs k x, adjacent g h 0 fuel = Some hs /\
    nth_error (dests file s) k = Some d /\ nth_error hs k = Some x /\ vgid g x <> Some (Z.of_nat d) /\ owner g x = Some 0%Z.
Proof.
  intros file P s d HP He Osd Os r. destruct (C49_block_owners file P HP) as (HW & _).
  assert (HsN : s < num_ids file) by (apply (ids_lt file P None HW), (end_in file _ He)).
  assert (HdN : d < num_ids file) by (apply (ids_lt file P None HW), (end_in file _ He)).
  assert (Hr : r < P) by (now apply (own_lt file P None HW)).
  assert (Ms : In (Z.of_nat s) (met file P None r)).
  { apply (met_spec file P None r s HW). split; [reflexivity|]. exists (s, d). cbn. auto. }
  assert (Md : In (Z.of_nat d) (met file P None r)).
  { apply (met_spec file P None r d HW). split; [now rewrite <- Osd|]. exists (s, d). cbn. auto. }
  set (np := num_ids file / P + 1).
  (* every vertex of r has an id of at least np, and r has at most np vertices *)
  assert (Big : forall v, own file P None v = r -> np <= v).
  { intros v Hv. destruct (Nat.le_gt_cases np v); auto. exfalso. apply Os. fold r. rewrite <- Hv. unfold own, home. apply Nat.div_small. exact H. }
  assert (Few : length (met file P None r) <= np).
  { assert (X : incl (met file P None r) (map Z.of_nat (seq (r * np) np))).
    { intros x Hx. destruct (table file P None HW) as (ranks & _ & Hl & Hn). apply (in_met file P None HW ranks Hl Hn r) in Hx as (v & -> & _ & Ov).
      apply in_map, in_seq. unfold own, home in Ov. fold np in Ov. rewrite <- Ov.
      pose proof (Nat.div_mod v np ltac:(unfold np; lia)). pose proof (Nat.mod_upper_bound v np ltac:(unfold np; lia)). nia. }
    destruct (table file P None HW) as (ranks & _ & Hl & Hn).
    pose proof (NoDup_incl_length (met_nodup file P None HW ranks Hl Hn r) X) as G. rewrite map_length, seq_length in G. exact G. }
  pose proof (idx_lt _ _ Md) as Hk. set (k0 := idx (met file P None r) (Z.of_nat d)) in *.
  assert (Sh : shown file P None r d = k0).
  { unfold shown. rewrite <- Osd. fold r. rewrite Nat.eqb_refl. cbv zeta. fold k0.
    destruct (existsb (Z.eqb (Z.of_nat k0)) (met file P None r)) eqn:Ex; auto. exfalso.
    apply existsb_exists in Ex as (x & Hx & Ex). apply Z.eqb_eq in Ex. subst x.
    apply (met_spec file P None r k0 HW) in Hx as (Ok & _). apply Big in Ok. lia. }
  assert (Own0 : own file P None k0 = 0) by (unfold own, home; apply Nat.div_small; fold np; lia).
  destruct (C50_adjacency file P None HW) as (gs & E & L & H).
  destruct (nth_error gs r) as [g|] eqn:Eg; [|apply nth_error_None in Eg; lia].
  destruct (H r g s Eg Ms) as (h & H1 & H2 & H3 & H4). exists gs, g, h. repeat (split; [assumption|]).
  intros fuel Hf. destruct (H4 fuel Hf) as (hs & Ea & F).
  assert (Id : In d (dests file s)).
  { unfold dests. apply in_map_iff. exists (s, d). split; [reflexivity|]. apply filter_In. split; [exact He|apply Nat.eqb_refl]. }
  apply In_nth_error in Id as (k & Hkd). destruct (Forall2_nth_l _ _ _ _ _ _ _ F Hkd) as (x & Hx & V & O).
  exists hs, k, x. repeat (split; [assumption|]). split.
  - rewrite V, Sh. intros C. inversion C as [C']. apply Nat2Z.inj in C'.
    assert (np <= d) by (apply Big; now rewrite <- Osd). lia.
  - rewrite O, Sh, Own0. reflexivity.
Qed.

(** A vertex that a process owns but none of its edges mention is counted, and the process then has a vertex whose global
    id was never written. *)
Theorem C50_unmet_refuted : forall file P part v, well_owned file P part -> v < num_ids file ->
  let r := own file P part v in
  (forall e, In e file -> own file P part (fst e) = r -> fst e <> v /\ snd e <> v) ->
  exists gs g l, create_bin file P part = Some gs /\ nth_error gs r = Some g /\ l < nlv g /\ vgid g (getVertex l) = None.
Proof.
  intros file P part v HW Hv r Hno. destruct (bin_ok file P part HW) as (gs & E & L & H).
  assert (Hr : r < P) by (now apply (own_lt file P part HW)).
  destruct (nth_error gs r) as [g|] eqn:Eg; [|apply nth_error_None in Eg; lia].
  destruct (H r g Eg) as (ranks & ed & Hl & Hn & Ec & Ht).
  destruct (part_ok file P part HW ranks Hl Hn r g ed Ec Ht) as (_ & _ & Hnl & _ & Hlu & _).
  set (M := met file P part r) in *.
  assert (Hlt : length M < nlv g).
  { rewrite Hnl, <- (map_length Z.of_nat (filter _ _)).
    set (A := map Z.of_nat (filter (fun v => own file P part v =? r) (seq 0 (num_ids file)))).
    assert (NM : ~ In (Z.of_nat v) M).
    { intros I. apply (met_spec file P part r v HW) in I as (_ & e & He & Oe & Hx). destruct (Hno e He Oe). destruct Hx; congruence. }
    assert (X : incl (Z.of_nat v :: M) A).
    { intros x [<-|Hx].
      - apply in_map, filter_In. split; [apply in_seq; lia|apply Nat.eqb_refl].
      - apply (in_met file P part HW ranks Hl Hn r) in Hx as (w & -> & Hw & Ow). apply in_map, filter_In.
        split; [apply in_seq; split; [lia|apply (ids_lt file P part HW), (es_ends file P part r), Hw]|now apply Nat.eqb_eq]. }
    assert (ND : NoDup (Z.of_nat v :: M)) by (constructor; [exact NM|apply (met_nodup file P part HW ranks Hl Hn r)]).
    exact (NoDup_incl_length ND X). }
  exists gs, g, (length M). repeat (split; [assumption|]). unfold vgid, getVertex. rewrite Nat.add_1_r. cbn [vlid obind].
  destruct (Nat.leb_spec (nlv g) (length M)); [lia|]. rewrite Hlu.
  etransitivity; [apply (f_equal (aget _)); symmetry; apply (eq_trans (Nat.add_0_r (length (ainit M)))), ainit_length|].
  rewrite aget_app_r. apply aget_anew.
Qed.

(** ** concrete cases *)
Definition ex_ring : list (nat * nat) := [(0,1);(1,2);(2,3);(3,0);(2,0)].
Example C49_hyp : well_owned ex_ring 2 None /\ well_owned ex_ring 3 (Some [1;0;1;2]%Z).
Proof.
  split; [apply C49_block_owners; lia|]. split; [lia|]. intros v Hv. change (num_ids ex_ring) with 4 in Hv.
  do 4 (destruct v as [|v]; [eexists; split; [reflexivity|cbn; lia]|]). lia.
Qed.
Example C49_ex : map (read_slice ex_ring 2) (seq 0 2) = [[(0,1);(1,2)]; [(2,3);(3,0);(2,0)]] /\
  map (own_edges ex_ring 2 None) [0;1] = [[(0,1);(1,2);(2,3);(2,0)]; [(3,0)]].
Proof. split; reflexivity. Qed.
Example C50_serial_ex : (forall v, v < num_ids ex_ring -> In v (endpoints ex_ring)) /\ dests ex_ring 2 = [3; 0].
Proof. split; [|reflexivity]. intros v Hv. change (num_ids ex_ring) with 4 in Hv. do 4 (destruct v as [|v]; [cbn; tauto|]). lia. Qed.
(** part 0 of the ring on two processes meets exactly 0,1,2 *)
Example C50_partial_ex : met ex_ring 2 None 0 = [0;1;2]%Z /\ forall k, k < length (met ex_ring 2 None 0) -> In (Z.of_nat k) (met ex_ring 2 None 0).
Proof. split; [reflexivity|]. change (met ex_ring 2 None 0) with [0;1;2]%Z. intros k Hk. cbn in Hk. do 3 (destruct k as [|k]; [cbn; tauto|]). lia. Qed.
Definition ex_line : list (nat * nat) := [(0,1);(1,2);(2,3);(3,4);(4,5);(5,4)].
(** 4 and 5 belong to process 1, and process 1 says 5 leads to 0 *)
Example C50_refuted_ex : In (5,4) ex_line /\ own ex_line 2 None 5 = 1 /\ own ex_line 2 None 4 = 1 /\ shown ex_line 2 None 1 4 = 0.
Proof. split; [cbn; tauto|]. repeat split. Qed.
Example C50_unmet_ex : let file := [(0,5);(5,0)] in own file 1 None 3 = 0 /\ (forall e, In e file -> own file 1 None (fst e) = own file 1 None 3 -> fst e <> 3 /\ snd e <> 3).
Proof. split; [reflexivity|]. intros e [<-|[<-|[]]] _; split; discriminate. Qed.

Print Assumptions C49_slices.
Print Assumptions C49_block_owners.
Print Assumptions C49_exchange.
Print Assumptions C49_partition.
Print Assumptions C50_adjacency.
Print Assumptions C50_remote.
Print Assumptions C50_consistent_partial.
Print Assumptions C50_serial.
Print Assumptions C50_consistent_refuted.
Print Assumptions C50_unmet_refuted.
