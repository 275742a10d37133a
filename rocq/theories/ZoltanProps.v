(** What Zoltan is told and the plan made from its answer (C60). *)
From Verif Require Import Base GraphModel GraphSpec CsrProofs ConstructProofs AccessProofs GraphTop GraphTop2 GraphProps TagModel TagProps SecondAdjProps ColorProofs2 ZoltanModel.

(** filling an array from the left *)
Lemma fill_next A (done : list A) k x : 0 < k -> aset (ainit done ++ anew k) (length done) x = Some (ainit (done ++ [x]) ++ anew (k - 1)).
Proof.
  intros Hk. rewrite aset_some by (rewrite app_length, ainit_length, anew_length; lia). f_equal. destruct k as [|k]; [lia|].
  replace (length done) with (length (ainit done) + 0) by (rewrite ainit_length; lia). rewrite upd_app_r. unfold ainit. rewrite map_app, <- app_assoc. cbn. now rewrite Nat.sub_0_r.
Qed.
Lemma fill_at A (done : list A) k i x : length done = i -> 0 < k -> aset (ainit done ++ anew k) i x = Some (ainit (done ++ [x]) ++ anew (k - 1)).
Proof. intros <-. apply fill_next. Qed.
Lemma firstn_next A (l : list A) k x : nth_error l k = Some x -> firstn (S k) l = firstn k l ++ [x].
Proof. revert k. induction l as [|a l IH]; intros [|k] H; try discriminate; cbn in *; [now inversion H|]. f_equal. now apply IH. Qed.
(** a loop over the entities 0, 1, ... *)
Lemma foldM_count S (f : S -> nat -> option S) (e : nat -> nat) n (P : nat -> S -> Prop) s : P 0 s -> (forall k s, k < n -> P k s -> exists s', f s (e k) = Some s' /\ P (k + 1) s') ->
  exists s', foldM f (map e (seq 0 n)) s = Some s' /\ P n s'.
Proof.
  intros H0 H. assert (G : forall m k s, k + m = n -> P k s -> exists s', foldM f (map e (seq k m)) s = Some s' /\ P n s').
  { induction m as [|m IH]; intros k s0 E P0; cbn [seq map foldM]; [replace n with k by lia; eauto|]. destruct (H k s0 ltac:(lia) P0) as (s1 & -> & P1). cbn [obind]. apply (IH (Datatypes.S k)); [lia|]. now rewrite <- Nat.add_1_r. }
  apply (G n 0 s); auto.
Qed.

(** the vertices and their weights, in order *)
Theorem C60_vertices : forall me hg verts vws tys g fuel, constructed me hg verts vws tys g -> length verts < fuel ->
  exists s, getVertices g fuel = Some s /\ zo_lids s = ainit (seq 0 (length verts)) /\ zo_gids s = ainit (map zid verts) /\
    length (zo_wgts s) = length verts /\ forall i, i < length verts -> aget (zo_wgts s) i = Some (match nth_error vws i with Some w => w | None => 1%Z end).
Proof.
  intros me hg verts vws tys g fuel HC Hf. pose proof (proj1 (constructed_rep _ _ _ _ _ _ HC)) as HR. unfold getVertices, numVertices. rewrite (all_verts_ok _ _ _ _ _ HR) by auto. cbn [obind]. rewrite (rp_nlv _ _ _ _ _ HR).
  set (n := length verts). set (W := fun i => match nth_error vws i with Some w => w | None => 1%Z end).
  destruct (foldM_count _ (getVertices1 g) S n (fun k s => zo_lids s = ainit (seq 0 k) ++ anew (n - k) /\ zo_gids s = ainit (map zid (firstn k verts)) ++ anew (n - k) /\ zo_wgts s = ainit (map W (seq 0 k)) ++ anew (n - k)) (mkZO (anew n) (anew n) (anew n))) as (s & Es & A & B & C).
  { cbn. rewrite Nat.sub_0_r. auto. }
  { intros k s Lk (A & B & C). unfold getVertices1. cbn [vlid obind]. destruct (nth_error verts k) as [v|] eqn:Ev; [|apply nth_error_None in Ev; fold n in Ev; lia].
    rewrite A. rewrite fill_at by (rewrite ?seq_length; lia). cbn [obind].
    assert (VG : vgid g (S k) = Some v) by (rewrite <- Nat.add_1_r; apply (c_vgid _ _ _ _ _ _ HC); rewrite nth_error_app1; auto). rewrite VG. cbn [obind].
    rewrite B. assert (LF : length (map zid (firstn k verts)) = k) by (rewrite map_length, firstn_length; fold n; lia). rewrite fill_at by lia. cbn [obind].
    pose proof (C07_vertex_weights _ _ _ _ _ _ k v HC Ev) as VW. unfold getVertex in VW. rewrite Nat.add_1_r in VW. rewrite VW. cbn [obind].
    rewrite C. assert (LW : length (map W (seq 0 k)) = k) by (now rewrite map_length, seq_length). rewrite fill_at by lia. cbn [obind]. eexists. split; [reflexivity|]. cbn [zo_lids zo_gids zo_wgts].
    replace (n - (k + 1)) with (n - k - 1) by lia. rewrite Nat.add_1_r, seq_S, map_app. rewrite (firstn_next _ _ _ _ Ev), map_app. auto. }
  exists s. split; auto. rewrite Nat.sub_diag in *. unfold anew in *. cbn [repeat] in *. rewrite app_nil_r in *. split; auto. split; [rewrite B; unfold n; now rewrite firstn_all|]. split; [rewrite C, ainit_length, map_length; apply seq_length|].
  intros i Li. rewrite C, aget_ainit, nth_error_map, (nth_error_nth' _ 0) by (now rewrite seq_length). rewrite seq_nth by auto. reflexivity.
Qed.
Print Assumptions C60_vertices.

(** the ids of some edges *)
Definition gids_at (es : list edge_input) (is : list nat) : list Z := map (fun i => match nth_error es i with Some e => fst e | None => 0%Z end) is.
Lemma put_edges g f hs : (forall h, In h hs -> egid g h = Some (f h)) -> forall done k, length hs <= k ->
  foldM (put_edge g) hs (ainit done ++ anew k, length done) = Some (ainit (done ++ map (fun h => zid (f h)) hs) ++ anew (k - length hs), length (done ++ map (fun h => zid (f h)) hs)).
Proof.
  induction hs as [|h hs IH]; intros H done k Hk; cbn [foldM map length]; [now rewrite app_nil_r, Nat.sub_0_r|]. unfold put_edge at 1. cbn [fst snd]. rewrite (H h (or_introl eq_refl)). cbn [obind].
  cbn in Hk. rewrite fill_next by lia. cbn [obind]. replace (length done + 1) with (length (done ++ [zid (f h)])) by (rewrite app_length; reflexivity).
  rewrite IH; [|intros; apply H; cbn; auto|lia]. rewrite <- app_assoc. cbn [app]. now replace (k - 1 - length hs) with (k - S (length hs)) by lia.
Qed.
Section HG.
Variables (me : Z) (verts vws : list Z) (tys : list type_input) (g : graph).
Hypothesis HC : constructed me true verts vws tys g.
Variables (es : list edge_input) (ws : list Z).
Hypothesis Ht : nth_error tys 0 = Some (es, ws).
Notation HR := (proj1 (constructed_rep _ _ _ _ _ _ HC)).
Notation inc := (map (fun v => incident v es) verts).
Notation row v := (map zid (gids_at es (incident v es))).
Lemma inc_total : length (concat inc) = length (filter (fun v => idx (verts ++ ghosts_of verts tys) v <? length verts) (concat (epins_of es))).
Proof.
  rewrite <- (occ_len me verts vws tys g HC es), <- (list_len verts tys g es). f_equal. f_equal. apply nth_error_ext. intros i. rewrite !nth_error_map. destruct (nth_error verts i) as [v|] eqn:E.
  - assert (L : i < length verts) by (apply nth_error_Some; congruence). rewrite (nth_error_nth' _ 0) by (now rewrite seq_length). rewrite seq_nth by auto. cbn. f_equal. symmetry. now apply (vals_incident _ _ _ _ _ _ HC 0 es ws i v eq_refl Ht).
  - rewrite (proj2 (nth_error_None _ _)); auto. rewrite seq_length. now apply nth_error_None.
Qed.
Lemma inc_le : length (concat inc) <= length (concat (epins_of es)).
Proof. rewrite inc_total. apply filter_len. Qed.
Notation pre k := (concat (map (fun v => row v) (firstn k verts))).
Lemma pre_len k : length (pre k) = nsum (map (fun v => length (incident v es)) (firstn k verts)).
Proof. rewrite length_concat, map_map. f_equal. apply map_ext. intros v. unfold gids_at. now rewrite !map_length. Qed.
Lemma pre_next k v : nth_error verts k = Some v -> pre (k + 1) = pre k ++ row v.
Proof. intros H. rewrite Nat.add_1_r, (firstn_next _ _ _ _ H), map_app, concat_app. cbn. now rewrite app_nil_r. Qed.
Lemma pre_all : length (pre (length verts)) = length (concat inc).
Proof. rewrite pre_len, firstn_all, length_concat, map_map. reflexivity. Qed.
Lemma pre_mono k : length (pre k) <= length (concat inc).
Proof.
  rewrite <- pre_all. rewrite !pre_len, firstn_all. rewrite <- (firstn_skipn k verts) at 2. rewrite map_app, nsum_app. lia.
Qed.
Lemma pre_prefix k : exists r, pre (length verts) = pre k ++ r.
Proof. rewrite firstn_all. exists (concat (map (fun v => row v) (skipn k verts))). now rewrite <- concat_app, <- map_app, firstn_skipn. Qed.
Lemma hyperedges_run fuel : length verts < fuel -> 0 < length verts -> (forall v, In v verts -> length (incident v es) < fuel) ->
  exists s, getHyperedges g fuel = Some s /\ zh_vtx s = ainit (map zid verts) /\ zh_edg s = ainit (pre (length verts)) ++ anew (length (concat (epins_of es)) - length (pre (length verts))) /\
    forall i, i < length verts -> aget (zh_off s) i = Some (length (pre i)).
Proof.
  intros Hf Hp Hi. destruct (gtype_ok _ _ _ _ _ HR _ _ _ (nth_eff _ _ _ _ Ht)) as (ed & E & HE & _). unfold getHyperedges, numHyperedges. rewrite E. cbn [obind]. rewrite (all_verts_ok _ _ _ _ _ HR) by auto. cbn [obind].
  rewrite (rp_nlv _ _ _ _ _ HR), (er_npins _ _ _ _ _ _ HE). rewrite aset_some by (rewrite anew_length; auto). cbn [obind]. set (n := length verts) in *. set (np := length (concat (epins_of es))).
  destruct (foldM_count _ (getHyperedges1 g fuel) S n (fun k s => zh_vtx s = ainit (map zid (firstn k verts)) ++ anew (n - k) /\ zh_edg s = ainit (pre k) ++ anew (np - length (pre k)) /\ zh_idx s = length (pre k) /\ length (zh_off s) = n /\ forall i, i <= k -> i < n -> aget (zh_off s) i = Some (length (pre i))) (mkZH (anew n) (upd (anew n) 0 (Some 0)) (anew np) 0)) as (s & Es & A & B & C & D & F).
  { cbn. rewrite !Nat.sub_0_r. split; auto. split; auto. split; auto. split; [rewrite upd_length; apply anew_length|]. intros i Li Ln. replace i with 0 by lia. rewrite aget_upd_eq by (rewrite anew_length; auto). reflexivity. }
  { intros k s Lk (A & B & C & D & F). unfold getHyperedges1. cbn [vlid obind]. destruct (nth_error verts k) as [v|] eqn:Ev; [|apply nth_error_None in Ev; fold n in Ev; lia].
    assert (VG : vgid g (S k) = Some v) by (rewrite <- Nat.add_1_r; apply (c_vgid _ _ _ _ _ _ HC); rewrite nth_error_app1; auto). rewrite VG. cbn [obind].
    rewrite A. assert (LF : length (map zid (firstn k verts)) = k) by (rewrite map_length, firstn_length; fold n; lia). rewrite fill_at by lia. cbn [obind].
    destruct (c_incident _ _ _ _ _ _ HC 0 es ws k v fuel eq_refl Ht Ev) as (VE & VD); [apply Hi; eapply nth_error_In; eauto|]. unfold getVertex in VE, VD. rewrite Nat.add_1_r in VE, VD.
    rewrite (rp_nlv _ _ _ _ _ HR). fold n. pose proof (pre_next k v Ev) as PN. assert (LR : length (pre (k + 1)) = length (pre k) + length (incident v es)) by (rewrite PN, app_length; unfold gids_at; now rewrite !map_length).
    assert (OFF : exists o', (if k <? n - 1 then o <- aget (zh_off s) k ;; d <- vdegree g (S k) 0 ;; aset (zh_off s) (k + 1) (o + d) else Some (zh_off s)) = Some o' /\ length o' = n /\ forall i, i <= k + 1 -> i < n -> aget o' i = Some (length (pre i))).
    { destruct (Nat.ltb_spec k (n - 1)) as [L1|L1].
      - rewrite (F k (le_n _) Lk). cbn [obind]. rewrite VD. cbn [obind]. rewrite aset_some by lia. eexists. split; [reflexivity|]. split; [now rewrite upd_length|]. intros i L2 L3. destruct (Nat.eq_dec (k + 1) i) as [<-|N]; [rewrite aget_upd_eq by lia; now rewrite LR|rewrite aget_upd_neq by auto; apply F; lia].
      - exists (zh_off s). split; auto. split; auto. intros i L2 L3. apply F; lia. }
    destruct OFF as (o' & EO & LO & HO). rewrite EO. cbn [obind]. rewrite VE. cbn [obind]. rewrite B, C.
    rewrite (put_edges g (fun h => match edec (ntypes g) h with Some (_, i) => match nth_error es i with Some e => fst e | None => 0%Z end | None => 0%Z end)).
    - cbn [obind fst snd]. eexists. split; [reflexivity|]. cbn [zh_vtx zh_off zh_edg zh_idx].
      assert (RW : map (fun h => zid (match edec (ntypes g) h with Some (_, i) => match nth_error es i with Some e => fst e | None => 0%Z end | None => 0%Z end)) (map (fun i => getEdge (ntypes g) i 0) (incident v es)) = row v).
      { unfold gids_at. rewrite !map_map. apply map_ext. intros i. rewrite edec_getEdge; [reflexivity|]. rewrite (c_ntypes _ _ _ _ _ _ HC). apply nth_error_Some. congruence. }
      rewrite RW, <- PN, map_length. replace (n - (k + 1)) with (n - k - 1) by lia. rewrite (Nat.add_1_r k) at 1. rewrite (firstn_next _ _ _ _ Ev), map_app. split; auto. split; [f_equal; f_equal; lia|]. auto.
    - intros h Hh. apply in_map_iff in Hh as (i & <- & Hh). rewrite edec_getEdge by (rewrite (c_ntypes _ _ _ _ _ _ HC); apply nth_error_Some; congruence).
      apply SecondAdjProps.incident_in in Hh. destruct Hh as ((gid, ps) & Ee & _). rewrite Ee. now apply (C07_edge_weights_hypergraph _ _ _ _ _ 0 es ws i gid ps HC Ht).
    - rewrite map_length. pose proof (pre_mono (k + 1)). pose proof inc_le. fold np in H0. lia. }
  exists s. split; auto. rewrite Nat.sub_diag in A. unfold anew in A at 1. cbn [repeat] in A. rewrite app_nil_r in A. split; [rewrite A; unfold n; now rewrite firstn_all|]. split; auto. intros i Li. apply F; lia.
Qed.
End HG.

(** in a part without ghost pins Zoltan sees, for every vertex, exactly its edges (each as often as the vertex is a pin of it) *)
Theorem C60_hyperedges_partial : forall me verts vws tys g es ws fuel,
  constructed me true verts vws tys g -> nth_error tys 0 = Some (es, ws) -> 0 < length verts -> length verts < fuel -> (forall v, In v verts -> length (incident v es) < fuel) ->
  exists s np, getHyperedges g fuel = Some s /\ numHyperedges g = Some (length verts, np) /\ zh_vtx s = ainit (map zid verts) /\
    (forall i v, nth_error verts i = Some v -> i + 1 < length verts \/ (forall e w, In e es -> In w (snd e) -> In w verts) ->
       zoltan_row (length verts) np s i = Some (map zid (gids_at es (incident v es)))).
Proof.
  intros me verts vws tys g es ws fuel HC Ht Hp Hf Hi. pose proof (proj1 (constructed_rep _ _ _ _ _ _ HC)) as HR.
  destruct (gtype_ok _ _ _ _ _ HR _ _ _ (nth_eff _ _ _ _ Ht)) as (ed & E & HE & _).
  destruct (hyperedges_run me verts vws tys g HC es ws Ht fuel Hf Hp Hi) as (s & Es & A & B & C). exists s, (length (concat (epins_of es))). split; auto.
  split; [unfold numHyperedges; rewrite E; cbn [obind]; now rewrite (rp_nlv _ _ _ _ _ HR), (er_npins _ _ _ _ _ _ HE)|]. split; auto.
  intros i v Hv Hc. assert (Li : i < length verts) by (apply nth_error_Some; congruence). unfold zoltan_row. rewrite (C i Li). cbn [obind]. pose proof (pre_next verts es i v Hv) as PN.
  assert (HI : (if i + 1 =? length verts then Some (length (concat (epins_of es))) else aget (zh_off s) (i + 1)) = Some (length (concat (map (fun v => map zid (gids_at es (incident v es))) (firstn (i + 1) verts))))).
  { destruct (Nat.eqb_spec (i + 1) (length verts)) as [EQ|NE]; [|apply C; lia]. destruct Hc as [|LOC]; [lia|]. f_equal. rewrite EQ, pre_all. rewrite (inc_total me verts vws tys g HC es ws Ht).
    assert (G : forall l, (forall v, In v l -> In v verts) -> filter (fun v => idx (verts ++ ghosts_of verts tys) v <? length verts) l = l).
    { induction l as [|x l IH]; intros H; [reflexivity|]. cbn [filter]. assert (In x verts) by (apply H; cbn; auto). rewrite (proj2 (local_idx verts tys x (in_or_app _ _ _ (or_introl H0)))) by auto. f_equal. apply IH. intros; apply H; cbn; auto. }
    rewrite G; auto. intros w Hw. apply in_concat in Hw as (ps & Hps & Hw). apply in_map_iff in Hps as (e & <- & He). eauto. }
  rewrite HI, PN, app_length. cbn [obind]. rewrite (proj2 (Nat.leb_le _ _)) by lia. rewrite Nat.add_comm, Nat.add_sub.
  assert (RD : forall m x, nth_error (map zid (gids_at es (incident v es))) m = Some x -> aget (zh_edg s) (length (concat (map (fun v => map zid (gids_at es (incident v es))) (firstn i verts))) + m) = Some x).
  { intros m x Hm. rewrite B. rewrite aget_app_l.
    - rewrite aget_ainit. destruct (pre_prefix verts es (i + 1)) as (r & ->). rewrite nth_error_app1.
      + rewrite PN. rewrite nth_error_app2 by lia. now rewrite Nat.add_comm, Nat.add_sub.
      + rewrite PN, app_length. apply Nat.add_lt_mono_l. apply nth_error_Some. congruence.
    - rewrite ainit_length. assert (Lm : m < length (map zid (gids_at es (incident v es)))) by (apply nth_error_Some; congruence). pose proof (pre_mono verts es (i + 1)) as PM. rewrite <- pre_all in PM. rewrite PN, app_length in PM. lia. }
  revert RD. generalize (length (concat (map (fun v => map zid (gids_at es (incident v es))) (firstn i verts)))). generalize (map zid (gids_at es (incident v es))). clear. intros l. induction l as [|y l IH]; intros a H; [reflexivity|].
  cbn [length seq mapM]. rewrite <- (Nat.add_0_r a) at 1. rewrite (H 0 y eq_refl). cbn [obind]. rewrite IH; [reflexivity|]. intros m x Hm. replace (S a + m) with (a + S m) by lia. now apply H.
Qed.
Print Assumptions C60_hyperedges_partial.

(** with a ghost pin the list is shorter than announced: reading the edges of the last vertex reads entries that were never written *)
Theorem C60_ghosts_refuted : forall me verts vws tys g es ws fuel,
  constructed me true verts vws tys g -> nth_error tys 0 = Some (es, ws) -> 0 < length verts -> length verts < fuel -> (forall v, In v verts -> length (incident v es) < fuel) ->
  (exists e w, In e es /\ In w (snd e) /\ ~ In w verts) ->
  exists s np, getHyperedges g fuel = Some s /\ numHyperedges g = Some (length verts, np) /\ zoltan_row (length verts) np s (length verts - 1) = None.
Proof.
  intros me verts vws tys g es ws fuel HC Ht Hp Hf Hi (e & w & He & Hw & NW). pose proof (proj1 (constructed_rep _ _ _ _ _ _ HC)) as HR.
  destruct (gtype_ok _ _ _ _ _ HR _ _ _ (nth_eff _ _ _ _ Ht)) as (ed & E & HE & _).
  destruct (hyperedges_run me verts vws tys g HC es ws Ht fuel Hf Hp Hi) as (s & Es & A & B & C). exists s, (length (concat (epins_of es))). split; auto.
  split; [unfold numHyperedges; rewrite E; cbn [obind]; now rewrite (rp_nlv _ _ _ _ _ HR), (er_npins _ _ _ _ _ _ HE)|].
  assert (IC : In w (concat (epins_of es))) by (apply in_concat; exists (snd e); split; auto; apply in_map_iff; eauto).
  assert (LT : length (concat (map (fun v => map zid (gids_at es (incident v es))) (firstn (length verts) verts))) < length (concat (epins_of es))).
  { rewrite pre_all, (inc_total me verts vws tys g HC es ws Ht). eapply filter_len_lt; eauto. apply Bool.not_true_is_false. rewrite local_idx by (eapply (pins_in me verts vws tys g HC 0 es ws Ht); eauto). exact NW. }
  unfold zoltan_row. rewrite (C (length verts - 1)) by lia. cbn [obind]. replace (length verts - 1 + 1) with (length verts) by lia. rewrite Nat.eqb_refl. cbn [obind].
  destruct (_ <=? _) eqn:EL; auto. apply Nat.leb_le in EL.
  apply (mapM_none _ _ _ _ (length (concat (map (fun v => map zid (gids_at es (incident v es))) (firstn (length verts) verts))))).
  - apply in_seq. pose proof (pre_mono verts es (length verts - 1)) as PM. rewrite <- pre_all in PM. lia.
  - rewrite B. set (p := concat (map _ _)). replace (length p) with (length (ainit p) + 0) at 2 by (rewrite ainit_length; lia). rewrite aget_app_r. apply aget_anew.
Qed.
Print Assumptions C60_ghosts_refuted.

(** ids that differ by 2^32 become one *)
Theorem C60_ids_refuted : exists verts tys g s, constructed 0 true verts [] tys g /\ NoDup (map fst (fst (nth 0 tys ([], [])))) /\ getHyperedges g 10 = Some s /\
  zoltan_row 2 2 s 0 = Some [1]%Z /\ zoltan_row 2 2 s 1 = Some [1]%Z /\ gids_at (fst (nth 0 tys ([], []))) (incident 5 (fst (nth 0 tys ([], [])))) = [1]%Z /\ gids_at (fst (nth 0 tys ([], []))) (incident 6 (fst (nth 0 tys ([], [])))) = [4294967297]%Z.
Proof.
  exists [5; 6]%Z, [([(1, [5]); (4294967297, [6])], [])]%Z.
  destruct (build_graph 0 true [5; 6]%Z [] [([(1, [5]); (4294967297, [6])], [])]%Z) as [g|] eqn:E; [|vm_compute in E; discriminate]. pose proof E as E0. vm_compute in E. inversion E; subst g. clear E.
  eexists. eexists. split; [split; [|left; exact E0]|]. { split; [repeat constructor; cbn; intuition discriminate|]. split; [cbn; lia|]. split; [cbn; lia|]. intros es ws [I|[]]; inversion I; subst; split; auto; discriminate. }
  split; [repeat constructor; cbn; intuition discriminate|]. split; [vm_compute; reflexivity|]. repeat split; vm_compute; reflexivity.
Qed.
Print Assumptions C60_ids_refuted.
(** ids below 2^32 are kept *)
Lemma zid_small x : (0 <= x < 4294967296)%Z -> zid x = x.
Proof. apply Z.mod_small. Qed.
Theorem C60_ids : forall l, (forall x, In x l -> (0 <= x < 4294967296)%Z) -> map zid l = l.
Proof. intros l H. rewrite <- (map_id l) at 2. apply map_ext_in. intros x Hx. apply zid_small. auto. Qed.
Print Assumptions C60_ids.

(** the edges and their weights *)
Theorem C60_edge_weights : forall me verts vws tys g es ws fuel, constructed me true verts vws tys g -> nth_error tys 0 = Some (es, ws) -> length es < fuel ->
  exists s, getHyperedgeWeights g fuel = Some s /\ zo_lids s = ainit (seq 0 (length es)) /\ zo_gids s = ainit (map (fun e => zid (fst e)) es) /\
    length (zo_wgts s) = length es /\ forall i, i < length es -> aget (zo_wgts s) i = match ws with [] => Some 1%Z | _ => nth_error ws i end.
Proof.
  intros me verts vws tys g es ws fuel HC Ht Hf. pose proof (proj1 (constructed_rep _ _ _ _ _ _ HC)) as HR. destruct (gtype_ok _ _ _ _ _ HR _ _ _ (nth_eff _ _ _ _ Ht)) as (ed & E & HE & T0).
  unfold getHyperedgeWeights, num_edges. rewrite E. cbn [obind]. rewrite (all_edges_ok _ _ _ _ _ HR 0 _ _ fuel (nth_eff _ _ _ _ Ht) Hf). cbn [obind]. rewrite (er_num _ _ _ _ _ _ HE). remember (length es) as n eqn:En.
  set (W := fun i => match ws with [] => 1%Z | _ => nth i ws 0%Z end).
  assert (HW : forall i, i < n -> match ws with [] => Some 1%Z | _ => nth_error ws i end = Some (W i)).
  { intros i Li. unfold W. destruct ws as [|w ws'] eqn:EW; auto. apply nth_error_nth'. destruct HC as ((_ & _ & _ & V) & _). destruct (V es ws) as ([X|X] & _); [subst; eapply nth_error_In; eauto|congruence|]. subst ws. rewrite X, <- En. exact Li. }
  destruct (foldM_count _ (getHyperedgeWeights1 g) (fun i => getEdge (ntypes g) i 0) n (fun k s => zo_lids s = ainit (seq 0 k) ++ anew (n - k) /\ zo_gids s = ainit (map (fun e => zid (fst e)) (firstn k es)) ++ anew (n - k) /\ zo_wgts s = ainit (map W (seq 0 k)) ++ anew (n - k)) (mkZO (anew n) (anew n) (anew n))) as (s & Es & A & B & C).
  { cbn. rewrite Nat.sub_0_r. auto. }
  { intros k s Lk (A & B & C). unfold getHyperedgeWeights1, elid. rewrite edec_getEdge by auto. cbn [obind]. destruct (nth_error es k) as [[gid ps]|] eqn:Ev; [|exfalso; apply nth_error_None in Ev; rewrite <- En in Ev; lia].
    rewrite A. rewrite fill_at by (rewrite ?seq_length; lia). cbn [obind]. destruct (C07_edge_weights_hypergraph _ _ _ _ _ 0 es ws k gid ps HC Ht Ev) as (EG & EW). rewrite EG. cbn [obind].
    rewrite B. assert (LF : length (map (fun e : Z * list Z => zid (fst e)) (firstn k es)) = k) by (rewrite map_length, firstn_length; rewrite <- En; lia). rewrite fill_at by lia. cbn [obind]. rewrite EW, (HW k Lk). cbn [obind].
    rewrite C. assert (LW : length (map W (seq 0 k)) = k) by (now rewrite map_length, seq_length). rewrite fill_at by lia. cbn [obind]. eexists. split; [reflexivity|]. cbn [zo_lids zo_gids zo_wgts].
    replace (n - (k + 1)) with (n - k - 1) by lia. rewrite Nat.add_1_r, seq_S, map_app. rewrite (firstn_next _ _ _ _ Ev), map_app. auto. }
  exists s. split; [subst n; exact Es|]. rewrite Nat.sub_diag in *. unfold anew in *. cbn [repeat] in *. rewrite app_nil_r in *. split; auto. split; [rewrite B, En; now rewrite firstn_all|]. split; [rewrite C, ainit_length, map_length; apply seq_length|].
  intros i Li. rewrite (HW i Li), C, aget_ainit, nth_error_map, (nth_error_nth' _ 0) by (now rewrite seq_length). rewrite seq_nth by auto. reflexivity.
Qed.
Print Assumptions C60_edge_weights.


Lemma occs_len_trad n all pss : forall i, length (occs false n all i pss) <= length pss.
Proof. induction pss as [|ps pss IH]; intros i; cbn [occs length]; [lia|]. rewrite app_length. specialize (IH (S i)). assert (X : length (locc false n all i ps) <= 1). { unfold locc. destruct ps as [|u [|v r]]; cbn [length]; try lia. destruct (idx all u <? n); cbn [length]; lia. } lia. Qed.
Lemma stored_handles me verts vws tys g es ws l v fuel hs : constructed me false verts vws tys g -> nth_error tys 0 = Some (es, ws) -> nth_error verts l = Some v -> length (out_dests v es) < fuel ->
  vertex_edges g (getVertex l) 0 fuel = Some hs -> forall h, In h hs -> exists i, h = getEdge (ntypes g) i 0 /\ exists e, nth_error es i = Some e.
Proof.
  intros HC Ht Hl Hf E h Hh. pose proof (proj1 (constructed_rep _ _ _ _ _ _ HC)) as HR. pose proof (vals_dests _ _ _ _ _ _ HC 0 es ws l v eq_refl Ht Hl) as EV. assert (L : l < length verts) by (apply nth_error_Some; congruence).
  assert (Hc : cnt_of l (occ_of g verts (ghosts_of verts tys) es) = length (out_dests v es)) by (unfold cnt_of; rewrite EV; apply map_length). unfold getVertex in E. rewrite Nat.add_1_r in E.
  rewrite (vertex_edges_trad _ _ _ _ _ HR 0 es (eff_wgts ws (length es)) l fuel) in E; [|rewrite (c_hyper _ _ _ _ _ _ HC); auto|apply nth_eff, Ht|auto|lia].
  inversion E; subst hs. apply in_map_iff in Hh as (i & <- & Hi). apply in_seq in Hi. exists i. split; auto. destruct (nth_error es i) as [e|] eqn:Ee; [eauto|]. exfalso. apply nth_error_None in Ee.
  assert (X : off (occ_of g verts (ghosts_of verts tys) es) (l + 1) <= length es).
  { unfold off. rewrite count_keys_gen. etransitivity; [apply filter_len|]. unfold occ_of. rewrite (c_hyper _ _ _ _ _ _ HC). etransitivity; [apply occs_len_trad|]. unfold epins_of. now rewrite map_length. }
  assert (Y : off (occ_of g verts (ghosts_of verts tys) es) (l + 1) = off (occ_of g verts (ghosts_of verts tys) es) l + cnt_of l (occ_of g verts (ghosts_of verts tys) es)).
  { unfold off. rewrite Nat.add_1_r, seq_S, map_app, nsum_app. cbn [map Nat.add]. unfold nsum at 2. cbn [fold_right]. lia. }
  rewrite Y in X. destruct Hi as (_ & Hi). exact (Nat.lt_irrefl _ (Nat.lt_le_trans _ _ _ (Nat.lt_le_trans _ _ _ Hi X) Ee)).
Qed.

(** the neighbours, owners and weights of a vertex of a traditional graph.  Missing: the weights are those of the stored edges, which are the given
    ones only when they are all equal (C07_traditional_refuted) *)
Theorem C60_graph_partial : forall me verts vws tys owns g es ws fuel l v,
  valid_input false verts vws tys -> build_part me false verts vws tys owns = Some g -> nth_error tys 0 = Some (es, ws) -> nth_error verts l = Some v -> length (out_dests v es) < fuel ->
  numEdges g l = Some (length (out_dests v es)) /\
  exists s, getEdges g l fuel = Some s /\ zg_nbr s = ainit (map zid (out_dests v es)) /\ zg_own s = ainit (map (part_of me verts owns) (out_dests v es)) /\
    length (zg_wgt s) = length (out_dests v es) /\ (forall c, (forall w, In w ws -> w = c) -> (ws = [] -> c = 1%Z) -> zg_wgt s = ainit (map (fun _ => c) (out_dests v es))).
Proof.
  intros me verts vws tys owns g es ws fuel l v VI HB Ht Hl Hf. assert (HC : constructed me false verts vws tys g) by (split; eauto).
  destruct (c_out _ _ _ _ _ _ HC 0 es ws l v fuel eq_refl Ht Hl Hf) as (hs & ds & A & B & C & _ & D). split; auto.
  unfold getEdges, numEdges. rewrite D. cbn [obind]. rewrite A. cbn [obind].
  pose proof (mapM_length _ _ _ _ _ B) as L1. pose proof (mapM_length _ _ _ _ _ C) as L2.
  assert (EW : forall h, In h hs -> exists w, eweight g h = Some w /\ forall c, (forall w, In w ws -> w = c) -> (ws = [] -> c = 1%Z) -> w = c).
  { intros h Hh. destruct (stored_handles me verts vws tys g es ws l v fuel hs HC Ht Hl Hf A h Hh) as (i & -> & e & Ee).
    pose proof (C07_edge_weights_traditional_partial _ _ _ _ _ 0 es ws i e HC Ht Ee) as X. destruct ws as [|w ws'] eqn:E; [exists 1%Z; split; auto; intros c _ Hc; symmetry; auto|]. destruct VI as (_ & _ & _ & V). destruct (V es ws) as ([Y|Y] & _); [subst; eapply nth_error_In; eauto|congruence|]. subst ws.
    destruct (nth_error (w :: ws') i) as [w0|] eqn:E; [exists w0; split; auto; intros c Hc _; apply Hc; eapply nth_error_In; eauto|]. apply nth_error_None in E. rewrite Y in E. apply nth_error_None in E. congruence. }
  assert (OW : forall d w, vgid g d = Some w -> owner g d = Some (part_of me verts owns w)).
  { intros d w Hd. apply (SecondAdjProofs.vgid_inv _ _ _ _ _ _ HC) in Hd as (k & -> & Hk). now apply (p_owner me false verts vws tys owns g VI HB). }
  assert (WS : exists W, mapM (eweight g) hs = Some W /\ forall c, (forall w, In w ws -> w = c) -> (ws = [] -> c = 1%Z) -> W = map (fun _ => c) hs).
  { clear - EW. induction hs as [|h hs IH]; [exists []; split; auto|]. destruct (EW h (or_introl eq_refl)) as (w & E & U). destruct IH as (W & EI & UI); [intros; apply EW; cbn; auto|]. exists (w :: W). cbn [mapM]. rewrite E. cbn [obind]. rewrite EI. cbn [obind]. split; auto.
    intros c H1 H2. cbn [map]. f_equal; auto. }
  destruct WS as (W & EWS & UW). pose proof (mapM_length _ _ _ _ _ EWS) as L3.
  assert (G : forall hs ds gs ws', mapM (v_of g) hs = Some ds -> mapM (vgid g) ds = Some gs -> mapM (eweight g) hs = Some ws' -> forall a b c k, length a = length b -> length a = length c -> length hs <= k ->
    foldM (getEdges1 g) hs (mkZG (ainit a ++ anew k) (ainit b ++ anew k) (ainit c ++ anew k) (length a)) =
    Some (mkZG (ainit (a ++ map zid gs) ++ anew (k - length hs)) (ainit (b ++ map (part_of me verts owns) gs) ++ anew (k - length hs)) (ainit (c ++ ws') ++ anew (k - length hs)) (length a + length hs))).
  { clear - OW. induction hs as [|h hs IH]; intros ds gs ws' E1 E2 E3 a b c k Lb Lc Lk; cbn [mapM] in *.
    - inversion E1; subst ds. cbn in E2. inversion E2; subst gs. inversion E3; subst. cbn. now rewrite !app_nil_r, Nat.sub_0_r, Nat.add_0_r.
    - destruct (v_of g h) as [d|] eqn:Ed; [|discriminate]. cbn [obind] in E1. destruct (mapM (v_of g) hs) as [ds'|]; [|discriminate]. cbn [obind] in E1. inversion E1; subst ds. cbn [mapM] in E2.
      destruct (vgid g d) as [x|] eqn:Ex; [|discriminate]. cbn [obind] in E2. destruct (mapM (vgid g) ds') as [gs'|] eqn:Eg; [|discriminate]. cbn [obind] in E2. inversion E2; subst gs.
      destruct (eweight g h) as [w|] eqn:Ew; [|discriminate]. cbn [obind] in E3. destruct (mapM (eweight g) hs) as [w'|]; [|discriminate]. cbn [obind] in E3. inversion E3; subst ws'.
      cbn [foldM length] in *. unfold getEdges1 at 1. cbn [zg_nbr zg_own zg_wgt zg_idx]. rewrite Ed. cbn [obind]. rewrite Ex. cbn [obind]. rewrite fill_next by lia. cbn [obind]. rewrite (OW d x Ex). cbn [obind]. rewrite fill_at by lia. cbn [obind]. rewrite Ew. cbn [obind]. rewrite fill_at by lia. cbn [obind].
      replace (length a + 1) with (length (a ++ [zid x])) by (rewrite app_length; reflexivity). rewrite (IH ds' gs' w' eq_refl Eg eq_refl) by (rewrite ?app_length; cbn; lia). rewrite !app_length. cbn [length map]. rewrite <- !app_assoc. cbn [app].
      replace (k - 1 - length hs) with (k - S (length hs)) by lia. do 2 f_equal. lia. }
  specialize (G hs ds _ W B C EWS [] [] [] (length (out_dests v es)) eq_refl eq_refl). cbn [app ainit map length] in G. rewrite G by lia. eexists. split; [reflexivity|]. cbn [zg_nbr zg_own zg_wgt].
  rewrite <- L1, <- L2. rewrite Nat.sub_diag. unfold anew. cbn [repeat]. rewrite !app_nil_r. split; auto. split; auto. split; [rewrite map_length; lia|]. intros c H1 H2. rewrite (UW c H1 H2). f_equal. clear - L1 L2. assert (L : length hs = length (out_dests v es)) by lia. revert L. generalize (out_dests v es). clear. induction hs as [|h hs IH]; intros [|y ys] L; try discriminate; cbn in *; auto. f_equal. apply IH. lia.
Qed.
Print Assumptions C60_graph_partial.

(** the plan is the export list *)
Theorem C60_plan : forall me hg verts vws tys g fuel exports, constructed me hg verts vws tys g -> length verts < fuel ->
  NoDup (map fst exports) -> (forall x, In x exports -> fst x < length verts /\ (0 <= snd x)%Z) ->
  exists p, zoltan_plan g fuel exports = Some p /\ pl_sending p = map (fun x => getVertex (fst x)) exports /\
    (forall x, In x exports -> plan_get g p (getVertex (fst x)) = Some (snd x)) /\
    (forall l, l < length verts -> ~ In l (map fst exports) -> plan_has g p (getVertex l) = Some false).
Proof.
  intros me hg verts vws tys g fuel exports HC Hf ND OK. pose proof (proj1 (constructed_rep _ _ _ _ _ _ HC)) as HR.
  destruct (C15_plan me hg verts vws tys g (map (fun x => Ins (fst x) (snd x)) exports) fuel HC Hf) as (p0 & p & E0 & E & _ & A & B & C & _).
  { intros o Ho. apply in_map_iff in Ho as (x & <- & Hx). destruct (OK x Hx). cbn. rewrite (rp_nlv _ _ _ _ _ HR). lia. }
  assert (RUN : fm_run (map (fun x => Ins (fst x) (snd x)) exports) = exports).
  { unfold fm_run. assert (G : forall xs m, NoDup (map fst (m ++ xs)) -> fold_left fm_op (map (fun x => Ins (fst x) (snd x)) xs) m = m ++ xs).
    { induction xs as [|[k d] xs IH]; intros m N; cbn [map fold_left]; [now rewrite app_nil_r|]. cbn [fm_op fst snd]. assert (F : fm_put m k d = m ++ [(k, d)]).
      { assert (NI : ~ In k (map fst m)). { rewrite map_app in N. cbn in N. apply NoDup_remove_2 in N. intros I. apply N, in_or_app. auto. } clear - NI. induction m as [|[a b] m IH]; cbn in *; auto. destruct (Nat.eqb_spec a k); [tauto|]. f_equal. apply IH. tauto. }
      rewrite F, IH; [now rewrite <- app_assoc|]. now rewrite <- app_assoc. }
    apply (G exports []). exact ND. }
  rewrite RUN in *. exists p. split; [|split; auto; split].
  - unfold zoltan_plan. rewrite E0. cbn [obind]. rewrite <- E. clear. revert p0. induction exports as [|x xs IH]; intros p0; cbn [foldM map]; auto. unfold do_op at 1. destruct (plan_insert g p0 (getVertex (fst x)) (snd x)) as [[p' b]|]; cbn [obind]; auto.
  - intros [k d] Hx. apply C. cbn. clear - ND Hx. induction exports as [|[a b] xs IH]; [destruct Hx|]. cbn in *. inversion ND; subst. destruct Hx as [X|X]; [inversion X; now rewrite Nat.eqb_refl|]. destruct (Nat.eqb_spec a k) as [->|]; [|auto]. exfalso. apply H1. apply in_map_iff. exists (k, d). auto.
  - intros l Ll NI. rewrite B by (rewrite (rp_nlv _ _ _ _ _ HR); auto). apply fm_get_in in NI. now rewrite NI.
Qed.
Print Assumptions C60_plan.

(** three vertices, edges 10 = {1,2}, 11 = {2,3}; and a part where vertex 3 is a ghost *)
Definition zex : list type_input := [([(10, [1; 2]); (11, [2; 3])], [5; 6])]%Z.
Lemma zex_valid v : NoDup v -> valid_input true v [] zex.
Proof. intros N. split; auto. split; [cbn; lia|]. split; [cbn; lia|]. intros es ws [I|[]]; inversion I; subst; split; auto; discriminate. Qed.
Example C60_example : (exists g, constructed 0 true [1; 2; 3]%Z [] zex g) /\
  (g <- build_graph 0 true [1; 2; 3]%Z [] zex ;; s <- getHyperedges g 10 ;; mapM (zoltan_row 3 4 s) [0; 1; 2]) = Some [[10]; [10; 11]; [11]]%Z /\
  (g <- build_graph 0 true [1; 2; 3]%Z [] zex ;; s <- getHyperedgeWeights g 10 ;; Some (zo_gids s, zo_wgts s)) = Some (ainit [10; 11], ainit [5; 6])%Z /\
  (g <- build_graph 0 true [1; 2; 3]%Z [] zex ;; p <- zoltan_plan g 10 [(2, 1%Z); (0, 3%Z)] ;; Some (pl_sending p, pl_dest p)) = Some ([3; 1], ainit [3; -1; 1]%Z) /\
  (g <- build_graph 0 true [1; 2]%Z [] zex ;; s <- getHyperedges g 10 ;; Some (zh_off s, zh_edg s, zoltan_row 2 4 s 0, zoltan_row 2 4 s 1)) = Some (ainit [0; 1], ainit [10; 10; 11]%Z ++ anew 1, Some [10]%Z, None) /\
  (g <- build_part 0 false [1; 2]%Z [] [([(0, [1; 2]); (1, [1; 9]); (2, [2; 1])], [])]%Z [(9, 4)]%Z ;; s <- getEdges g 0 10 ;; Some (zg_nbr s, zg_own s, zg_wgt s)) = Some (ainit [2; 9], ainit [0; 4], ainit [1; 1])%Z.
Proof.
  split. { destruct (build_graph 0 true [1; 2; 3]%Z [] zex) as [g|] eqn:E; [|vm_compute in E; discriminate]. exists g. split; auto. apply zex_valid. repeat constructor; cbn; intuition discriminate. }
  repeat split; vm_compute; reflexivity.
Qed.
