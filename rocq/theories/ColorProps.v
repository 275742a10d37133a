(** Colouring (C59). *)
From Verif Require Import Base GraphModel GraphSpec CsrProofs ConstructProofs AccessProofs GraphTop GraphTop2 SecondAdjModel SecondAdjProofs SecondAdjProps ColorModel ColorProofs ColorProofs2.

(** two different edges with a common vertex of the part *)
Definition touching (verts : list Z) (es : list edge_input) (i j : nat) : Prop :=
  i <> j /\ exists v e e', In v verts /\ nth_error es i = Some e /\ nth_error es j = Some e' /\ In v (snd e) /\ In v (snd e').

Lemma pairs_in verts es i j : In (i, j) (concat (map (fun w => flat_map (fun a => map (fun b => (a, b)) (filter (fun b => negb (a =? b)) (incident w es))) (incident w es)) verts)) <-> touching verts es i j.
Proof.
  rewrite in_concat. split.
  - intros (l & Hl & I). apply in_map_iff in Hl as (w & <- & Hw). apply in_flat_map in I as (a & Ha & I). apply in_map_iff in I as (b & E & I). inversion E; subst a b.
    apply filter_In in I as (Hb & N). apply incident_in in Ha as (e & E1 & V1). apply incident_in in Hb as (e' & E2 & V2). split; [|eauto 10]. destruct (Nat.eqb_spec i j); auto; discriminate.
  - intros (N & v & e & e' & Hv & E1 & E2 & V1 & V2). eexists. split; [apply in_map_iff; exists v; split; [reflexivity|auto]|]. apply in_flat_map. exists i. split; [apply incident_in; eauto|].
    apply in_map_iff. exists j. split; auto. apply filter_In. split; [apply incident_in; eauto|]. destruct (Nat.eqb_spec i j); auto.
Qed.
Lemma touching_lt verts es i j : touching verts es i j -> i < length es /\ j < length es.
Proof. intros (_ & v & e & e' & _ & A & B & _). split; apply nth_error_Some; congruence. Qed.

(** when every pin is a vertex of the part, the adjacency holds, for every edge, the edges that share a vertex with it, each once, whatever the
    order of the insertions, of the slots of the table, of the atomic additions, and whatever the schedule of the filling threads *)
Theorem C59_adjacency : forall me verts vws tys g t es ws,
  constructed me true verts vws tys g -> nth_error tys t = Some (es, ws) -> (forall e v, In e es -> In v (snd e) -> In v verts) ->
  parallel_create_eve g t (fun s => forall i, i < length es ->
    exists row, csr_row s i = Some row /\ NoDup row /\ forall j, In j row <-> touching verts es i j).
Proof.
  intros me verts vws tys g t es ws HC Ht LOC. pose proof (proj1 (constructed_rep _ _ _ _ _ _ HC)) as HR.
  destruct (gtype_ok _ _ _ _ _ HR _ _ _ (nth_eff _ _ _ _ Ht)) as (ed & E & HE & _). split; [apply (c_hyper _ _ _ _ _ _ HC)|].
  exists ed, (map (off (occ_of g verts (ghosts_of verts tys) es)) (seq 0 (length verts + 1))), (concat (map (fun u => vals_of u (occ_of g verts (ghosts_of verts tys) es)) (seq 0 (length verts)))), (map (fun w => flat_map (fun a => map (fun b => (a, b)) (filter (fun b => negb (a =? b)) (incident w es))) (incident w es)) verts).
  split; auto. split; [eapply load_deg; eauto|]. split; [eapply load_list; eauto|]. split; [rewrite (rp_nlv _ _ _ _ _ HR); eapply load_pairs; eauto|].
  intros ops slots order P1 P2 P3. rewrite (er_num _ _ _ _ _ _ HE). destruct (inserted_ok ops) as (ND0 & IN0 & _).
  assert (ND : NoDup slots) by (eapply Permutation_NoDup; [apply Permutation_sym, P2|auto]).
  assert (INS : forall i j, In (i, j) slots <-> touching verts es i j).
  { intros i j. rewrite <- pairs_in. split; intros I.
    - apply (Permutation_in _ P1), IN0, (Permutation_in _ P2), I.
    - apply (Permutation_in _ (Permutation_sym P2)), IN0, (Permutation_in _ (Permutation_sym P1)), I. }
  assert (RG : forall k, In k slots -> fst k < length es) by (intros [i j] I; apply INS, touching_lt in I; cbn; tauto).
  destruct (count_done (length es) order) with (d := repeat 0 (length es + 1)) (f := fun _ : nat => 0) as (cnt & Ec & Lc & Z0 & Hc).
  { intros k Hk. apply RG, (Permutation_in _ P3), Hk. }
  { apply repeat_length. }
  { intros a La. rewrite (nth_error_nth' _ 0) by (rewrite repeat_length; lia). now rewrite nth_repeat. }
  { destruct (length es + 1) eqn:X; [lia|reflexivity]. }
  destruct (scan_ok cnt (length es) (fun a => cnt_of a slots) Lc Z0) as (Ls & Hs).
  { intros a La. rewrite (Hc a La). f_equal. cbn. now apply cnt_perm. }
  exists cnt, (nsum (map (fun a => cnt_of a slots) (seq 0 (length es)))). split; auto. split; [apply Hs; lia|]. intros sch.
  destruct (fill_all slots (length es) (scan cnt) _ RG Hs eq_refl sch) as (s & ix & Es & FI). exists s. split; auto. intros FF i Hi.
  destruct (fill_result slots (length es) _ ND eq_refl s ix FI FF i Hi) as (row & Er & Nr & Ir).
  exists row. split; [|split; auto; intros j; rewrite Ir; apply INS]. unfold csr_row. cbn [sa_off sa_list]. rewrite !aget_ainit, !Hs by lia. cbn [obind].
  replace (nsum (map (fun a => cnt_of a slots) (seq 0 (i + 1)))) with (nsum (map (fun a => cnt_of a slots) (seq 0 i)) + cnt_of i slots).
  - rewrite (proj2 (Nat.leb_le _ _)) by lia. rewrite Nat.add_comm, Nat.add_sub. exact Er.
  - rewrite Nat.add_1_r, seq_S, map_app, nsum_app. cbn [map Nat.add]. unfold nsum at 3. cbn [fold_right]. lia.
Qed.
Print Assumptions C59_adjacency.

(** the table has room: its requested capacity, the number of pairs met, bounds the number of distinct keys inserted *)
Theorem C59_capacity : forall deg el n pss ops, mapM (row_pairs deg el) (seq 0 n) = Some pss -> Permutation ops (concat pss) ->
  NoDup (inserted ops) /\ (forall k, In k (inserted ops) <-> In k (concat pss)) /\ length (inserted ops) <= length (concat pss).
Proof.
  intros deg el n pss ops _ P. destruct (inserted_ok ops) as (A & B & C). split; auto. split; [|now rewrite <- (Permutation_length P)].
  intros k. rewrite B. split; apply Permutation_in; auto. now apply Permutation_sym.
Qed.
Print Assumptions C59_capacity.

(** every schedule that lets each thread act twice finishes the loop *)
Theorem C59_finishes : forall off slots n tot sch s, foldM (fill_step off slots) sch (fill_init n tot (length slots)) = Some s ->
  (forall i, i < length slots -> 2 <= count_occ Nat.eq_dec sch i) -> Forall (eq Finished) (f_pc s).
Proof. intros off slots n tot sch s E H. now apply (fill_ends slots n off tot sch s). Qed.
Print Assumptions C59_finishes.

(** with one pin that is not a vertex of the part, the edge list is read past its end: the number of pins counts the ghosts, the list does not *)
Theorem C59_ghosts_refuted : forall me verts vws tys g t es ws,
  constructed me true verts vws tys g -> nth_error tys t = Some (es, ws) -> (exists e v, In e es /\ In v (snd e) /\ ~ In v verts) ->
  forall Q, ~ parallel_create_eve g t Q.
Proof.
  intros me verts vws tys g t es ws HC Ht GH Q (_ & ed & deg & el & pss & E & _ & EL & _). pose proof (proj1 (constructed_rep _ _ _ _ _ _ HC)) as HR.
  destruct (gtype_ok _ _ _ _ _ HR _ _ _ (nth_eff _ _ _ _ Ht)) as (ed' & E' & HE & _). assert (ed' = ed) by congruence. subst ed'.
  pose proof (load_list_ghost _ _ _ _ _ HC t es ws Ht ed HE GH) as X. congruence.
Qed.
Print Assumptions C59_ghosts_refuted.

(** edge colouring of a part without ghosts: edges that share a vertex get different colours *)
Theorem C59_edge_coloring : forall me verts vws tys g t es ws,
  constructed me true verts vws tys g -> nth_error tys t = Some (es, ws) -> (forall e v, In e es -> In v (snd e) -> In v verts) ->
  color_edges g t (fun c => length c = length es /\ forall i j, touching verts es i j -> nth_error c i <> nth_error c j).
Proof.
  intros me verts vws tys g t es ws HC Ht LOC. pose proof (proj1 (constructed_rep _ _ _ _ _ _ HC)) as HR.
  destruct (gtype_ok _ _ _ _ _ HR _ _ _ (nth_eff _ _ _ _ Ht)) as (ed & E & HE & _). exists ed. split; auto.
  destruct (C59_adjacency me verts vws tys g t es ws HC Ht LOC) as (H0 & ed' & deg & el & pss & E' & A & B & C & D). split; auto. exists ed', deg, el, pss. repeat (split; [assumption|]).
  intros ops slots order P1 P2 P3. destruct (D ops slots order P1 P2 P3) as (cnt & tot & X & Y & D'). exists cnt, tot. split; auto. split; auto. intros sch. destruct (D' sch) as (s & Es & Hs). exists s. split; auto.
  intros FF c (Lc & PC). rewrite (er_num _ _ _ _ _ _ HE) in Lc, PC. specialize (Hs FF). split; auto. intros i j T. destruct (touching_lt _ _ _ _ T) as (Li & Lj). destruct (Hs i Li) as (ri & Ei & _ & Ri).
  apply (PC) with (r := ri); auto; [|apply T|now apply Ri]. intros i' j' r Li' Lj' Er I. destruct (Hs i' Li') as (r' & Er' & _ & R'). assert (r' = r) by congruence. subst r'. apply R' in I.
  destruct (Hs j' Lj') as (rj & Ej & _ & Rj). exists rj. split; auto. apply Rj. destruct I as (N & v & e & e' & V & E1 & E2 & V1 & V2). split; [auto|]. exists v, e', e. auto 10.
Qed.
Print Assumptions C59_edge_coloring.

(** the rows of the vertex adjacency, whatever the requested type *)
Lemma vev_rows me hg verts vws tys g tb ord t fuel : constructed me hg verts vws tys g -> t < length tb -> ord_ok ord -> length verts < fuel ->
  (forall l, l < length verts -> exists hs, adjacent g (getVertex l) 0 fuel = Some hs) ->
  exists tb' s, create_vev g tb ord t true fuel = Some tb' /\ sa_get tb' t = Some s /\ forall l hs, l < length verts -> adjacent g (getVertex l) 0 fuel = Some hs ->
    exists out, csr_row s l = Some (map pred out) /\ Permutation out (uniq_adj (getVertex l) hs) /\ forall x, In x out -> x <> 0.
Proof.
  intros HC Htb HO Hf HA. pose proof (proj1 (constructed_rep _ _ _ _ _ _ HC)) as HR.
  set (R := fun h => match adjacent g h 0 fuel with Some l => l | None => [] end).
  assert (HRow : forall h, In h (map S (seq 0 (length verts))) -> vev_row g fuel h = Some (R h)).
  { intros h Hh. apply in_map_iff in Hh as (l & <- & Hl). apply in_seq in Hl. destruct (HA l) as (hs & E); [lia|]. unfold vev_row, R. unfold getVertex in E. rewrite Nat.add_1_r in E. now rewrite E. }
  assert (HNZ : forall h x, In x (R h) -> x <> 0).
  { intros h x Hx. unfold R in Hx. destruct (adjacent g h 0 fuel) as [l|] eqn:E; [|destruct Hx]. unfold adjacent in E. destruct (adj_begin g h 0) as [it|]; [|discriminate].
    cbn [obind] in E. apply drain_nz in E as (E & _). auto. }
  assert (LH : length (map S (seq 0 (length verts))) = nlv g) by (rewrite map_length, seq_length; symmetry; apply (rp_nlv _ _ _ _ _ HR)).
  destruct (sa_make_ok (nlv g) (vev_row g fuel) vlid ord true (map S (seq 0 (length verts))) R pred) as (s & Es & Hoff & Hlist); auto.
  { intros h x _ Hx. apply HNZ in Hx. destruct x; [congruence|reflexivity]. }
  exists (upd tb t (Some s)), s. split.
  { unfold create_vev. rewrite (all_verts_ok _ _ _ _ _ HR) by auto. cbn [obind]. rewrite Es. cbn [obind]. destruct (Nat.ltb_spec t (length tb)); [reflexivity|lia]. }
  split; [now apply sa_get_upd|]. intros l hs Hl Eh. assert (Hnth : nth_error (map S (seq 0 (length verts))) l = Some (S l)) by (rewrite nth_error_map, nth_error_seq by auto; reflexivity).
  assert (ER : R (S l) = hs) by (unfold R; unfold getVertex in Eh; rewrite Nat.add_1_r in Eh; now rewrite Eh).
  exists (ord (S l) (uniq_adj (S l) hs)). unfold getVertex. rewrite Nat.add_1_r. split; [|split; [apply HO|]].
  - unfold csr_row. rewrite !Hoff by (rewrite (rp_nlv _ _ _ _ _ HR); lia). cbn [obind]. rewrite (Nat.add_1_r l), (pos_S ord true (map S (seq 0 (length verts))) R pred l (S l) Hnth).
    rewrite (proj2 (Nat.leb_le _ _)) by lia. rewrite (Nat.add_comm _ (length _)), Nat.add_sub. rewrite mapM_read; [unfold row_out; now rewrite ER|].
    intros m x Hm. rewrite Hlist, aget_ainit. now apply (flat_nth ord true (map S (seq 0 (length verts))) R pred l (S l)).
  - intros x Hx. apply (Permutation_in _ (HO _ _)) in Hx. apply uniq_in in Hx as (Hx & _). rewrite <- ER in Hx. eapply HNZ; eauto.
Qed.
Lemma vertex_coloring me hg verts vws tys g tb ord t fuel nb : constructed me hg verts vws tys g -> t < length tb -> ord_ok ord -> length verts < fuel ->
  (forall l v, nth_error verts l = Some v -> exists hs, adjacent g (getVertex l) 0 fuel = Some hs /\ mapM (vgid g) hs = Some (nb v)) ->
  (forall v w, In v verts -> In w verts -> In w (nb v) -> In v (nb w)) ->
  color_verts g tb ord t fuel (fun c => length c = length verts /\ forall k l v w, nth_error verts k = Some v -> nth_error verts l = Some w -> v <> w -> In w (nb v) -> nth_error c k <> nth_error c l).
Proof.
  intros HC Htb HO Hf HA SY. pose proof (proj1 (constructed_rep _ _ _ _ _ _ HC)) as HR.
  destruct (vev_rows me hg verts vws tys g tb ord t fuel HC Htb HO Hf) as (tb' & s & E1 & E2 & RW).
  { intros l Hl. destruct (nth_error verts l) as [v|] eqn:El; [|apply nth_error_None in El; lia]. destruct (HA l v El) as (hs & A & _). eauto. }
  assert (ROW : forall k l v w, nth_error verts k = Some v -> nth_error verts l = Some w -> exists r, csr_row s k = Some r /\ (In l r <-> v <> w /\ In w (nb v))).
  { intros k l v w Hk Hl. destruct (HA k v Hk) as (hs & A & B). destruct (RW k hs) as (out & C & D & NZ); auto; [apply nth_error_Some; congruence|]. exists (map pred out). split; auto.
    assert (VG : forall k' v', nth_error verts k' = Some v' -> vgid g (getVertex k') = Some v') by (intros k' v' Hk'; apply (c_vgid _ _ _ _ _ _ HC); rewrite nth_error_app1; auto; apply nth_error_Some; congruence).
    assert (X : In l (map pred out) <-> In (getVertex l) out).
    { unfold getVertex. rewrite Nat.add_1_r, in_map_iff. split; [|intros I; exists (S l); auto]. intros (x & <- & I). specialize (NZ x I). destruct x; [congruence|auto]. }
    rewrite X. assert (Y : In (getVertex l) out <-> In (getVertex l) (uniq_adj (getVertex k) hs)) by (split; apply Permutation_in; auto; now apply Permutation_sym). rewrite Y, uniq_in.
    rewrite (mapM_in_iff _ _ _ w B). split.
    - intros (I & N). split; [|exists (getVertex l); auto]. intros ->. apply N. eapply (vgid_inj _ _ _ _ _ _ HC); eauto.
    - intros (N & h & I & G). assert (h = getVertex l) by (eapply (vgid_inj _ _ _ _ _ _ HC); eauto). subst h. split; auto. intros Z. apply N. rewrite Z in G. rewrite (VG k v Hk) in G. congruence. }
  exists tb', s. split; auto. split; auto. intros c (Lc & PC). rewrite (rp_nlv _ _ _ _ _ HR) in Lc, PC. split; auto. intros k l v w Hk Hl N I.
  assert (Lk : k < length verts) by (apply nth_error_Some; congruence). assert (Ll : l < length verts) by (apply nth_error_Some; congruence).
  destruct (ROW k l v w Hk Hl) as (r & Er & Hr). apply PC with (r := r); auto; [|intros ->; congruence|now apply Hr].
  intros i j ri Li Lj Ei Ii. destruct (nth_error verts i) as [a|] eqn:Ea; [|apply nth_error_None in Ea; lia]. destruct (nth_error verts j) as [b|] eqn:Eb; [|apply nth_error_None in Eb; lia].
  destruct (ROW i j a b Ea Eb) as (r1 & X1 & Y1). assert (r1 = ri) by congruence. subst r1. destruct (proj1 Y1 Ii) as (NE & IN). destruct (ROW j i b a Eb Ea) as (r2 & X2 & Y2). exists r2. split; auto. apply Y2. split; auto.
  apply SY; auto; eapply nth_error_In; eauto.
Qed.

(** vertex colouring of a hypergraph over edge type 0: vertices of the part that share an edge get different colours.  Missing: other edge types (see
    C59_vertex_type_refuted); ghost vertices are not coloured *)
Theorem C59_vertex_coloring_partial : forall me verts vws tys g tb ord fuel es ws,
  constructed me true verts vws tys g -> nth_error tys 0 = Some (es, ws) -> 0 < length tb -> ord_ok ord -> length verts < fuel ->
  (forall v, In v verts -> length (all_pins_at es (incident v es)) < fuel) ->
  color_verts g tb ord 0 fuel (fun c => length c = length verts /\ forall k l v w, nth_error verts k = Some v -> nth_error verts l = Some w -> v <> w ->
    (exists e, In e es /\ In v (snd e) /\ In w (snd e)) -> nth_error c k <> nth_error c l).
Proof.
  intros me verts vws tys g tb ord fuel es ws HC Ht Htb HO Hf HF.
  assert (NB : forall v w, In w (all_pins_at es (incident v es)) <-> exists e, In e es /\ In v (snd e) /\ In w (snd e)).
  { intros v w. unfold all_pins_at. rewrite in_flat_map. split.
    - intros (i & Hi & Hw). apply incident_in in Hi as (e & Ee & Hv). rewrite Ee in Hw. exists e. split; auto. eapply nth_error_In; eauto.
    - intros (e & He & Hv & Hw). apply In_nth_error in He as (i & Hi). exists i. split; [apply incident_in; eauto|]. now rewrite Hi. }
  destruct (vertex_coloring me true verts vws tys g tb ord 0 fuel (fun v => all_pins_at es (incident v es)) HC Htb HO Hf) as (tb' & s & E1 & E2 & H).
  { intros l v Hl. apply (w_adj_hyper _ _ _ _ _ _ HC 0 es ws l v fuel); auto. apply HF. eapply nth_error_In; eauto. }
  { intros v w _ _ I. apply NB in I as (e & A & B & C). apply NB. eauto. }
  exists tb', s. split; auto. split; auto. intros c Hc. destruct (H c Hc) as (L & P). split; auto. intros k l v w Hk Hl N X. apply (P k l v w); auto. now apply NB.
Qed.
Print Assumptions C59_vertex_coloring_partial.

(** traditional graphs: the same when every edge between two vertices of the part has its reverse *)
Theorem C59_vertex_traditional_partial : forall me verts vws tys g tb ord fuel es ws,
  constructed me false verts vws tys g -> nth_error tys 0 = Some (es, ws) -> 0 < length tb -> ord_ok ord -> length verts < fuel ->
  (forall v, In v verts -> length (out_dests v es) < fuel) ->
  (forall e v w, In e es -> snd e = [v; w] -> In v verts -> In w verts -> exists e', In e' es /\ snd e' = [w; v]) ->
  color_verts g tb ord 0 fuel (fun c => length c = length verts /\ forall k l v w, nth_error verts k = Some v -> nth_error verts l = Some w -> v <> w ->
    (exists e, In e es /\ snd e = [v; w]) -> nth_error c k <> nth_error c l).
Proof.
  intros me verts vws tys g tb ord fuel es ws HC Ht Htb HO Hf HF SY.
  assert (NB : forall v w, In w (out_dests v es) <-> exists e, In e es /\ snd e = [v; w]).
  { intros v w. unfold out_dests. rewrite in_flat_map. assert (T2 : forall e, In e es -> length (snd e) = 2) by (intros e He; destruct HC as ((_ & _ & _ & X) & _); apply (X es ws); auto; eapply nth_error_In; eauto). split.
    - intros (e & He & I). specialize (T2 e He). exists e. split; auto. destruct (snd e) as [|a [|b [|]]]; try discriminate. destruct (Z.eqb_spec a v) as [->|]; [|destruct I]. destruct I as [->|[]]. reflexivity.
    - intros (e & He & E). exists e. split; auto. rewrite E, Z.eqb_refl. cbn. auto. }
  destruct (vertex_coloring me false verts vws tys g tb ord 0 fuel (fun v => out_dests v es) HC Htb HO Hf) as (tb' & s & E1 & E2 & H).
  { intros l v Hl. apply (w_adj_trad _ _ _ _ _ _ HC 0 es ws l v fuel); auto. apply HF. eapply nth_error_In; eauto. }
  { intros v w Iv Iw I. apply NB in I as (e & A & B). destruct (SY e v w A B Iv Iw) as (e' & A' & B'). apply NB. eauto. }
  exists tb', s. split; auto. split; auto. intros c Hc. destruct (H c Hc) as (L & P). split; auto. intros k l v w Hk Hl N X. apply (P k l v w); auto. now apply NB.
Qed.
Print Assumptions C59_vertex_traditional_partial.

(** the vertex adjacency of another type is made of the edges of type 0: two vertices that share an edge of type 1 and none of type 0 may get the
    same colour *)
Theorem C59_vertex_type_refuted : exists verts tys g tb ord fuel es ws,
  constructed 0 true verts [] tys g /\ nth_error tys 1 = Some (es, ws) /\ 1 < length tb /\ ord_ok ord /\
  exists tb' s c, create_vev g tb ord 1 true fuel = Some tb' /\ sa_get tb' 1 = Some s /\ colored (nlv g) s c /\
  exists k l v w e, nth_error verts k = Some v /\ nth_error verts l = Some w /\ v <> w /\ In e es /\ In v (snd e) /\ In w (snd e) /\ nth_error c k = nth_error c l.
Proof.
  exists [1; 2]%Z, [([(10, [1]); (11, [2])], []); ([(20, [1; 2])], [])]%Z.
  destruct (build_graph 0 true [1; 2]%Z [] [([(10, [1]); (11, [2])], []); ([(20, [1; 2])], [])]%Z) as [g|] eqn:E; [|vm_compute in E; discriminate].
  exists g, [None; None], (fun _ l => l), 10, [(20, [1; 2])]%Z, []. split; [split; [|left; exact E]|].
  { split; [repeat constructor; cbn; intuition discriminate|]. split; [cbn; lia|]. split; [cbn; lia|]. intros es ws [I|[I|[]]]; inversion I; subst; split; auto; discriminate. }
  split; [reflexivity|]. split; [cbn; lia|]. split; [intros h l; apply Permutation_refl|]. vm_compute in E. inversion E; subst g. clear E.
  eexists. eexists. exists [1; 1]. split; [vm_compute; reflexivity|]. split; [reflexivity|]. split.
  - split; [reflexivity|]. intros _ i j r Li Lj N Er I. exfalso. cbn in Li. assert (Y : i = 0 \/ i = 1) by lia. destruct Y as [-> | ->]; vm_compute in Er; inversion Er; subst; destruct I.
  - exists 0, 1, 1%Z, 2%Z, (20, [1; 2])%Z. cbn. repeat (split; auto). discriminate.
Qed.
Print Assumptions C59_vertex_type_refuted.

(** edges 10 and 11 share vertex 2, edges 11 and 12 share vertex 3; an interleaved run of the filling loop *)
Definition col_tys : list type_input := [([(10, [1; 2]); (11, [2; 3]); (12, [3])], [])]%Z.
Example C59_example : (exists g, constructed 0 true [1; 2; 3]%Z [] col_tys g) /\ nth_error col_tys 0 = Some ([(10, [1; 2]); (11, [2; 3]); (12, [3])], [])%Z /\
  (forall e v, In e [(10, [1; 2]); (11, [2; 3]); (12, [3])]%Z -> In v (snd e) -> In v [1; 2; 3]%Z) /\
  touching [1; 2; 3]%Z [(10, [1; 2]); (11, [2; 3]); (12, [3])]%Z 1 2 /\
  (g <- build_graph 0 true [1; 2; 3]%Z [] col_tys ;; ed <- gtype g 0 ;; deg <- toDevice 4 (e_deg ed) ;; el <- toDevice (e_npins ed) (e_list ed) ;; mapM (row_pairs deg el) (seq 0 3)) = Some [[]; [(0, 1); (1, 0)]; [(1, 2); (2, 1)]] /\
  (let slots := [(2, 1); (1, 2); (0, 1); (1, 0)] in
   cnt <- foldM (fun d k => bump d (fst k + 1)) slots (repeat 0 4) ;; s <- foldM (fill_step (scan cnt) slots) [3; 1; 1; 0; 2; 2; 3; 0] (fill_init 3 4 4) ;;
   rows <- mapM (csr_row (mkSA (ainit (scan cnt)) (f_out s))) [0; 1; 2] ;; Some (f_pc s, rows)) = Some ([Finished; Finished; Finished; Finished], [[1]; [0; 2]; [1]]).
Proof.
  assert (VI : valid_input true [1; 2; 3]%Z [] col_tys).
  { split; [repeat constructor; cbn; intuition discriminate|]. split; [cbn; lia|]. split; [cbn; lia|]. intros es ws [I|[]]; inversion I; subst; split; auto; discriminate. }
  split. { destruct (build_graph 0 true [1; 2; 3]%Z [] col_tys) as [g|] eqn:E; [|vm_compute in E; discriminate]. exists g. split; auto. }
  split; [reflexivity|]. split; [intros e v [<-|[<-|[<-|[]]]]; cbn; tauto|]. split; [split; [lia|]; exists 3%Z, (11, [2; 3])%Z, (12, [3])%Z; cbn; tauto|]. split; vm_compute; reflexivity.
Qed.
(** with vertex 3 on another part the list has three entries and four are read *)
Example C59_ghosts_example : (exists g, constructed 0 true [1; 2]%Z [] [([(10, [1; 2]); (11, [2; 3])], [])]%Z g) /\
  (exists e v, In e [(10, [1; 2]); (11, [2; 3])]%Z /\ In v (snd e) /\ ~ In v [1; 2]%Z) /\
  (g <- build_graph 0 true [1; 2]%Z [] [([(10, [1; 2]); (11, [2; 3])], [])]%Z ;; ed <- gtype g 0 ;; Some (e_npins ed, e_list ed, toDevice (e_npins ed) (e_list ed))) = Some (4, ainit [0; 0; 1], None).
Proof.
  split. { destruct (build_graph 0 true [1; 2]%Z [] [([(10, [1; 2]); (11, [2; 3])], [])]%Z) as [g|] eqn:E; [|vm_compute in E; discriminate]. exists g. split; auto.
    split; [repeat constructor; cbn; intuition discriminate|]. split; [cbn; lia|]. split; [cbn; lia|]. intros es ws [I|[]]; inversion I; subst; split; auto; discriminate. }
  split; [|vm_compute; reflexivity]. exists (11, [2; 3])%Z, 3%Z. cbn. intuition discriminate.
Qed.
