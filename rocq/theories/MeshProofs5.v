(** What the interface returns on a mesh graph. *)
From Verif Require Import Base GraphModel CsrProofs ConstructProofs AccessProofs Comm TagModel TagProps MigrateModel MigrateProofs1 MeshModel MeshProofs1 MeshProofs2 MeshProofs3 MeshProofs4.

Lemma verts_handles g fuel : nlv g < fuel -> all_verts g fuel = Some (map S (seq 0 (nlv g))).
Proof.
  intros H. unfold all_verts. apply drain_yields; [|now rewrite map_length, seq_length].
  assert (Y : forall k, k <= nlv g -> yields (vit_step g) (nlv g - k + 1) (map S (seq (nlv g - k) k))).
  { induction k as [|k IH]; intros Hk.
    - cbn. exists 0. unfold vit_step. destruct (Nat.eqb_spec (nlv g - 0 + 1) (nlv g + 1)); [auto|lia].
    - cbn [seq map yields]. split; [lia|]. exists (nlv g - k + 1). split.
      + unfold vit_step. destruct (Nat.eqb_spec (nlv g - S k + 1) (nlv g + 1)); [lia|]. do 2 f_equal; lia.
      + replace (S (nlv g - S k)) with (nlv g - k) by lia. apply IH. lia. }
  specialize (Y (nlv g) (le_n _)). now rewrite Nat.sub_diag in Y.
Qed.
Lemma ghosts_handles g fuel : ngv g < fuel -> all_ghosts g fuel = Some (map S (seq (nlv g) (ngv g))).
Proof.
  intros H. unfold all_ghosts, git_begin. apply drain_yields; [|now rewrite map_length, seq_length].
  assert (Y : forall k, k <= ngv g -> yields (git_step g) (nlv g + (ngv g - k) + 1) (map S (seq (nlv g + (ngv g - k)) k))).
  { induction k as [|k IH]; intros Hk.
    - cbn. exists 0. unfold git_step. destruct (Nat.eqb_spec (nlv g + (ngv g - 0) + 1) (nlv g + ngv g + 1)); [auto|lia].
    - cbn [seq map yields]. split; [lia|]. exists (nlv g + (ngv g - k) + 1). split.
      + unfold git_step. destruct (Nat.eqb_spec (nlv g + (ngv g - S k) + 1) (nlv g + ngv g + 1)); [lia|]. do 2 f_equal; lia.
      + replace (S (nlv g + (ngv g - S k))) with (nlv g + (ngv g - k)) by lia. apply IH. lia. }
  specialize (Y (ngv g) (le_n _)). now rewrite Nat.sub_diag, Nat.add_0_r in Y.
Qed.
Lemma edges_handles g t ed fuel : gtype g t = Some ed -> e_num ed < fuel -> all_edges g t fuel = Some (map (fun i => getEdge (ntypes g) i t) (seq 0 (e_num ed))).
Proof.
  intros E Hf. assert (Ht : t < ntypes g) by (apply nth_error_Some; unfold gtype in E; congruence).
  unfold all_edges, eit_begin, num_edges. rewrite E. cbn [obind]. apply drain_yields; [|now rewrite map_length, seq_length].
  apply (eit_range g []); auto. intros it m Hl Hh Hm Hlt. unfold eit_step. destruct (Nat.leb_spec (ei_end it) (ei_loc it)); [lia|].
  rewrite Hh, andb_negb_r, Hl. split; auto. unfold getEdge; lia.
Qed.
Lemma row_handles g t ed l o row fuel : hyper g = true -> gtype g t = Some ed -> aget (e_deg ed) l = Some o -> aget (e_deg ed) (l + 1) = Some (o + length row) ->
  (forall m x, nth_error row m = Some x -> aget (e_list ed) (o + m) = Some x) -> length row < fuel -> vertex_edges g (S l) t fuel = Some (map (fun i => getEdge (ntypes g) i t) row).
Proof.
  intros Hh E D1 D2 HR Hf. assert (Ht : t < ntypes g) by (apply nth_error_Some; unfold gtype in E; congruence).
  unfold vertex_edges, eit_vertex, vdegree. cbn [vlid obind]. rewrite E. cbn [obind]. rewrite D1, D2. cbn [obind]. replace (o + length row - o) with (length row) by lia.
  assert (Hrow : map (fun i => getEdge (ntypes g) i t) row = map (fun p => getEdge (ntypes g) (nth (p - o) row 0) t) (seq o (length row))).
  { apply nth_error_ext. intros m. rewrite !nth_error_map. destruct (Nat.lt_ge_cases m (length row)) as [L|L].
    - rewrite nth_error_seq by lia. cbn [option_map]. replace (o + m - o) with m by lia. rewrite (nth_error_nth' row 0 L). reflexivity.
    - rewrite (proj2 (nth_error_None row m)) by auto. rewrite (proj2 (nth_error_None (seq _ _) m)); auto. rewrite seq_length. lia. }
  rewrite Hrow. apply drain_yields; [|now rewrite map_length, seq_length]. apply (eit_range g []); auto. intros it m Hloc Hhy Hm Hlt. unfold eit_step.
  destruct (Nat.leb_spec (ei_end it) (ei_loc it)); [lia|]. rewrite Hh, Hhy. cbn [andb negb]. rewrite Hloc, edec_getEdge by auto. cbn [obind]. rewrite E. cbn [obind].
  replace (o + m - o) with m by lia. assert (Hx : nth_error row m = Some (nth m row 0)) by (now apply nth_error_nth'). rewrite (HR m _ Hx). cbn [obind]. rewrite <- Hloc. split; auto. unfold getEdge; lia.
Qed.
Lemma pins_handles g t ed u o row fuel : hyper g = true -> gtype g t = Some ed -> aget (e_pdeg ed) u = Some o -> aget (e_pdeg ed) (u + 1) = Some (o + length row) ->
  (forall m x, nth_error row m = Some x -> aget (e_pins ed) (o + m) = Some x) -> length row < fuel -> edge_pins g (getEdge (ntypes g) u t) fuel = Some (map S row).
Proof.
  intros Hh E D1 D2 HR Hf. assert (Ht : t < ntypes g) by (apply nth_error_Some; unfold gtype in E; congruence).
  unfold edge_pins, pins_begin. rewrite edec_getEdge by auto. cbn [obind]. rewrite E. cbn [obind]. rewrite Hh, D1, D2. cbn [obind]. apply drain_yields; [|now rewrite map_length].
  assert (Y : forall k m, m + k = length row -> yields (pit_step g) (PHyper t (o + m) (o + length row)) (map S (skipn m row))).
  { induction k as [|k IH]; intros m Hm.
    - rewrite skipn_all2 by lia. cbn. replace m with (length row) by lia. rewrite Nat.eqb_refl. eexists; reflexivity.
    - destruct (nth_error row m) as [x|] eqn:Ex; [|apply nth_error_None in Ex; lia].
      assert (Es : skipn m row = x :: skipn (S m) row).
      { clear - Ex. revert row Ex; induction m as [|m IH]; intros [|a ps] Ev; simpl in *; try discriminate; [inversion Ev; auto|now apply IH]. }
      rewrite Es. cbn [map yields]. split; [lia|]. exists (PHyper t (o + S m) (o + length row)). split; [|apply IH; lia]. cbn [pit_step].
      destruct (Nat.eqb_spec (o + m) (o + length row)); [lia|]. rewrite E. cbn [obind]. rewrite (HR m x Ex). cbn [obind]. rewrite Nat.add_1_r. do 2 f_equal. f_equal. lia. }
  specialize (Y (length row) 0 eq_refl). now rewrite Nat.add_0_r in Y.
Qed.

Definition ids_of (g : graph) (hs : list nat) : option (list Z) := mapM (vgid g) hs.
Section View.
Variable ms : list pmesh.
Variable hss : list (list hdim).
Hypothesis HO : owned_once ms.
Variable p : nat.
Variable a : ast.
Variable g : graph.
Hypothesis HI : AInv ms hss p a.
Hypothesis HF : finish a = Some g.
Notation m := (a_m a).
Notation all := (verts_of m ++ a_gh a).

Lemma fin : g = mkGraph true (length (verts_of m)) (length (a_gh a)) (ainit (verts_of m)) (ainit (repeat 1%Z (length (verts_of m)))) (ainit (a_gh a)) (a_vm a) (a_types a) (ainit (a_own a)) (Z.of_nat p).
Proof. unfold finish in HF. rewrite (i_n _ _ _ _ HI), (i_lun _ _ _ _ HI), (i_lw _ _ _ _ HI), (i_me _ _ _ _ HI) in HF. congruence. Qed.
Lemma f_nlv : nlv g = length (verts_of m). Proof. now rewrite fin. Qed.
Lemma f_ngv : ngv g = length (a_gh a). Proof. now rewrite fin. Qed.
Lemma f_vgid i : vgid g (S i) = nth_error all i.
Proof.
  unfold vgid. cbn [vlid obind]. rewrite fin. cbn [nlv gunmap lunmap]. destruct (Nat.leb_spec (length (verts_of m)) i).
  - rewrite aget_ainit, nth_error_app2 by auto. reflexivity. - rewrite aget_ainit, nth_error_app1 by auto. reflexivity.
Qed.
Lemma f_weight i : i < length (verts_of m) -> vweight g (S i) = Some 1%Z.
Proof. intros H. unfold vweight. cbn [vlid obind]. rewrite fin. cbn [nlv lwgts]. apply Nat.ltb_lt in H as H'. rewrite H', aget_ainit. now apply nth_error_repeat. Qed.
Lemma f_owner i : i < length (verts_of m) -> owner g (S i) = Some (Z.of_nat p).
Proof. intros H. unfold owner. cbn [vlid]. rewrite fin. cbn [nlv ngv self]. destruct (Nat.leb_spec (length (verts_of m) + length (a_gh a)) i); [lia|]. apply Nat.ltb_lt in H. now rewrite H. Qed.
Lemma f_ghost j v : nth_error (a_gh a) j = Some v -> exists q mq, owner g (S (length (verts_of m) + j)) = Some (Z.of_nat q) /\ nth_error ms q = Some mq /\ In v (verts_of mq) /\ q <> p /\ ~ In v (verts_of m).
Proof.
  intros H. assert (NV : ~ In v (verts_of m)). { intros I. pose proof (i_nd _ _ _ _ HI) as N. apply NoDup_app_iff in N as (_ & _ & N). apply (N v I). eapply nth_error_In; eauto. }
  assert (L : j < length (a_gh a)) by (apply nth_error_Some; congruence). pose proof (i_own _ _ _ _ HI) as F. destruct (Forall2_nth_l _ _ _ _ _ _ _ F H) as (o & Ho & q & mq & -> & Hq & Iv).
  exists q, mq. split; [|split; auto; split; auto; split; auto].
  - unfold owner. cbn [vlid]. rewrite fin. cbn [nlv ngv owners]. destruct (Nat.leb_spec (length (verts_of m) + length (a_gh a)) (length (verts_of m) + j)); [lia|]. destruct (Nat.ltb_spec (length (verts_of m) + j) (length (verts_of m))); [lia|].
    rewrite aget_ainit. replace (length (verts_of m) + j - length (verts_of m)) with j by lia. exact Ho.
  - intros ->. pose proof (i_m _ _ _ _ HI). apply NV. congruence.
Qed.
Lemma f_find v i : nth_error all i = Some v -> findGID g v = Some (S i).
Proof. intros H. unfold findGID. rewrite fin. cbn [vmap]. apply (i_vm _ _ _ _ HI) in H. rewrite H. cbn. now rewrite Nat.add_1_r. Qed.
Lemma f_nt : ntypes g = length hss. Proof. unfold ntypes. rewrite fin. cbn [types]. symmetry. exact (Forall2_len _ _ _ _ _ (i_types _ _ _ _ HI)). Qed.
Lemma f_type t hs : nth_error hss t = Some hs -> exists h ed, nth_error hs p = Some h /\ gtype g t = Some ed /\ TInv m h all (pin_set ms hs) ed.
Proof. intros H. destruct (Forall2_nth_l _ _ _ _ _ _ _ (i_types _ _ _ _ HI) H) as (ed & Hd & h & Hh & T). exists h, ed. split; auto. split; auto. unfold gtype. rewrite fin. exact Hd. Qed.
Lemma f_egid t hs h k e w : nth_error hss t = Some hs -> nth_error hs p = Some h -> nth_error (h_ents h) k = Some (e, w) ->
  egid g (getEdge (ntypes g) k t) = Some (en_gid e) /\ eweight g (getEdge (ntypes g) k t) = Some w.
Proof.
  intros H Hh He. destruct (f_type t hs H) as (h' & ed & Hh' & Ed & T). assert (h' = h) by congruence. subst h'.
  assert (Ht : t < ntypes g) by (apply nth_error_Some; unfold gtype in Ed; congruence). unfold egid, eweight. rewrite edec_getEdge by auto. cbn [obind]. replace (hyper g) with true by (now rewrite fin). rewrite Ed. cbn [obind].
  rewrite (t_un _ _ _ _ _ T), (t_wg _ _ _ _ _ T), !aget_ainit. unfold gids. rewrite !nth_error_map, He. auto.
Qed.
Lemma f_pins t hs h k e w fuel : nth_error hss t = Some hs -> nth_error hs p = Some h -> nth_error (h_ents h) k = Some (e, w) ->
  (forall l, pin_set ms hs (en_gid e) l -> length l < fuel) ->
  exists hp l, edge_pins g (getEdge (ntypes g) k t) fuel = Some hp /\ ids_of g hp = Some l /\ pin_set ms hs (en_gid e) l.
Proof.
  intros H Hh He Hf. destruct (f_type t hs H) as (h' & ed & Hh' & Ed & T). assert (h' = h) by congruence. subst h'. destruct (t_pins _ _ _ _ _ T) as (rows & P1 & P2 & P3 & P4).
  assert (Hx : nth_error (gids h) k = Some (en_gid e)) by (unfold gids; rewrite nth_error_map, He; reflexivity). destruct (P4 k _ Hx) as (l & F & PS). assert (L : k < length (h_ents h)) by (apply nth_error_Some; congruence).
  exists (map S (rows k)), l. split; [|split; auto].
  - apply pins_handles with (ed := ed) (o := nsum (map (fun u => length (rows u)) (seq 0 k))); auto; [now rewrite fin|apply P2; lia| | |].
    + rewrite P2 by lia. f_equal. rewrite Nat.add_1_r, seq_S, map_app, nsum_app. cbn. lia.
    + intros i x Hi. rewrite P1, aget_ainit. now apply concat_row.
    + rewrite (Forall2_len _ _ _ _ _ F). now apply Hf.
  - unfold ids_of. clear - F HI HF. induction F as [|i v r l H1 H2 IH]; [reflexivity|]. cbn [map mapM]. rewrite f_vgid, H1. cbn [obind]. rewrite IH. reflexivity.
Qed.
Lemma orows_nth (h : hdim) i v row : length (h_down h) = length (pm_prim m) -> nth_error (pm_prim m) i = Some (v, true) -> nth_error (h_down h) i = Some row ->
  exists l, nth_error (verts_of m) l = Some v /\ nth_error (orows m h) l = Some row.
Proof.
  unfold verts_of, orows. generalize (h_down h). revert i. induction (pm_prim m) as [|(v', b) pr IH]; intros [|i] [|r d] L H1 H2; cbn in L, H1, H2; try discriminate; try lia.
  - inversion H1; inversion H2; subst. exists 0. cbn. auto.
  - destruct (IH i d ltac:(lia) H1 H2) as (l & K1 & K2). cbn [combine filter snd fst]. destruct b; [exists (S l)|exists l]; cbn; auto.
Qed.
Lemma f_row t hs h i v row fuel : copies_ok ms hs -> nth_error hss t = Some hs -> nth_error hs p = Some h -> nth_error (pm_prim m) i = Some (v, true) -> nth_error (h_down h) i = Some row -> length row < fuel ->
  exists hv, findGID g v = Some hv /\ vertex_edges g hv t fuel = Some (map (fun k => getEdge (ntypes g) k t) row).
Proof.
  intros HC H Hh Hi Hr Hf. destruct (f_type t hs H) as (h' & ed & Hh' & Ed & T). assert (h' = h) by congruence. subst h'. pose proof (i_m _ _ _ _ HI) as Hm.
  destruct (orows_nth h i v row (co_down _ _ HC p m h Hm Hh) Hi Hr) as (l & Hl & Ho). assert (L : l < length (verts_of m)) by (apply nth_error_Some; congruence).
  exists (S l). split; [apply f_find; now rewrite nth_error_app1|]. apply row_handles with (ed := ed) (o := nsum (map (@length nat) (firstn l (orows m h)))); auto; [now rewrite fin|apply (t_deg _ _ _ _ _ T); lia| |].
  - rewrite (t_deg _ _ _ _ _ T) by lia. f_equal. rewrite Nat.add_1_r, (ZoltanProps.firstn_next _ _ _ _ Ho), map_app, nsum_app. cbn. lia.
  - intros k x Hx. rewrite (t_list _ _ _ _ _ T), aget_ainit, <- firstn_map. now apply (nth_error_concat _ (orows m h) l row k x).
Qed.
End View.
