(** Array overloads, removeEdges, setEdgeWeights: lemmas behind GraphProps.v. *)
From Verif Require Import Base GraphModel CsrProofs ConstructProofs GraphSpec AccessProofs AccessProofs2 CountProofs GraphTop GraphTop2.

Lemma constructVerts_arr_vec me hg verts ws : length ws = length verts ->
  constructVerts_arr me hg (length verts) verts (Some ws) = constructVerts me hg verts ws.
Proof.
  intros L. unfold constructVerts_arr, constructVerts.
  erewrite foldM_ext; [reflexivity|]. intros [[lu lw] vm] i Hi. apply in_seq in Hi.
  destruct (Nat.ltb_spec i (length ws)); [reflexivity|lia].
Qed.
Lemma constructVerts_arr_none me hg verts :
  constructVerts_arr me hg (length verts) verts None = constructVerts me hg verts [].
Proof. unfold constructVerts_arr, constructVerts. erewrite foldM_ext; [reflexivity|]. intros [[lu lw] vm] i Hi. reflexivity. Qed.

Lemma constructEdges_arr_vec g ids degs pv ws : length degs = length ids -> nsum degs = length pv -> length ws = length ids ->
  constructEdges_arr g (length ids) ids degs pv (Some ws) = constructEdges g ids degs pv ws.
Proof.
  intros Hd Hp Hw. unfold constructEdges_arr, constructEdges. rewrite Hd, Nat.leb_refl, Nat.eqb_refl.
  rewrite <- Hd, firstn_all, Hp, Hd. f_equal. rewrite edge_wgts_arr_ok by auto.
  rewrite edge_wgts_vec_ok by auto. destruct ws; auto. simpl in Hw. now rewrite <- Hw.
Qed.
Lemma constructEdges_arr_none g ids degs pv : length degs = length ids -> nsum degs = length pv ->
  constructEdges_arr g (length ids) ids degs pv None = constructEdges g ids degs pv [].
Proof.
  intros Hd Hp. unfold constructEdges_arr, constructEdges. rewrite Hd, Nat.leb_refl, Nat.eqb_refl.
  now rewrite <- Hd, firstn_all, Hp, Hd.
Qed.

Lemma zfind_combine (ids owns : list Z) i v o : NoDup ids -> nth_error ids i = Some v -> nth_error owns i = Some o ->
  zfind (combine ids owns) v = Some o.
Proof.
  revert owns i; induction ids as [|a ids IH]; intros [|b owns] [|i] Hnd Hi Ho; cbn in *; try discriminate.
  - inversion Hi; inversion Ho; subst. now rewrite Z.eqb_refl.
  - inversion Hnd; subst. destruct (Z.eqb_spec v a) as [->|_]; [apply nth_error_In in Hi; tauto|]. eauto.
Qed.

Lemma constructGhosts_arr_map g verts wts ghosts tys ids owns : Rep g verts wts ghosts tys ->
  NoDup ids -> length owns = length ids -> (forall v, In v ghosts -> In v ids) -> (forall v, In v ids -> In v (verts ++ ghosts)) ->
  constructGhosts_owners_arr g (length ids) ids owns = constructGhosts_owners g (combine ids owns).
Proof.
  intros HR Hnd HL Hcov Hknown.
  destruct (constructGhosts_owners_ok _ _ _ _ _ (combine ids owns) HR) as (g' & E' & HR' & HO & _).
  unfold constructGhosts_owners in *. unfold constructGhosts_owners_arr.
  destruct (foldM (fun a v => gid <- aget (gunmap g) v;; aset a v (match zfind (combine ids owns) gid with Some p => p | None => 0%Z end)) (seq 0 (ngv g)) (anew (ngv g))) as [ow|] eqn:Eow; [|discriminate].
  cbn [obind] in *. inversion E'; subst g'. clear E'. unfold RepO in HO. cbn [owners] in HO. subst ow.
  set (F := fun '(a, vm) i => _).
  destruct (foldM_inv F (fun pre s => snd s = vmap g /\ length (fst s) = length ghosts /\
     forall k v, nth_error ghosts k = Some v -> (exists i, i < length pre /\ nth_error ids i = Some v) -> aget (fst s) k = Some (look (combine ids owns) v))
     (seq 0 (length ids)) (anew (ngv g), vmap g)) as ([a vm] & E & Hvm & Hla & Hget).
  - cbn [fst snd]. split; auto. split; [rewrite anew_length; apply HR|]. intros k v _ (i & Hi & _). simpl in Hi. lia.
  - intros pre i post [a vm] Hs (Hvm & Hla & Hget). cbn [fst snd] in *. subst vm.
    assert (i = length pre /\ i < length ids) as [Hi L].
    { assert (L : length pre < length ids) by (rewrite <- (seq_length (length ids) 0), Hs, app_length; simpl; lia).
      assert (E : nth_error (seq 0 (length ids)) (length pre) = Some i) by (rewrite Hs, nth_error_app2, Nat.sub_diag; auto).
      rewrite nth_error_seq in E by auto. inversion E. split; lia. }
    destruct (nth_error ids i) as [v|] eqn:Ev; [|apply nth_error_None in Ev; lia].
    destruct (nth_error owns i) as [o|] eqn:Eo; [|apply nth_error_None in Eo; lia].
    pose proof (Hknown v (nth_error_In _ _ Ev)) as Hin.
    pose proof (MapInv_find _ _ v (rp_vm _ _ _ _ _ HR) Hin (rp_nd _ _ _ _ _ HR)) as Hf.
    pose proof (idx_nth _ _ Hin) as Hx. set (x := idx (verts ++ ghosts) v) in *.
    unfold F. rewrite Ev. cbn [obind]. rewrite Hf. rewrite (rp_nlv _ _ _ _ _ HR).
    assert (Hcase : forall w, (exists j, j < length (pre ++ [i]) /\ nth_error ids j = Some w) -> w <> v -> exists j, j < length pre /\ nth_error ids j = Some w).
    { intros w (j & Hj & Ej) N. rewrite app_length in Hj. cbn in Hj. destruct (Nat.eq_dec j (length pre)) as [->|].
      - exfalso. apply N. congruence. - exists j. split; auto. lia. }
    destruct (Nat.ltb_spec x (length verts)) as [Lx|Lx].
    + eexists. split; [reflexivity|]. cbn [fst snd]. split; auto. split; auto. intros k w Hk Hex. apply Hget; auto. apply Hcase; auto.
      intros ->. rewrite nth_error_app1 in Hx by auto. pose proof (rp_nd _ _ _ _ _ HR) as Hn. apply NoDup_app_iff in Hn as (_ & _ & Hn).
      apply (Hn v); eapply nth_error_In; eauto.
    + rewrite Eo. cbn [obind]. rewrite nth_error_app2 in Hx by auto.
      assert (Lk : x - length verts < length ghosts) by (apply nth_error_Some; congruence).
      rewrite aset_some by (rewrite Hla; auto). cbn [obind]. eexists. split; [reflexivity|]. cbn [fst snd]. split; auto.
      split; [rewrite upd_length; auto|]. intros k w Hk Hex. destruct (Nat.eq_dec (x - length verts) k) as [<-|N].
      * rewrite aget_upd_eq by (rewrite Hla; auto). assert (w = v) by congruence. subst w. unfold look.
        now rewrite (zfind_combine ids owns i v o).
      * rewrite aget_upd_neq by auto. apply Hget; auto. apply Hcase; auto. intros ->. apply N.
        eapply NoDup_nth_error_inj; [|exact Hx|exact Hk]. pose proof (rp_nd _ _ _ _ _ HR) as Hn. apply NoDup_app_iff in Hn. tauto.
  - rewrite E. cbn [obind]. cbn [fst snd] in *. subst vm. do 2 f_equal. rewrite seq_length in Hget.
    apply nth_error_ext. intros k. unfold ainit. rewrite map_map. destruct (nth_error ghosts k) as [v|] eqn:Ek.
    + rewrite nth_error_map, Ek. cbn [option_map]. specialize (Hget k v Ek).
      assert (G : aget a k = Some (look (combine ids owns) v)).
      { apply Hget. destruct (In_nth_error ids v) as (i & Hi); [apply Hcov; eapply nth_error_In; eauto|]. exists i. split; auto.
        apply nth_error_Some; congruence. }
      unfold aget in G. destruct (nth_error a k) as [[?|]|]; try discriminate; congruence.
    + rewrite (proj2 (nth_error_None _ k)) by (apply nth_error_None in Ek; lia).
      symmetry. apply nth_error_None. rewrite map_length. now apply nth_error_None.
Qed.

(** *** changes confined to some types *)
Definition same_shape (g g' : graph) : Prop :=
  hyper g' = hyper g /\ nlv g' = nlv g /\ ngv g' = ngv g /\ lunmap g' = lunmap g /\ lwgts g' = lwgts g /\ gunmap g' = gunmap g /\
  vmap g' = vmap g /\ owners g' = owners g /\ self g' = self g.

(** everything the API shows of edge number i / vertex h for type t *)
Definition same_edge (g g' : graph) (t i fuel : nat) : Prop :=
  let h := getEdge (ntypes g) i t in let h' := getEdge (ntypes g') i t in
  eweight g' h' = eweight g h /\ egid g' h' = egid g h /\ edegree g' h' = edegree g h /\
  u_of g' h' = u_of g h /\ v_of g' h' = v_of g h /\ edge_pins g' h' fuel = edge_pins g h fuel /\
  getResidence g' h' = getResidence g h.
Definition same_rows (g g' : graph) (t v fuel : nat) : Prop :=
  vdegree g' v t = vdegree g v t /\
  (hs <- vertex_edges g' v t fuel ;; mapM (elid g') hs) = (hs <- vertex_edges g v t fuel ;; mapM (elid g) hs).

Lemma drain_ext S (s1 s2 : S -> option (nat * S)) f x : (forall y, s1 y = s2 y) -> drain s1 f x = drain s2 f x.
Proof. intros H. revert x; induction f as [|f IH]; intros x; auto. cbn [drain]. rewrite H. destruct (s2 x) as [[h y]|]; auto. cbn [obind].
  destruct (h =? 0); auto. now rewrite IH. Qed.

Lemma getResidence_ext g g' h h' : (forall it, pit_step g' it = pit_step g it \/ True) -> pins_begin g' h' = pins_begin g h -> edegree g' h' = edegree g h ->
  (forall x, owner g' x = owner g x) ->
  (forall it n, pins_begin g h = Some it -> iter_n (pit_step g') n it = iter_n (pit_step g) n it) -> getResidence g' h' = getResidence g h.
Proof. intros _ Hp Hd Ho Hi. unfold getResidence. rewrite Hp, Hd. destruct (pins_begin g h) as [it|] eqn:E; auto. cbn [obind].
  destruct (edegree g h); auto. cbn [obind]. rewrite Hi by auto. destruct (iter_n _ _ _) as [l|]; auto. cbn [obind].
  clear - Ho. induction l as [|x l IH]; auto. cbn [mapM]. now rewrite Ho, IH. Qed.

Lemma iter_stay (g g' : graph) t : gtype g' t = gtype g t -> forall n it, (match it with PHyper t' _ _ => t' = t | _ => True end) ->
  iter_n (pit_step g') n it = iter_n (pit_step g) n it.
Proof.
  intros Ht. induction n as [|n IH]; intros it Hit; auto. cbn [iter_n].
  destruct it as [t' loc fin|loc fin]; cbn [pit_step].
  - subst t'. rewrite Ht. destruct (loc =? fin); cbn [obind]; [rewrite IH; auto|]. destruct (gtype g t); auto. cbn [obind].
    destruct (aget (e_pins e) loc); auto. cbn [obind]. now rewrite IH.
  - cbn [obind]. now rewrite IH.
Qed.
Lemma drain_stay (g g' : graph) t : gtype g' t = gtype g t -> forall n it, (match it with PHyper t' _ _ => t' = t | _ => True end) ->
  drain (pit_step g') n it = drain (pit_step g) n it.
Proof.
  intros Ht. induction n as [|n IH]; intros it Hit; auto. cbn [drain].
  destruct it as [t' loc fin|loc fin]; cbn [pit_step].
  - subst t'. rewrite Ht. destruct (loc =? fin); cbn [obind]; [reflexivity|]. destruct (gtype g t); auto. cbn [obind].
    destruct (aget (e_pins e) loc); auto. cbn [obind]. now rewrite IH.
  - cbn [obind]. destruct (loc =? 0); auto. now rewrite IH.
Qed.

Lemma same_type_edge g g' t i fuel : same_shape g g' -> t < ntypes g -> t < ntypes g' -> gtype g' t = gtype g t -> same_edge g g' t i fuel.
Proof.
  intros (Hh & Hn & Hg & Hlu & Hlw & Hgu & Hvm & How & Hs) H1 H2 Ht. unfold same_edge. cbv zeta.
  assert (Hu : u_of g' (getEdge (ntypes g') i t) = u_of g (getEdge (ntypes g) i t)).
  { unfold u_of. rewrite !edec_getEdge by auto. cbn [obind]. unfold u_lid. now rewrite Ht, Hn. }
  assert (Hd : edegree g' (getEdge (ntypes g') i t) = edegree g (getEdge (ntypes g) i t)).
  { unfold edegree. rewrite !edec_getEdge by auto. cbn [obind]. rewrite Hh, Ht.
    replace (getEdge (ntypes g') i t =? 0) with (getEdge (ntypes g) i t =? 0); auto.
    unfold getEdge. destruct (Nat.eqb_spec (ntypes g * i + t + 1) 0), (Nat.eqb_spec (ntypes g' * i + t + 1) 0); auto; lia. }
  assert (Hp : pins_begin g' (getEdge (ntypes g') i t) = pins_begin g (getEdge (ntypes g) i t)).
  { unfold pins_begin. rewrite Hu, !edec_getEdge by auto. cbn [obind]. now rewrite Ht, Hh. }
  assert (Hpt : forall it, pins_begin g (getEdge (ntypes g) i t) = Some it -> match it with PHyper t' _ _ => t' = t | _ => True end).
  { intros it. unfold pins_begin. rewrite edec_getEdge by auto. cbn [obind]. destruct (gtype g t) as [ed|]; [|discriminate]. cbn [obind].
    destruct (hyper g).
    - destruct (aget (e_pdeg ed) i); [|discriminate]. cbn [obind]. destruct (aget (e_pdeg ed) (i + 1)); [|discriminate]. cbn [obind].
      intros E; inversion E; auto.
    - destruct (u_of g (getEdge (ntypes g) i t)); [|discriminate]. cbn [obind]. destruct (aget (e_list ed) i); [|discriminate].
      intros E; inversion E; auto. }
  repeat split; auto.
  - unfold eweight. rewrite !edec_getEdge by auto. cbn [obind]. now rewrite Ht.
  - unfold egid. rewrite !edec_getEdge by auto. cbn [obind]. now rewrite Ht, Hh.
  - unfold v_of. rewrite !edec_getEdge by auto. cbn [obind]. rewrite Hh, Ht.
    replace (getEdge (ntypes g') i t =? 0) with (getEdge (ntypes g) i t =? 0); auto.
    unfold getEdge. destruct (Nat.eqb_spec (ntypes g * i + t + 1) 0), (Nat.eqb_spec (ntypes g' * i + t + 1) 0); auto; lia.
  - unfold edge_pins. rewrite Hp. destruct (pins_begin g (getEdge (ntypes g) i t)) as [it|] eqn:E; auto. cbn [obind].
    apply (drain_stay g g' t Ht). exact (Hpt it eq_refl) || exact (Hpt it E).
  - apply getResidence_ext; auto.
    + intros x. unfold owner. now rewrite Hn, Hg, Hs, How.
    + intros it n E. apply (iter_stay g g' t Ht). exact (Hpt it E).
Qed.

Lemma eit_end g t nt l hy : eit_step g (mk_eiter t nt l 0 hy) = Some (0, mk_eiter t nt l 0 hy).
Proof. unfold eit_step, mk_eiter. cbn [ei_end ei_loc]. rewrite Nat.add_0_r, Nat.leb_refl. reflexivity. Qed.
Lemma eit_next g t l d hy : t < ntypes g -> eit_step g (mk_eiter t (ntypes g) l (S d) hy) =
  if hyper g && negb hy then ed <- gtype g t ;; e <- aget (e_list ed) l ;; Some (getEdge (ntypes g) e t, mk_eiter t (ntypes g) (S l) d hy)
  else Some (getEdge (ntypes g) l t, mk_eiter t (ntypes g) (S l) d hy).
Proof.
  intros H. unfold eit_step. unfold mk_eiter at 1 2. cbn [ei_end ei_loc].
  destruct (Nat.leb_spec (1 + t + ntypes g * (l + S d)) (1 + t + ntypes g * l)) as [L|_]; [nia|].
  assert (E : mkEiter (ei_loc (mk_eiter t (ntypes g) l (S d) hy) + ei_nt (mk_eiter t (ntypes g) l (S d) hy)) (ei_end (mk_eiter t (ntypes g) l (S d) hy))
     (ei_nt (mk_eiter t (ntypes g) l (S d) hy)) (ei_hyper (mk_eiter t (ntypes g) l (S d) hy)) = mk_eiter t (ntypes g) (S l) d hy).
  { unfold mk_eiter. cbn [ei_loc ei_nt ei_end ei_hyper]. f_equal; nia. }
  rewrite E. cbn [ei_hyper mk_eiter ei_loc].
  assert (E2 : 1 + t + ntypes g * l = getEdge (ntypes g) l t) by (unfold getEdge; lia).
  assert (E3 : ei_loc (mk_eiter t (ntypes g) l (S d) hy) = getEdge (ntypes g) l t) by (unfold mk_eiter; cbn [ei_loc]; lia).
  rewrite E2. rewrite ?E3, edec_getEdge by auto. cbn [obind]. destruct (hyper g && negb hy); auto.
Qed.

Lemma same_type_rows g g' t v fuel : same_shape g g' -> t < ntypes g -> t < ntypes g' -> gtype g' t = gtype g t -> same_rows g g' t v fuel.
Proof.
  intros (Hh & _) H1 H2 Ht. unfold same_rows.
  assert (Hd : vdegree g' v t = vdegree g v t) by (unfold vdegree; now rewrite Ht).
  split; auto. unfold vertex_edges, eit_vertex. rewrite Hd, Ht. destruct (vlid v) as [l|]; auto. cbn [obind].
  destruct (gtype g t) as [ed|] eqn:Eg; auto. cbn [obind]. destruct (aget (e_deg ed) l) as [o|]; auto. cbn [obind].
  destruct (vdegree g v t) as [d|]; auto. cbn [obind]. clear Hd.
  revert o d. induction fuel as [|f IH]; intros o d; auto. cbn [drain]. destruct d as [|d].
  - rewrite !eit_end. reflexivity.
  - rewrite !eit_next by auto. rewrite Hh, Ht, Eg. cbn [obind]. specialize (IH (S o) d).
    assert (N : forall nt x, (getEdge nt x t =? 0) = false) by (intros; unfold getEdge; apply Nat.eqb_neq; lia).
    assert (EL : forall gg x, t < ntypes gg -> elid gg (getEdge (ntypes gg) x t) = Some x) by (intros; unfold elid; now rewrite edec_getEdge).
    destruct (hyper g && negb false).
    + destruct (aget (e_list ed) o) as [e|]; auto. cbn [obind]. rewrite !N.
      destruct (drain (eit_step g') f (mk_eiter t (ntypes g') (S o) d false)) as [r'|], (drain (eit_step g) f (mk_eiter t (ntypes g) (S o) d false)) as [r|];
        cbn [obind mapM] in *; rewrite ?EL by auto; cbn [obind]; rewrite ?IH; auto; rewrite <- IH; auto.
    + cbn [obind]. rewrite !N.
      destruct (drain (eit_step g') f (mk_eiter t (ntypes g') (S o) d false)) as [r'|], (drain (eit_step g) f (mk_eiter t (ntypes g) (S o) d false)) as [r|];
        cbn [obind mapM] in *; rewrite ?EL by auto; cbn [obind]; rewrite ?IH; auto; rewrite <- IH; auto.
Qed.

Lemma removeEdges_spec g t : t < ntypes g -> exists g', removeEdges g t = Some g' /\ same_shape g g' /\
  ntypes g' = (if t =? ntypes g - 1 then ntypes g - 1 else ntypes g) /\
  (forall t', t' < ntypes g' -> t' <> t -> gtype g' t' = gtype g t').
Proof.
  intros H. unfold removeEdges. destruct (Nat.ltb_spec t (ntypes g)); [|lia]. eexists; split; [reflexivity|].
  split; [unfold same_shape; auto 12|]. unfold ntypes at 1, gtype. cbn [types].
  destruct (Nat.eqb_spec t (ntypes g - 1)) as [->|N].
  - split; [rewrite firstn_length; unfold ntypes in *; lia|]. intros t' H'. unfold ntypes in H' at 1. cbn [types] in H'. rewrite firstn_length in H'. intros _.
    clear - H'. assert (t' < ntypes g - 1) by lia. clear H'. revert H. generalize (ntypes g - 1) as m. revert t'.
    induction (types g) as [|a l IH]; intros t' [|m] H; cbn; try lia; destruct t'; auto. apply IH. lia.
  - split; [rewrite upd_length; auto|]. intros t' _ N'. apply nth_error_upd_neq. auto.
Qed.

(** constructEdges only looks at the number of types *)
Definition set_types (g : graph) (ts : list etd) : graph :=
  mkGraph (hyper g) (nlv g) (ngv g) (lunmap g) (lwgts g) (gunmap g) (vmap g) ts (owners g) (self g).
Lemma core_types g ts a b ids degs pv ws g1 k : construct_core g a b ids degs pv ws = Some (g1, k) -> length ts < 7 ->
  exists ed, construct_core (set_types g ts) a b ids degs pv ws = Some (set_types g1 (ts ++ [ed]), length ts) /\ types g1 = types g ++ [ed].
Proof.
  unfold construct_core. intros H L. destruct (ntypes g =? 7); [discriminate|].
  unfold ntypes, set_types. cbn [hyper nlv ngv lunmap lwgts gunmap vmap types owners self].
  destruct (Nat.eqb_spec (length ts) 7); [lia|]. revert H.
  destruct (aset (anew (a + 1)) 0 0) as [pd0|]; [|discriminate]. cbn [obind].
  destruct (foldM (edge1 (hyper g) (nlv g) ids degs pv) (seq 0 a) _) as [[[[em eu] pd] q]|]; [|discriminate]. cbn [obind].
  destruct (prefix_sums (nlv g) (p_deg q)) as [deg|]; [|discriminate]. cbn [obind].
  destruct (aget deg (nlv g)) as [tt|]; [|discriminate]. cbn [obind].
  destruct (grow_ghosts (gunmap g) (p_ng q) (p_ng q - ngv g)) as [gu|]; [|discriminate]. cbn [obind].
  destruct (foldM (edge2 (hyper g) (nlv g) pv (p_pins q) pd) (seq 0 a) _) as [[[el tc] gu']|]; [|discriminate]. cbn [obind].
  destruct ws as [w|]; [|discriminate]. cbn [obind]. intros H. inversion H; subst g1. eexists. split; [|reflexivity]. reflexivity.
Qed.

Lemma add_after_remove me hg verts vws tys g t g' es ws : constructed me hg verts vws tys g -> removeEdges g t = Some g' -> ntypes g' < 7 ->
  (hg = false -> forall e, In e es -> length (snd e) = 2) -> ws = [] \/ length ws = length es ->
  exists g'', constructEdges g' (map fst es) (map (@length Z) (pins_of es)) (concat (pins_of es)) ws = Some (g'', ntypes g') /\
    (forall t', t' < ntypes g' -> gtype g'' t' = gtype g' t').
Proof.
  intros HC Hr L H2 Hw. destruct (constructed_rep _ _ _ _ _ _ HC) as (HR & Hh & _).
  assert (Hwf : wf_edges (hyper g) es).
  { intros E. apply Forall_forall. intros ps Hps. apply in_map_iff in Hps as (e & <- & He). apply H2; auto. congruence. }
  assert (Eg : g' = set_types g (types g')).
  { unfold removeEdges in Hr. destruct (t <? ntypes g); [|discriminate]. inversion Hr. reflexivity. }
  set (g0 := set_types g []).
  assert (HR0 : Rep g0 verts (vws ++ repeat 1%Z (length verts - length vws)) (ghosts_of verts tys) []).
  { destruct HR. constructor; auto. constructor. }
  destruct (constructEdges_ok g0 _ _ _ _ es ws HR0 Hwf Hw ltac:(cbn; lia)) as (g1 & E1 & _).
  unfold constructEdges in *. rewrite !map_length in *. unfold epins_of, pins_of in *. rewrite !map_length in *. rewrite Nat.eqb_refl in *.
  destruct (core_types _ (types g') _ _ _ _ _ _ _ _ E1 L) as (ed & E2 & _).
  exists (set_types g1 (types g' ++ [ed])). split.
  - rewrite Eg at 1. unfold set_types at 2 in E2. unfold g0 in E2. unfold set_types at 1. cbn [hyper nlv ngv lunmap lwgts gunmap vmap owners self types] in *.
    unfold set_types in *. cbn [hyper nlv ngv lunmap lwgts gunmap vmap owners self types] in *. exact E2.
  - intros t' H'. unfold gtype. cbn [set_types types]. apply nth_error_app1. exact H'.
Qed.

Lemma foldM_const_fill (w : Z) l n : length l = n -> foldM (fun a i => aset a i w) (seq 0 n) (ainit l) = Some (ainit (repeat w n)).
Proof.
  intros L. destruct (foldM_inv (fun (a : arr Z) i => aset a i w) (fun pre (a : arr Z) => length a = n /\ forall k, k < length pre -> aget a k = Some w)
    (seq 0 n) (ainit l)) as (a & E & La & H).
  - split; [rewrite ainit_length; auto|]. cbn. lia.
  - intros pre x post a Hs (La & H).
    assert (L1 : length pre < n) by (rewrite <- (seq_length n 0), Hs, app_length; simpl; lia).
    assert (Ex : nth_error (seq 0 n) (length pre) = Some x) by (rewrite Hs, nth_error_app2, Nat.sub_diag; auto).
    rewrite nth_error_seq in Ex by auto. inversion Ex; subst x. cbn [Nat.add]. rewrite aset_some by lia. eexists. split; [reflexivity|].
    rewrite upd_length, app_length. split; auto. cbn. intros k Hk. destruct (Nat.eq_dec (length pre) k) as [<-|N].
    + rewrite aget_upd_eq; auto; lia.
    + rewrite aget_upd_neq by auto. apply H. lia.
  - rewrite E. f_equal. rewrite seq_length in H. apply nth_error_ext. intros k. unfold ainit. rewrite nth_error_map.
    destruct (Nat.lt_ge_cases k n) as [Lk|Lk].
    + rewrite nth_error_repeat_lt by auto. specialize (H k Lk). unfold aget in H. destruct (nth_error a k) as [[?|]|]; try discriminate. cbn. congruence.
    + rewrite !(proj2 (nth_error_None _ k)); auto; rewrite ?repeat_length; auto. lia.
Qed.

Lemma setEdgeWeights_spec me hg verts vws tys g t es ws w : constructed me hg verts vws tys g -> nth_error tys t = Some (es, ws) ->
  exists g', setEdgeWeights_const g w t = Some g' /\ same_shape g g' /\ ntypes g' = ntypes g /\
   (forall t', t' <> t -> gtype g' t' = gtype g t') /\
   (forall i, i < length es -> eweight g' (getEdge (ntypes g') i t) = Some w) /\
   (forall i fuel, egid g' (getEdge (ntypes g') i t) = egid g (getEdge (ntypes g) i t) /\ edge_pins g' (getEdge (ntypes g') i t) fuel = edge_pins g (getEdge (ntypes g) i t) fuel) /\
   (forall v fuel, vertex_edges g' v t fuel = vertex_edges g v t fuel).
Proof.
  intros HC Ht. destruct (constructed_rep _ _ _ _ _ _ HC) as (HR & Hh & _).
  destruct (gtype_ok _ _ _ _ _ HR _ _ _ (nth_eff _ _ _ _ Ht)) as (ed & E & HE & Hlt).
  unfold setEdgeWeights_const. rewrite E. cbn [obind]. rewrite (er_wgts _ _ _ _ _ _ HE), (er_num _ _ _ _ _ _ HE).
  rewrite foldM_const_fill by (apply (er_wlen _ _ _ _ _ _ HE)). cbn [obind]. eexists. split; [reflexivity|].
  set (g' := mkGraph _ _ _ _ _ _ _ _ _ _).
  assert (Hnt : ntypes g' = ntypes g) by (unfold g', ntypes; cbn [types]; apply upd_length).
  assert (Hg : gtype g' t = Some (mkEtd (length es) (e_npins ed) (e_map ed) (e_unmap ed) (ainit (repeat w (length es))) (e_deg ed) (e_list ed) (e_pdeg ed) (e_pins ed))).
  { unfold gtype, g'. cbn [types]. apply nth_error_upd_eq. exact Hlt. }
  split; [unfold same_shape, g'; cbn; auto 12|]. split; auto. split.
  { intros t' N. unfold gtype, g'. cbn [types]. apply nth_error_upd_neq. auto. }
  split; [|split].
  - intros i Hi. unfold eweight. rewrite edec_getEdge by lia. cbn [obind]. rewrite Hg. cbn [obind e_wgts]. rewrite aget_ainit. now apply nth_error_repeat_lt.
  - intros i fuel. rewrite Hnt. split.
    + unfold egid. rewrite Hnt, !edec_getEdge by lia. cbn [obind]. rewrite Hg, E. reflexivity.
    + assert (Hu : u_of g' (getEdge (ntypes g) i t) = u_of g (getEdge (ntypes g) i t)).
      { unfold u_of. rewrite Hnt, edec_getEdge by auto. cbn [obind]. unfold u_lid. rewrite Hg, E. reflexivity. }
      assert (Hp : pins_begin g' (getEdge (ntypes g) i t) = pins_begin g (getEdge (ntypes g) i t)).
      { unfold pins_begin. rewrite Hu, Hnt, edec_getEdge by auto. cbn [obind]. rewrite Hg, E. reflexivity. }
      unfold edge_pins. rewrite Hp. destruct (pins_begin g (getEdge (ntypes g) i t)) as [it|]; auto. cbn [obind].
      apply drain_ext. intros [t' loc fin|loc fin]; cbn [pit_step]; auto. destruct (loc =? fin); auto.
      destruct (Nat.eq_dec t' t) as [->|N]; [rewrite Hg, E; reflexivity|].
      replace (gtype g' t') with (gtype g t'); auto. unfold gtype, g'. cbn [types]. symmetry. apply nth_error_upd_neq. auto.
  - intros v fuel. unfold vertex_edges, eit_vertex. destruct (vlid v) as [l|] eqn:Ev; auto. cbn [obind].
    rewrite Hg, E. cbn [obind e_deg]. assert (Hd : vdegree g' v t = vdegree g v t) by (unfold vdegree; rewrite Ev; cbn [obind]; rewrite Hg, E; reflexivity).
    rewrite Hd, Hnt. destruct (aget (e_deg ed) l) as [o|]; auto. cbn [obind]. destruct (vdegree g v t) as [d|]; auto. cbn [obind]. clear Hd.
    revert o d. induction fuel as [|f IH]; intros o d; auto. cbn [drain]. destruct d as [|d].
    + rewrite !eit_end. reflexivity.
    + rewrite <- Hnt at 1. rewrite !eit_next by lia. rewrite Hnt, Hg, E. change (hyper g') with (hyper g). cbn [obind e_list].
      destruct (hyper g && negb false).
      * destruct (aget (e_list ed) o); auto. cbn [obind]. now rewrite IH.
      * cbn [obind]. now rewrite IH.
Qed.

Lemma setEdgeWeights_vec_fails me hg verts vws tys g t es ws nws : constructed me hg verts vws tys g -> nth_error tys t = Some (es, ws) ->
  setEdgeWeights_vec g nws t = None.
Proof.
  intros HC Ht. destruct (constructed_rep _ _ _ _ _ _ HC) as (HR & Hh & _).
  destruct (gtype_ok _ _ _ _ _ HR _ _ _ (nth_eff _ _ _ _ Ht)) as (ed & E & HE & Hlt).
  unfold setEdgeWeights_vec. rewrite E. cbn [obind]. unfold allocated. rewrite (er_dlen _ _ _ _ _ _ HE).
  destruct (Nat.eqb_spec (length verts + 1) 0); [lia|]. reflexivity.
Qed.
