(** C61: the N-graph of a distributed mesh (interfaces/apfGraph.cpp, interfaces/dofGraph.cpp). *)
From Verif Require Import Base GraphModel CsrProofs ConstructProofs AccessProofs Comm TagModel TagProps MigrateModel MigrateProofs1 MeshModel MeshProofs1 MeshProofs2 MeshProofs3 MeshProofs4 MeshProofs5 MeshProofs6.
From Verif Require MeshCheck.

(** * Specification *)
(** the primary entities a part owns, in the order of the mesh *)
Definition owned_ids (m : pmesh) : list Z := map fst (filter snd (pm_prim m)).
(** v is the number of a primary entity that some part owns and that is adjacent, there, to its copy of entity x *)
Definition touches (ms : list pmesh) (hs : list hdim) (x v : Z) : Prop :=
  exists p m h e w i, nth_error ms p = Some m /\ nth_error hs p = Some h /\ In (e, w) (h_ents h) /\ en_gid e = x /\ In i (en_adj e) /\ nth_error (pm_prim m) i = Some (v, true).
(** part p has a copy of entity x *)
Definition has_copy (hs : list hdim) (p : nat) (x : Z) : Prop := exists h e w, nth_error hs p = Some h /\ In (e, w) (h_ents h) /\ en_gid e = x.
(** what the functions of the graph interface return on part p; [hss]: for every edge type, the entities on the parts *)
Record right_part (ms : list pmesh) (hss : list (list hdim)) (fuel p : nat) (m : pmesh) (g : graph) (gw : arr Z) : Prop := mkRP {
  rp_self : self g = Z.of_nat p;
  rp_types : ntypes g = length hss;
  (* the vertices are the owned primary entities *)
  rp_verts : exists hv, all_verts g fuel = Some hv /\ mapM (vgid g) hv = Some (owned_ids m) /\
    forall h, In h hv -> vweight g h = Some 1%Z /\ owner g h = Some (Z.of_nat p);
  (* the ghosts are the other primary entities at the entities the part has a copy of; each one knows its owner and the weight it has there *)
  rp_ghosts : exists hg gh, all_ghosts g fuel = Some hg /\ mapM (vgid g) hg = Some gh /\ NoDup gh /\
    (forall v, In v gh <-> ~ In v (owned_ids m) /\ exists hs x, In hs hss /\ has_copy hs p x /\ touches ms hs x v) /\
    (forall h v, In h hg -> vgid g h = Some v -> findGID g v = Some h /\ get_vtag g gw h = Some 1%Z /\
       exists q mq, owner g h = Some (Z.of_nat q) /\ q <> p /\ nth_error ms q = Some mq /\ In v (owned_ids mq));
  (* the hyperedges of a type are the entities of the part; their pins are all the primary entities touching them, on any part *)
  rp_edges : forall t hs h, nth_error hss t = Some hs -> nth_error hs p = Some h ->
    exists he, all_edges g t fuel = Some he /\ mapM (egid g) he = Some (map (fun x => en_gid (fst x)) (h_ents h)) /\ mapM (eweight g) he = Some (map snd (h_ents h)) /\
      forall e x, In e he -> egid g e = Some x -> exists hp l, edge_pins g e fuel = Some hp /\ mapM (vgid g) hp = Some l /\ NoDup l /\ forall v, In v l <-> touches ms hs x v;
  (* the edges of a vertex are the entities adjacent to it *)
  rp_rows : forall t hs h i v, nth_error hss t = Some hs -> nth_error hs p = Some h -> nth_error (pm_prim m) i = Some (v, true) ->
    exists hv he l, findGID g v = Some hv /\ vertex_edges g hv t fuel = Some he /\ mapM (egid g) he = Some l /\ NoDup l /\
      forall x, In x l <-> exists e w, In (e, w) (h_ents h) /\ en_gid e = x /\ In i (en_adj e) }.

(** * Proofs *)
Lemma touches_touch ms hs x v : copies_ok ms hs -> (touches ms hs x v <-> touch ms hs x v).
Proof.
  intros HC. split.
  - intros (p & m & h & e & w & i & H1 & H2 & H3 & H4 & H5 & H6). exists p, m, h, e, w. repeat (split; auto). apply adjl_in. eauto.
  - intros (p & m & h & e & w & H1 & H2 & H3 & H4 & H5). apply adjl_in in H5 as (i & K1 & K2). exists p, m, h, e, w, i. repeat (split; auto).
Qed.
Lemma touch_owned ms hs x v : touch ms hs x v -> exists p m, nth_error ms p = Some m /\ In v (verts_of m).
Proof. intros (p & m & h & e & w & H1 & H2 & H3 & H4 & H5). exists p, m. split; auto. eapply adjl_verts; eauto. Qed.
Lemma total_len ms : length (flat_map verts_of ms) = nsum (map countOwned ms).
Proof. induction ms as [|m ms IH]; [reflexivity|]. cbn [flat_map map]. rewrite app_length, IH. cbn [nsum fold_right]. unfold verts_of, countOwned. now rewrite map_length. Qed.
Lemma owned_bound ms l : NoDup l -> (forall v, In v l -> exists p m, nth_error ms p = Some m /\ In v (verts_of m)) -> length l <= nsum (map countOwned ms).
Proof. intros N H. rewrite <- total_len. apply NoDup_incl_length; auto. intros v I. destruct (H v I) as (p & m & Hp & Iv). apply in_flat_map. exists m. split; auto. eapply nth_error_In; eauto. Qed.
Lemma row_len ms hs p h i row : copies_ok ms hs -> nth_error hs p = Some h -> nth_error (h_down h) i = Some row -> length row <= length (h_ents h).
Proof.
  intros HC Hh Hr. destruct (co_row _ _ HC p h i row Hh Hr) as (N & I). rewrite <- (seq_length (length (h_ents h)) 0). apply NoDup_incl_length; auto. intros k Ik. apply I in Ik as (e & w & He & _). apply in_seq. assert (k < length (h_ents h)) by (apply nth_error_Some; congruence). lia.
Qed.
Lemma mapM_gids g t k0 l : (forall k e w, nth_error l k = Some (e, w) -> egid g (getEdge (ntypes g) (k0 + k) t) = Some (en_gid e) /\ eweight g (getEdge (ntypes g) (k0 + k) t) = Some w) ->
  mapM (egid g) (map (fun i => getEdge (ntypes g) i t) (seq k0 (length l))) = Some (map (fun x : ment * Z => en_gid (fst x)) l) /\
  mapM (eweight g) (map (fun i => getEdge (ntypes g) i t) (seq k0 (length l))) = Some (map snd l).
Proof.
  revert k0. induction l as [|(e, w) l IH]; intros k0 H; [split; reflexivity|]. cbn [length seq map mapM fst snd]. destruct (H 0 e w eq_refl) as (H1 & H2). rewrite Nat.add_0_r in H1, H2. rewrite H1, H2. cbn [obind].
  destruct (IH (S k0)) as (I1 & I2). { intros k e' w' Hk. rewrite Nat.add_succ_comm. apply (H (S k)). exact Hk. }
  rewrite I1, I2. split; reflexivity.
Qed.

Lemma nodup_map_in A B (f : A -> B) l : (forall x y, In x l -> In y l -> f x = f y -> x = y) -> NoDup l -> NoDup (map f l).
Proof.
  intros H N. induction N as [|x l NI N IH]; [constructor|]. cbn [map]. constructor; [|apply IH; intros; apply H; cbn; auto].
  intros I. apply in_map_iff in I as (y & E & Iy). apply NI. replace x with y; auto. apply H; cbn; auto.
Qed.
Section Part.
Variable ms : list pmesh.
Variable hss : list (list hdim).
Variable fuel : nat.
Hypothesis HO : owned_once ms.
Hypothesis HC : forall hs, In hs hss -> copies_ok ms hs.
Hypothesis HF1 : nsum (map countOwned ms) < fuel.
Hypothesis HF2 : forall hs h, In hs hss -> In h hs -> length (h_ents h) < fuel.

Lemma gh_bound p a : AInv ms hss p a -> length (a_gh a) <= nsum (map countOwned ms).
Proof.
  intros HI. apply owned_bound. - pose proof (i_nd _ _ _ _ HI) as N. now apply NoDup_app_iff in N as (_ & N & _).
  - intros v I. apply In_nth_error in I as (j & Hj). destruct (Forall2_nth_l _ _ _ _ _ _ _ (i_own _ _ _ _ HI) Hj) as (o & _ & q & mq & _ & Hq & Iv). eauto.
Qed.
Lemma in_all p a hs h x v : AInv ms hss p a -> In hs hss -> nth_error hs p = Some h -> In x (gids h) -> touch ms hs x v -> In v (verts_of (a_m a) ++ a_gh a).
Proof.
  intros HI Ihs Hh Ix T. apply In_nth_error in Ihs as (t & Ht). destruct (Forall2_nth_l _ _ _ _ _ _ _ (i_types _ _ _ _ HI) Ht) as (ed & _ & h' & Hh' & TI). assert (h' = h) by congruence. subst h'.
  apply In_nth_error in Ix as (u & Hu). destruct (t_pins _ _ _ _ _ TI) as (rows & _ & _ & _ & P4). destruct (P4 u x Hu) as (l & F & (_ & PS)). apply PS in T. apply In_nth_error in T as (k & Hk). destruct (Forall2_nth_r _ _ _ _ _ _ _ F Hk) as (i & _ & Hi). eapply nth_error_In; eauto.
Qed.
Lemma part_ok p a g gw : AInv ms hss p a -> finish a = Some g -> (forall j, j < length (a_gh a) -> aget gw j = Some 1%Z) -> right_part ms hss fuel p (a_m a) g gw.
Proof.
  intros HI HFi HW. pose proof (i_m _ _ _ _ HI) as Hm. pose proof (gh_bound p a HI) as GB.
  assert (VB : length (verts_of (a_m a)) <= nsum (map countOwned ms)). { apply owned_bound; [eapply verts_nodup; eauto|eauto]. }
  assert (Hverts : forall l, incl l (seq 0 (length (verts_of (a_m a) ++ a_gh a))) -> mapM (vgid g) (map S l) = Some (map (fun i => nth i (verts_of (a_m a) ++ a_gh a) 0%Z) l)).
  { induction l as [|i l IH]; intros Hl; [reflexivity|]. cbn [map mapM]. rewrite (f_vgid ms hss p a g HI HFi). rewrite (nth_error_nth' _ 0%Z) by (specialize (Hl i (or_introl eq_refl)); apply in_seq in Hl; lia). cbn [obind]. rewrite IH; [reflexivity|]. intros k Ik. apply Hl. now right. }
  assert (Hseq : forall (l1 l2 : list Z), map (fun i => nth i (l1 ++ l2) 0%Z) (seq (length l1) (length l2)) = l2).
  { intros l1 l2. apply nth_error_ext. intros j. rewrite nth_error_map. destruct (Nat.lt_ge_cases j (length l2)).
    - rewrite nth_error_seq by auto. cbn [option_map]. rewrite app_nth2 by lia. replace (length l1 + j - length l1) with j by lia. symmetry. now apply nth_error_nth'.
    - rewrite (proj2 (nth_error_None l2 j)) by auto. rewrite (proj2 (nth_error_None (seq _ _) j)); auto. now rewrite seq_length. }
  constructor.
  - now rewrite (fin ms hss p a g HI HFi).
  - eapply f_nt; eauto.
  - exists (map S (seq 0 (length (verts_of (a_m a))))). rewrite <- (f_nlv ms hss p a g HI HFi) at 1. split; [apply verts_handles; rewrite (f_nlv ms hss p a g HI HFi); lia|]. split.
    + rewrite Hverts. 2: { intros k I. apply in_seq in I. apply in_seq. rewrite app_length. lia. } f_equal. pose proof (Hseq [] (verts_of (a_m a))) as E. cbn [app length] in E. unfold owned_ids. etransitivity; [|exact E].
      apply map_ext_in. intros i I. apply in_seq in I. now rewrite app_nth1 by lia.
    + intros h I. apply in_map_iff in I as (i & <- & I). apply in_seq in I. split; [eapply f_weight; eauto; lia|eapply f_owner; eauto; lia].
  - exists (map S (seq (length (verts_of (a_m a))) (length (a_gh a)))), (a_gh a). split; [|split; [|split; [|split]]].
    + rewrite <- (f_nlv ms hss p a g HI HFi), <- (f_ngv ms hss p a g HI HFi). apply ghosts_handles. rewrite (f_ngv ms hss p a g HI HFi). lia.
    + rewrite Hverts. 2: { intros k I. apply in_seq in I. apply in_seq. rewrite app_length. lia. } now rewrite Hseq.
    + pose proof (i_nd _ _ _ _ HI) as N. now apply NoDup_app_iff in N as (_ & N & _).
    + intros v. split.
      * intros I. split. { pose proof (i_nd _ _ _ _ HI) as N. apply NoDup_app_iff in N as (_ & _ & N). intros J. exact (N v J I). }
        destruct (i_seen _ _ _ _ HI v I) as (hs & h & x & K1 & K2 & K3 & K4). exists hs, x. split; auto. split; [|now apply touches_touch; auto]. apply in_map_iff in K3 as ((e, w) & E & Ie). exists h, e, w. auto.
      * intros (NI & hs & x & K1 & (h & e & w & K2 & K3 & K4) & T). apply touches_touch in T; auto. assert (J : In v (verts_of (a_m a) ++ a_gh a)).
        { eapply in_all; eauto. unfold gids. apply in_map_iff. exists (e, w). auto. }
        apply in_app_iff in J as [J|J]; auto. exfalso. now apply NI.
    + intros h v I Hv. apply in_map_iff in I as (i & <- & I). apply in_seq in I. set (j := i - length (verts_of (a_m a))). assert (Ei : i = length (verts_of (a_m a)) + j) by lia. rewrite Ei in Hv |- *.
      rewrite (f_vgid ms hss p a g HI HFi) in Hv. split; [eapply f_find; eauto|]. rewrite nth_error_app2 in Hv by lia. replace (length (verts_of (a_m a)) + j - length (verts_of (a_m a))) with j in Hv by lia. split.
      * unfold get_vtag. cbn [vlid obind]. rewrite (f_nlv ms hss p a g HI HFi). destruct (Nat.leb_spec (length (verts_of (a_m a))) (length (verts_of (a_m a)) + j)); [|lia]. replace (length (verts_of (a_m a)) + j - length (verts_of (a_m a))) with j by lia. apply HW. lia.
      * destruct (f_ghost ms hss p a g HI HFi j v Hv) as (q & mq & K1 & K2 & K3 & K4 & _). exists q, mq. auto.
  - intros t hs h Ht Hh. assert (Ihs : In hs hss) by (eapply nth_error_In; eauto). assert (Lh : length (h_ents h) < fuel) by (eapply HF2; eauto; eapply nth_error_In; eauto).
    destruct (f_type ms hss p a g HI HFi t hs Ht) as (h' & ed & Hh' & Ed & TI). assert (h' = h) by congruence. subst h'.
    exists (map (fun i => getEdge (ntypes g) i t) (seq 0 (length (h_ents h)))). destruct (mapM_gids g t 0 (h_ents h)) as (M1 & M2). { intros k e w He. cbn [Nat.add]. eapply f_egid; eauto. }
    split; [rewrite <- (t_num _ _ _ _ _ TI); eapply edges_handles; eauto; rewrite (t_num _ _ _ _ _ TI); auto|]. split; auto. split; auto.
    intros e x Ie Hx. apply in_map_iff in Ie as (k & <- & Ik). apply in_seq in Ik. destruct (nth_error (h_ents h) k) as [(e, w)|] eqn:Ee; [|apply nth_error_None in Ee; lia].
    destruct (f_egid ms hss p a g HI HFi t hs h k e w Ht Hh Ee) as (Eg & _). assert (x = en_gid e) by congruence. subst x.
    destruct (f_pins ms hss p a g HI HFi t hs h k e w fuel Ht Hh Ee) as (hp & l & K1 & K2 & (K3 & K4)).
    { intros l (N & I). eapply Nat.le_lt_trans; [|exact HF1]. apply owned_bound; auto. intros v J. apply I in J. eapply touch_owned; eauto. }
    exists hp, l. split; auto. split; auto. split; auto. intros v. rewrite K4. symmetry. apply touches_touch; auto.
  - intros t hs h i v Ht Hh Hi. assert (Ihs : In hs hss) by (eapply nth_error_In; eauto). assert (Lh : length (h_ents h) < fuel) by (eapply HF2; eauto; eapply nth_error_In; eauto). pose proof (HC hs Ihs) as C.
    destruct (nth_error (h_down h) i) as [row|] eqn:Er. 2: { apply nth_error_None in Er. rewrite (co_down _ _ C p (a_m a) h Hm Hh) in Er. assert (i < length (pm_prim (a_m a))) by (apply nth_error_Some; congruence). lia. }
    pose proof (row_len ms hs p h i row C Hh Er) as RL. destruct (f_row ms hss p a g HI HFi t hs h i v row fuel C Ht Hh Hi Er) as (hv & K1 & K2); [lia|]. destruct (co_row _ _ C p h i row Hh Er) as (NR & IR).
    set (gid_of := fun k => match nth_error (h_ents h) k with Some (e, _) => en_gid e | None => 0%Z end).
    exists hv, (map (fun k => getEdge (ntypes g) k t) row), (map gid_of row). split; auto. split; auto. split; [|split].
    + assert (IR' : forall k, In k row -> exists e w, nth_error (h_ents h) k = Some (e, w)) by (intros k I; apply IR in I as (e & w & E & _); eauto). clear - IR' HI HFi Ht Hh. induction row as [|k row IH]; [reflexivity|]. cbn [map mapM]. destruct (IR' k (or_introl eq_refl)) as (e & w & He).
      destruct (f_egid ms hss p a g HI HFi t hs h k e w Ht Hh He) as (-> & _). cbn [obind]. rewrite IH by (intros; apply IR'; now right). cbn [obind]. unfold gid_of at 2. now rewrite He.
    + apply nodup_map_in; auto. intros k k' Ik Ik' E. apply IR in Ik as (e & w & He & _). apply IR in Ik' as (e' & w' & He' & _). unfold gid_of in E. rewrite He, He' in E. pose proof (co_gid _ _ C p h Hh) as N.
      apply (NoDup_nth_error_inj _ _ k k' (en_gid e) N); unfold gids; rewrite nth_error_map; [rewrite He|rewrite He']; cbn; congruence.
    + intros x. rewrite in_map_iff. split.
      * intros (k & <- & Ik). apply IR in Ik as (e & w & He & Ia). exists e, w. split; [eapply nth_error_In; eauto|]. unfold gid_of. rewrite He. auto.
      * intros (e & w & Ie & <- & Ia). apply In_nth_error in Ie as (k & Hk). exists k. unfold gid_of. rewrite Hk. split; auto. apply IR. eauto.
Qed.
Lemma mesh_graph_ok chk gets (Q : list (graph * arr Z) -> Prop) : length gets = length hss -> nsum (map countOwned ms) <> 0 ->
  (forall t get hs, nth_error gets t = Some get -> nth_error hss t = Some hs -> mapM get ms = Some hs) ->
  (forall rs, length rs = length ms -> (forall p m, nth_error ms p = Some m -> exists g gw a, nth_error rs p = Some (g, gw) /\ AInv ms hss p a /\ a_m a = m /\ finish a = Some g /\ right_part ms hss fuel p m g gw) -> Q rs) ->
  mesh_graph chk gets fuel ms Q.
Proof.
  intros L NZ HG HQ. split; [exact NZ|]. apply primary_ok; auto. intros sts L1 A1. apply (types_ok ms chk HO gets hss []); auto.
  { intros t get hs Hg Hh p m Hm. destruct (mapM_nth _ _ _ _ _ _ _ (HG t get hs Hg Hh) Hm) as (y & Y1 & Y2). exists y. split; congruence. }
  cbn [app]. intros sts' L2 A2. assert (EG : exists gs, mapM finish sts' = Some gs). { apply mapM_forall. intros a _. eexists. reflexivity. } destruct EG as (gs & EG). exists gs. split; auto. pose proof (mapM_length _ _ _ _ _ EG) as LG.
  destruct (Nat.ltb_spec 1 (length ms)) as [LP|LP].
  - apply (ghost_ok ms hss sts' gs fuel L2 A2 EG).
    + intros p a Ha. pose proof (gh_bound p a (A2 p a Ha)). lia.
    + intros rs LR HR. apply HQ; [congruence|]. intros p m Hm. assert (p < length rs) by (rewrite LR, LG, L2; apply nth_error_Some; congruence). destruct (nth_error rs p) as [(g, gw)|] eqn:Er; [|apply nth_error_None in Er; lia].
      destruct (HR p g gw Er) as (a & Ha & Fa & W). pose proof (A2 p a Ha) as HI. pose proof (i_m _ _ _ _ HI). assert (m = a_m a) by congruence. subst m. exists g, gw, a. split; auto. split; auto. split; auto. split; auto. now apply part_ok.
  - apply HQ; [rewrite map_length; congruence|]. intros p m Hm. assert (Lp : p < length ms) by (apply nth_error_Some; congruence). assert (Ls : p < length sts') by lia. apply nth_error_Some in Ls. destruct (nth_error sts' p) as [a|] eqn:Ha; [|congruence].
    destruct (mapM_nth _ _ _ _ _ _ _ EG Ha) as (g & G1 & G2). pose proof (A2 p a Ha) as HI. pose proof (i_m _ _ _ _ HI). assert (m = a_m a) by congruence. subst m. assert (Fa : finish a = Some g) by congruence. exists g, [], a.
    split; [rewrite nth_error_map; match goal with H : nth_error gs p = _ |- _ => rewrite H end; reflexivity|]. split; auto. split; auto. split; auto. apply part_ok; auto.
    intros j Lj. exfalso. apply nth_error_Some in Lj. destruct (nth_error (a_gh a) j) as [v|] eqn:Ev; [|congruence]. destruct (f_ghost ms hss p a g HI Fa j v Ev) as (q & mq & _ & Hq & _ & Ne & _). assert (q < length ms) by (apply nth_error_Some; congruence). lia.
Qed.
End Part.

(** the pairs (entity, primary entity touching it), part by part *)
Definition touch_pairs (m : pmesh) (h : hdim) : list (Z * Z) :=
  flat_map (fun x : (Z * bool) * list nat => if snd (fst x) then map (fun k => (match nth_error (h_ents h) k with Some (e, _) => en_gid e | None => 0%Z end, fst (fst x))) (snd x) else []) (combine (pm_prim m) (h_down h)).
Lemma touch_pairs_len m h : length (touch_pairs m h) = length (concat (orows m h)).
Proof.
  unfold touch_pairs, orows. induction (combine (pm_prim m) (h_down h)) as [|((v, b), r) l IH]; [reflexivity|]. cbn [flat_map filter fst snd]. rewrite app_length, IH. destruct b; cbn [map concat snd length]; [|reflexivity]. now rewrite app_length, map_length.
Qed.
Lemma touch_pairs_in ms hs p m h x v : copies_ok ms hs -> nth_error ms p = Some m -> nth_error hs p = Some h ->
  (In (x, v) (touch_pairs m h) <-> exists e w i, In (e, w) (h_ents h) /\ en_gid e = x /\ In i (en_adj e) /\ nth_error (pm_prim m) i = Some (v, true)).
Proof.
  intros HC Hm Hh. unfold touch_pairs. rewrite in_flat_map. split.
  - intros (((v', b), row) & I & J). cbn [fst snd] in J. destruct b; [|destruct J]. apply in_map_iff in J as (k & E & Ik). apply In_nth_error in I as (i & Hi). apply nth_combine2_inv in Hi as (H1 & H2).
    destruct (co_row _ _ HC p h i row Hh H2) as (_ & IR). apply IR in Ik as (e & w & He & Ia). rewrite He in E. inversion E; subst. exists e, w, i. split; [eapply nth_error_In; eauto|auto].
  - intros (e & w & i & Ie & E & Ia & Hi). assert (Li : i < length (pm_prim m)) by (apply nth_error_Some; congruence). rewrite <- (co_down _ _ HC p m h Hm Hh) in Li. apply nth_error_Some in Li. destruct (nth_error (h_down h) i) as [row|] eqn:Er; [|congruence].
    exists ((v, true), row). split; [eapply nth_error_In; exact (nth_combine2 _ _ _ _ _ _ _ Hi Er)|]. cbn [fst snd]. apply In_nth_error in Ie as (k & Hk). apply in_map_iff. exists k. rewrite Hk. split; [congruence|]. destruct (co_row _ _ HC p h i row Hh Er) as (_ & IR). apply IR. eauto.
Qed.
Lemma touch_pairs_nodup ms hs p m h : owned_once ms -> copies_ok ms hs -> nth_error ms p = Some m -> nth_error hs p = Some h -> NoDup (touch_pairs m h).
Proof.
  intros HO HC Hm Hh. unfold touch_pairs.
  assert (K : forall l, (forall i y, nth_error l i = Some y -> exists j, nth_error (combine (pm_prim m) (h_down h)) j = Some y) -> NoDup (map (fun y : (Z * bool) * list nat => fst (fst y)) (filter (fun y => snd (fst y)) l)) ->
    NoDup (flat_map (fun x : (Z * bool) * list nat => if snd (fst x) then map (fun k => (match nth_error (h_ents h) k with Some (e, _) => en_gid e | None => 0%Z end, fst (fst x))) (snd x) else []) l)).
  { induction l as [|((v, b), row) l IH]; intros HL N; [constructor|]. cbn [flat_map fst snd]. assert (HL' : forall i y, nth_error l i = Some y -> exists j, nth_error (combine (pm_prim m) (h_down h)) j = Some y) by (intros i y Hy; apply (HL (S i) y Hy)).
    destruct b; cbn [filter fst snd map] in N; [|now apply IH]. inversion N as [|? ? NI N' ]; subst. apply NoDup_app_iff. split; [|split; [now apply IH|]].
    - destruct (HL 0 _ eq_refl) as (j & Hj). apply nth_combine2_inv in Hj as (H1 & H2). destruct (co_row _ _ HC p h j row Hh H2) as (NR & IR). apply nodup_map_in; auto. intros k k' Ik Ik' E.
      apply IR in Ik as (e & w & He & _). apply IR in Ik' as (e' & w' & He' & _). rewrite He, He' in E. pose proof (co_gid _ _ HC p h Hh) as NG. apply (NoDup_nth_error_inj _ _ k k' (en_gid e) NG); unfold gids; rewrite nth_error_map; [rewrite He|rewrite He']; cbn; congruence.
    - intros (x, v') I J. apply in_map_iff in I as (k & E & _). inversion E; subst v'. apply in_flat_map in J as (((v2, b2), row2) & Iy & J). cbn [fst snd] in J. destruct b2; [|destruct J]. apply in_map_iff in J as (k2 & E2 & _). inversion E2; subst v2.
      apply NI. apply in_map_iff. exists ((v, true), row2). split; auto. apply filter_In. auto. }
  apply K; [eauto|]. pose proof (verts_nodup ms HO p m Hm) as N. pose proof (co_down _ _ HC p m h Hm Hh) as L. clear - N L. unfold verts_of in N. revert N L. generalize (h_down h). induction (pm_prim m) as [|(v, b) l IH]; intros [|r d] N L; cbn in L; try lia; try (now constructor).
  cbn [combine filter fst snd] in *. destruct b; cbn [map fst snd] in *; [|apply IH; auto]. inversion N as [|? ? NI N']; subst. constructor; [|apply IH; auto].
  intros I. apply NI. apply in_map_iff in I as (((v', b'), r') & E & I). cbn [fst] in E. subst v'. apply filter_In in I as (I & Eb). cbn [fst snd] in Eb. subst b'. apply in_map_iff. exists (v, true). split; auto. apply filter_In. split; auto. eapply in_combine_l; eauto.
Qed.
Lemma flat_nodup A B (f : A -> list B) (l : list A) : (forall i a, nth_error l i = Some a -> NoDup (f a)) -> (forall i j a b x, nth_error l i = Some a -> nth_error l j = Some b -> In x (f a) -> In x (f b) -> i = j) -> NoDup (flat_map f l).
Proof.
  induction l as [|a l IH]; intros H1 H2; [constructor|]. cbn [flat_map]. apply NoDup_app_iff. split; [exact (H1 0 a eq_refl)|]. split.
  - apply IH. + intros i b. exact (H1 (S i) b). + intros i j b c x Hi Hj I J. specialize (H2 (S i) (S j) b c x Hi Hj I J). lia.
  - intros x I J. apply in_flat_map in J as (b & Ib & J). apply In_nth_error in Ib as (j & Hj). specialize (H2 0 (S j) a b x eq_refl Hj I J). lia.
Qed.
Lemma len_flat A B (f : A -> list B) l : length (flat_map f l) = nsum (map (fun a => length (f a)) l).
Proof. induction l as [|a l IH]; [reflexivity|]. cbn [flat_map map nsum fold_right]. rewrite app_length, IH. reflexivity. Qed.
Lemma pairs_total ms hs l : owned_once ms -> copies_ok ms hs -> NoDup l -> (forall x v, In (x, v) l <-> touches ms hs x v) ->
  length l = nsum (map (fun mh => length (touch_pairs (fst mh) (snd mh))) (combine ms hs)).
Proof.
  intros HO HC N I. rewrite <- (len_flat _ _ (fun mh : pmesh * hdim => touch_pairs (fst mh) (snd mh))). apply Permutation_length. apply NoDup_Permutation; auto.
  - apply flat_nodup.
    + intros p (m, h) H. apply nth_combine2_inv in H as (H1 & H2). cbn [fst snd]. eapply touch_pairs_nodup; eauto.
    + intros p q (m, h) (m', h') (x, v) H H' J J'. apply nth_combine2_inv in H as (H1 & H2). apply nth_combine2_inv in H' as (H3 & H4). cbn [fst snd] in *.
      apply (touch_pairs_in ms hs p) in J as (e & w & i & _ & _ & _ & Hi); auto. apply (touch_pairs_in ms hs q) in J' as (e' & w' & i' & _ & _ & _ & Hi'); auto. exact (proj1 (HO p q m m' i i' v H1 H3 Hi Hi')).
  - intros (x, v). rewrite I, in_flat_map. split.
    + intros (p & m & h & e & w & i & H1 & H2 & H3 & H4 & H5 & H6). exists (m, h). split; [eapply nth_error_In; exact (nth_combine2 _ _ _ _ _ _ _ H1 H2)|]. cbn [fst snd]. apply (touch_pairs_in ms hs p); auto. exists e, w, i. auto.
    + intros ((m, h) & J & K). apply In_nth_error in J as (p & Hp). apply nth_combine2_inv in Hp as (H1 & H2). cbn [fst snd] in K. apply (touch_pairs_in ms hs p) in K as (e & w & i & K1 & K2 & K3 & K4); auto. exists p, m, h, e, w, i. repeat (split; auto).
Qed.
Lemma pins_total ms hss gs t hs l : owned_once ms -> copies_ok ms hs -> nth_error hss t = Some hs -> length gs = length ms ->
  (forall p m, nth_error ms p = Some m -> exists g a, nth_error gs p = Some g /\ AInv ms hss p a /\ a_m a = m /\ finish a = Some g) ->
  NoDup l -> (forall x v, In (x, v) l <-> touches ms hs x v) -> apf_global_pins gs t = length l.
Proof.
  intros HO HC Ht L H N I. rewrite (pairs_total ms hs l HO HC N I). unfold apf_global_pins. f_equal. apply nth_error_ext. intros p. rewrite !nth_error_map. destruct (nth_error ms p) as [m|] eqn:Hm.
  - destruct (H p m Hm) as (g & a & Hg & HI & Em & Fa). rewrite Hg. cbn [option_map]. destruct (f_type ms hss p a g HI Fa t hs Ht) as (h & ed & Hh & Ed & TI). rewrite (nth_combine2 _ _ _ _ _ _ _ Hm Hh). cbn [option_map fst snd]. f_equal.
    rewrite Ed, (t_list _ _ _ _ _ TI), Em, touch_pairs_len. apply map_length.
  - assert (E1 : nth_error gs p = None) by (apply nth_error_None; rewrite L; now apply nth_error_None). rewrite E1. assert (E2 : nth_error (combine ms hs) p = None). { apply nth_error_None. rewrite combine_length. apply nth_error_None in Hm. lia. } now rewrite E2.
Qed.

(** * C61: apfGraph *)
(** the entities of dimension t on all the parts, and the mesh is consistent *)
Definition mesh_dim_ok (ms : list pmesh) (t : nat) (hs : list hdim) : Prop := mapM (apf_dim t) ms = Some hs /\ copies_ok ms hs.
(** For every consistent mesh, however it is distributed, every list of secondary dimensions and every arrival order of the messages, the graph is built on every part and the interface
    returns on it: the owned primary entities as vertices of weight 1, as hyperedges the entities of the part with all the primary entities touching them on any part as pins, as edges of a
    vertex exactly the adjacent entities, as ghosts exactly the pins not owned, with their owner and weight; and the reported number of pins is the number of adjacent pairs in the whole mesh. *)
Theorem C61_apf_graph : forall ts hss ms fuel, owned_once ms -> nsum (map countOwned ms) <> 0 -> Forall2 (mesh_dim_ok ms) ts hss ->
  nsum (map countOwned ms) < fuel -> (forall hs h, In hs hss -> In h hs -> length (h_ents h) < fuel) ->
  apfGraph ts fuel ms (fun rs => length rs = length ms /\
    (forall p m, nth_error ms p = Some m -> exists g gw, nth_error rs p = Some (g, gw) /\ right_part ms hss fuel p m g gw) /\
    (forall t hs l, nth_error hss t = Some hs -> NoDup l -> (forall x v, In (x, v) l <-> touches ms hs x v) -> apf_global_pins (map fst rs) t = length l)).
Proof.
  intros ts hss ms fuel HO NZ HT HF1 HF2.
  assert (HC : forall hs, In hs hss -> copies_ok ms hs). { intros hs I. apply In_nth_error in I as (t & Ht). destruct (Forall2_nth_r _ _ _ _ _ _ _ HT Ht) as (t0 & _ & _ & C). exact C. }
  unfold apfGraph. apply (mesh_graph_ok ms hss fuel HO HC HF1 HF2); auto.
  - rewrite map_length. exact (Forall2_len _ _ _ _ _ HT).
  - intros t get hs Hg Hh. rewrite nth_error_map in Hg. destruct (nth_error ts t) as [t0|] eqn:E; [|discriminate]. cbn [option_map] in Hg. destruct (Forall2_nth_l _ _ _ _ _ _ _ HT E) as (hs' & Hh' & M & _). assert (hs' = hs) by congruence. subst hs'. assert (get = apf_dim t0) by congruence. now subst.
  - intros rs L H. split; auto. split.
    + intros p m Hm. destruct (H p m Hm) as (g & gw & a & K1 & _ & _ & _ & K). eauto.
    + intros t hs l Hh N I. apply (pins_total ms hss (map fst rs) t hs l HO); auto; [apply HC; eapply nth_error_In; eauto|now rewrite map_length|].
      intros p m Hm. destruct (H p m Hm) as (g & gw & a & K1 & K2 & K3 & K4 & _). exists g, a. rewrite nth_error_map, K1. auto.
Qed.
Print Assumptions C61_apf_graph.

(** the reported number of hyperedges of a dimension is the number of its entities in the whole mesh, when each is owned by one of its copies *)
Theorem C61_global_edges : forall ms t hs l, mesh_dim_ok ms t hs ->
  (forall p x, has_copy hs p x -> exists q h e w, nth_error hs q = Some h /\ In (e, w) (h_ents h) /\ en_gid e = x /\ en_owned e = true) ->
  (forall p q h h' e e' w w', nth_error hs p = Some h -> nth_error hs q = Some h' -> In (e, w) (h_ents h) -> In (e', w') (h_ents h') -> en_gid e = en_gid e' -> en_owned e = true -> en_owned e' = true -> p = q) ->
  NoDup l -> (forall x, In x l <-> exists p, has_copy hs p x) -> apf_global_edges ms t = length l.
Proof.
  intros ms t hs l (HM & HC) H1 H2 N I. set (own := fun h : hdim => map (fun x : ment * Z => en_gid (fst x)) (filter (fun x => en_owned (fst x)) (h_ents h))).
  assert (E : apf_global_edges ms t = length (flat_map own hs)).
  { rewrite len_flat. unfold apf_global_edges. f_equal. clear - HM. revert hs HM. induction ms as [|m ms IH]; intros hs HM; cbn [mapM] in HM; [inversion HM; reflexivity|].
    destruct (apf_dim t m) as [h|] eqn:E; [|discriminate]. cbn [obind] in HM. destruct (mapM (apf_dim t) ms) as [r|] eqn:Er; [|discriminate]. cbn [obind] in HM. inversion HM; subst hs. cbn [map]. f_equal; [|apply IH; auto].
    unfold apf_dim in E. unfold owned_ents. destruct (nth_error (pm_dims m) t) as [d|]; [|discriminate]. cbn [obind] in E. inversion E; subst h. unfold own. cbn [h_ents]. rewrite map_length. clear. induction (md_ents d) as [|e r IH]; [reflexivity|]. cbn [map filter fst]. destruct (en_owned e); cbn [length]; now rewrite IH. }
  rewrite E. apply Permutation_length. apply NoDup_Permutation; auto.
  - apply flat_nodup.
    + intros p h Hh. apply NoDup_filter_map. exact (co_gid _ _ HC p h Hh).
    + intros p q h h' x Hp Hq J J'. apply in_map_iff in J as ((e, w) & E1 & J). apply in_map_iff in J' as ((e', w') & E2 & J'). apply filter_In in J as (J & O). apply filter_In in J' as (J' & O'). cbn [fst] in *. eapply H2; eauto. congruence.
  - intros x. rewrite I, in_flat_map. split.
    + intros (h & Ih & J). apply In_nth_error in Ih as (p & Hp). apply in_map_iff in J as ((e, w) & E1 & J). apply filter_In in J as (J & _). exists p, h, e, w. auto.
    + intros (p & HX). destruct (H1 p x HX) as (q & h & e & w & K1 & K2 & K3 & K4). exists h. split; [eapply nth_error_In; eauto|]. apply in_map_iff. exists (e, w). split; auto. apply filter_In. auto.
Qed.
Print Assumptions C61_global_edges.

(** the dimensions are accepted exactly when both are dimensions of the mesh, different, and a distributed mesh is divided by its elements *)
Theorem C61_dims : forall peers dim primary second, checkDims peers dim primary second = 0%Z <->
  (0 <= primary <= dim)%Z /\ (0 <= second <= dim)%Z /\ primary <> second /\ (primary = dim \/ (peers <= 1)%Z).
Proof.
  intros. unfold checkDims. destruct (Z.ltb_spec dim primary), (Z.ltb_spec primary 0), (Z.ltb_spec dim second), (Z.ltb_spec second 0); cbn [orb]; try (split; [discriminate|lia]).
  destruct (Z.eqb_spec primary second); [split; [discriminate|lia]|]. destruct (Z.eqb_spec primary dim), (Z.ltb_spec 1 peers); cbn [negb andb]; split; try discriminate; auto; try lia; intros _; repeat split; auto; lia.
Qed.
Print Assumptions C61_dims.

(** ** Example: three quadrilaterals in a row, the third on the second part; vertices (dimension 0) and edges (dimension 1) *)
Definition ex_pos (gs : list Z) (x : Z) : nat := idx gs x.
Definition ex_dim (p : Z) (conn : list (list Z)) (gs shared owned : list Z) : mdim :=
  mkDim (map (fun x => mkEnt x (existsb (Z.eqb x) owned) (if existsb (Z.eqb x) shared then [0; 1]%Z else [p]) (existsb (Z.eqb x) shared)
               (filter (fun i => existsb (Z.eqb x) (nth i conn [])) (seq 0 (length conn)))) gs) (map (map (ex_pos gs)) conn).
Definition ex_mesh : list pmesh :=
  [ mkMesh [(10, true); (11, true)]%Z [ex_dim 0 [[0; 1; 4; 5]; [1; 2; 5; 6]]%Z [0; 1; 2; 4; 5; 6]%Z [2; 6]%Z [0; 1; 2; 4; 5; 6]%Z; ex_dim 0 [[0; 1; 2; 3]; [1; 4; 5; 6]]%Z [0; 1; 2; 3; 4; 5; 6]%Z [5]%Z [0; 1; 2; 3; 4; 6]%Z];
    mkMesh [(12, true)]%Z [ex_dim 1 [[2; 3; 6; 7]]%Z [2; 3; 6; 7]%Z [2; 6]%Z [3; 7]%Z; ex_dim 1 [[5; 7; 8; 9]]%Z [5; 7; 8; 9]%Z [5]%Z [5; 7; 8; 9]%Z] ].
Definition ex_hs (t : nat) : list hdim := match mapM (apf_dim t) ex_mesh with Some hs => hs | None => [] end.
Lemma ex_hss : Forall2 (mesh_dim_ok ex_mesh) [1; 0] [ex_hs 1; ex_hs 0].
Proof. constructor; [|constructor; [|constructor]]; (split; [vm_compute; reflexivity|apply MeshCheck.copies_okb_ok; vm_compute; reflexivity]). Qed.
Example ex_apf : owned_once ex_mesh /\ nsum (map countOwned ex_mesh) = 3 /\ Forall2 (mesh_dim_ok ex_mesh) [1; 0] [ex_hs 1; ex_hs 0] /\
  apfGraph [1; 0] 20 ex_mesh (fun rs => exists g gw g' gw', rs = [(g, gw); (g', gw')] /\ right_part ex_mesh [ex_hs 1; ex_hs 0] 20 0 (nth 0 ex_mesh (mkMesh [] [])) g gw /\
    right_part ex_mesh [ex_hs 1; ex_hs 0] 20 1 (nth 1 ex_mesh (mkMesh [] [])) g' gw').
Proof.
  assert (HO : owned_once ex_mesh) by (apply MeshCheck.owned_onceb_ok; vm_compute; reflexivity). split; auto. split; [vm_compute; reflexivity|]. split; [exact ex_hss|].
  unfold apfGraph. apply (mesh_graph_ok ex_mesh [ex_hs 1; ex_hs 0] 20 HO).
  - intros hs I. apply In_nth_error in I as (t & Ht). destruct (Forall2_nth_r _ _ _ _ _ _ _ ex_hss Ht) as (t0 & _ & _ & C). exact C.
  - apply Nat.ltb_lt. vm_compute. reflexivity.
  - intros hs h [<-|[<-|[]]] I; vm_compute in I; destruct I as [<-|[<-|[]]]; apply Nat.ltb_lt; vm_compute; reflexivity.
  - reflexivity.
  - vm_compute. discriminate.
  - intros [|[|t]] get hs H1 H2; cbn in H1, H2; try discriminate; [| |destruct t; discriminate]; inversion H1; inversion H2; subst; vm_compute; reflexivity.
  - intros rs L H. destruct (H 0 _ eq_refl) as (g & gw & _ & K1 & _ & _ & _ & R1). destruct (H 1 _ eq_refl) as (g' & gw' & _ & K2 & _ & _ & _ & R2). exists g, gw, g', gw'. split; [|split; auto].
    destruct rs as [|r1 [|r2 [|? ?]]]; cbn in L; try lia. cbn in K1, K2. congruence.
Qed.
(** the element 12 of the second part touches vertex 2, of which the first part has a copy: it is a ghost there *)
Example ex_touch : touches ex_mesh (ex_hs 0) 2 12 /\ has_copy (ex_hs 0) 0 2 /\ ~ In 12%Z (owned_ids (nth 0 ex_mesh (mkMesh [] []))).
Proof.
  split; [|split].
  - exists 1. do 2 eexists. exists (mkEnt 2 false [0; 1]%Z true [0]), 1%Z, 0. split; [reflexivity|]. split; [vm_compute; reflexivity|]. vm_compute. auto 10.
  - eexists. exists (mkEnt 2 true [0; 1]%Z true [1]), 1%Z. split; [vm_compute; reflexivity|]. vm_compute. auto 10.
  - vm_compute. intros [H|[H|[]]]; discriminate.
Qed.
Example ex_edges : apf_global_edges ex_mesh 0 = 8 /\ apf_global_edges ex_mesh 1 = 10. Proof. split; vm_compute; reflexivity. Qed.
