(** What one part of a hypergraph keeps and sends during migration. *)
From Verif Require Import Base GraphModel CsrProofs ConstructProofs GraphSpec AccessProofs AccessProofs2 GraphTop3 Comm TagModel TagProps MigrateModel MigrateSpec MigrateProofs1 MigrateProofs2.

Lemma filter_map A B (f : A -> B) p l : filter p (map f l) = map f (filter (fun x => p (f x)) l).
Proof. induction l as [|a l IH]; cbn; auto. destruct (p (f a)); cbn; now rewrite IH. Qed.
Lemma filter_all A (p : A -> bool) l : (forall x, In x l -> p x = true) -> filter p l = l.
Proof. induction l as [|a l IH]; intros H; cbn; auto. rewrite (H a) by (cbn; auto). rewrite IH; auto. intros; apply H; cbn; auto. Qed.
Lemma combine_nth_error A B (l : list A) (l' : list B) i a b : nth_error l i = Some a -> nth_error l' i = Some b -> nth_error (combine l l') i = Some (a, b).
Proof. revert l' i. induction l as [|x l IH]; intros [|y l'] [|i]; cbn; intros H H'; try discriminate; [congruence|now apply IH]. Qed.
Lemma combine_nth_inv A B (l : list A) (l' : list B) i a b : nth_error (combine l l') i = Some (a, b) -> nth_error l i = Some a /\ nth_error l' i = Some b.
Proof. revert l' i. induction l as [|x l IH]; intros [|y l'] [|i]; cbn; intros H; try discriminate; [inversion H; auto|now apply IH]. Qed.
Lemma mapM_seq_nth X Y (f : nat -> option Y) (l : list X) (k : X -> Y) : (forall i x, nth_error l i = Some x -> f i = Some (k x)) ->
  mapM f (seq 0 (length l)) = Some (map k l).
Proof.
  intros H. assert (G : forall m a, (forall i x, nth_error m i = Some x -> f (a + i) = Some (k x)) -> mapM f (seq a (length m)) = Some (map k m)).
  { clear. induction m as [|x m IH]; intros a H; cbn; auto. rewrite <- (Nat.add_0_r a) at 1. rewrite (H 0 x eq_refl). cbn. rewrite IH; auto.
    intros i y Hi. rewrite <- (H (S i) y Hi). f_equal. lia. }
  apply (G l 0). exact H.
Qed.

Section Part2.
Variables (g : graph) (verts wts ghosts : list Z) (tys : list (list (Z * list Z) * list Z)) (ow : Z -> Z) (r : nat) (oo : list Z).
Hypothesis HR : Rep g verts wts ghosts tys.
Hypothesis HO : RepO g ghosts ow.
Hypothesis HH : hyper g = true.
Hypothesis HS : self g = Z.of_nat r.
Hypothesis HL : length oo = length verts.
Notation all := (verts ++ ghosts).
Notation hd v := (S (idx (verts ++ ghosts) v)).
Notation own_now := (own_now verts ow r).
Variables (plan : mplan) (mv : list Z) (dst : Z -> nat).
Hypothesis HP : PlanV verts ghosts plan mv dst.
Hypothesis HM : forall v, In v mv <-> In v verts /\ dst v <> r.
Notation st := (mkMP g (ainit oo) plan).
Definition vrec (v : Z) : Z * (Z * Z) := (v, (nth (idx verts v) wts 0, nth (idx verts v) oo 0)%Z).
Definition newown (v : Z) : Z := if memZ v mv then Z.of_nat (dst v) else own_now v.
Notation moved e := (existsb (fun v => memZ v mv) (snd e)).

Lemma ndv : NoDup verts. Proof. pose proof (rp_nd _ _ _ _ _ HR) as N. apply NoDup_app_iff in N. tauto. Qed.
Lemma recs_eq : combine verts (combine wts oo) = map vrec verts.
Proof.
  apply nth_error_ext. intros i. rewrite nth_error_map. destruct (nth_error verts i) as [v|] eqn:Ev.
  - cbn. unfold vrec. rewrite (nth_idx _ _ _ ndv Ev). pose proof (rp_wlen _ _ _ _ _ HR) as LW.
    assert (L : i < length verts) by (apply nth_error_Some; congruence).
    apply combine_nth_error; auto. apply combine_nth_error; apply nth_error_nth'; lia.
  - cbn. apply nth_error_None in Ev. apply nth_error_None. rewrite !combine_length. lia.
Qed.
Lemma vrec_read h v : In v verts -> h = hd v -> vgid g h = Some v /\ vweight g h = Some (fst (snd (vrec v))) /\ originalOwner g (ainit oo) h = Some (snd (snd (vrec v))).
Proof.
  intros Hv ->. pose proof (idx_lt _ _ Hv) as L. rewrite idx_app by auto. split; [|split].
  - rewrite <- (idx_app verts ghosts v Hv). apply (vgid_idx _ _ _ _ _ HR). apply in_app_iff; auto.
  - cbn. apply (vweight_ok _ _ _ _ _ _ _ HR). apply nth_error_nth'. rewrite (rp_wlen _ _ _ _ _ HR). auto.
  - unfold originalOwner. cbn [vlid obind]. rewrite (rp_nlv _ _ _ _ _ HR). destruct (Nat.leb_spec (length verts + ngv g) (idx verts v)); [lia|].
    rewrite aget_ainit. cbn. apply nth_error_nth'. lia.
Qed.
Lemma affected_verts_ok : affected_verts st = Some (map (fun v => hd v) mv).
Proof.
  unfold affected_verts. cbn [mp_g mp_plan]. rewrite (plv_send _ _ _ _ _ HP), mapM_map.
  rewrite mapM_some with (h := fun v => (hd v, Z.of_nat (dst v))).
  - cbn [obind]. f_equal. rewrite filter_map, map_map. cbn [fst snd]. f_equal.
    rewrite filter_all; auto. intros v Hv. apply HM in Hv as (_ & Hd). apply negb_true_iff, Z.eqb_neq. rewrite HS. lia.
  - intros v Hv. rewrite (get_v _ _ _ _ _ r oo HR HL plan mv dst v HP Hv). reflexivity.
Qed.
Lemma all_verts_hd : map S (seq 0 (length verts)) = map (fun v => hd v) verts.
Proof.
  apply nth_error_ext. intros i. rewrite !nth_error_map. destruct (nth_error verts i) as [v|] eqn:Ev.
  - assert (i < length verts) by (apply nth_error_Some; congruence). rewrite nth_error_seq by auto. cbn [option_map]. do 2 f_equal.
    symmetry. apply nth_idx; [apply HR|]. now rewrite nth_error_app1.
  - assert (length verts <= i) by (now apply nth_error_None). replace (nth_error (seq 0 (length verts)) i) with (@None nat); auto. symmetry. apply nth_error_None. now rewrite seq_length.
Qed.
Lemma kept_verts_ok fuel : length verts < fuel ->
  kept_verts fuel st = Some (filter (fun x => negb (memZ (fst x) mv)) (combine verts (combine wts oo))).
Proof.
  intros Hf. unfold kept_verts. rewrite affected_verts_ok. cbn [obind mp_g mp_oo]. rewrite (all_verts_ok _ _ _ _ _ HR) by auto. cbn [obind].
  rewrite all_verts_hd, filter_map, mapM_map, recs_eq, filter_map.
  replace (filter (fun x : Z => negb (existsb (Nat.eqb (hd x)) (map (fun v : Z => hd v) mv))) verts) with (filter (fun x => negb (memZ (fst (vrec x)) mv)) verts).
  - apply mapM_some. intros v Hv. apply filter_In in Hv as (Hv & _). destruct (vrec_read (hd v) v Hv eq_refl) as (-> & E2 & E3).
    cbn [obind]. rewrite E2. cbn [obind]. rewrite E3. reflexivity.
  - apply filter_ext_in. intros v Hv. f_equal. cbn [fst vrec]. apply eq_true_iff_eq. rewrite memZ_In, existsb_exists. split.
    + intros Hin. exists (hd v). split; [apply in_map_iff; eauto|]. apply Nat.eqb_refl.
    + intros (h & Hh & Eh). apply Nat.eqb_eq in Eh. apply in_map_iff in Hh as (w & <- & Hw).
      assert (v = w); [|now subst]. apply (idx_inj all); try (apply in_app_iff; left; auto); [now apply HM in Hw|]. lia.
Qed.
Lemma vert_send_ok w : w_part w = st -> vert_send w = Some (map (fun v => (Z.of_nat (dst v), vrec v)) mv).
Proof.
  intros Ew. unfold vert_send. rewrite Ew. cbn [mp_g mp_oo mp_plan]. rewrite (plv_send _ _ _ _ _ HP), mapM_map. apply mapM_some.
  intros v Hv. assert (Hl : In v verts) by (now apply HM in Hv). destruct (vrec_read (hd v) v Hl eq_refl) as (-> & E2 & E3).
  cbn [obind]. rewrite E2. cbn [obind]. rewrite E3. cbn [obind]. rewrite (get_v _ _ _ _ _ r oo HR HL plan mv dst v HP Hv). reflexivity.
Qed.

(* ------- edges kept ------- *)
Lemma keep_edge_ok fuel t es ws i e w : nth_error tys t = Some (es, ws) -> nth_error es i = Some e -> nth_error ws i = Some w -> length (snd e) < fuel ->
  keep_edge fuel st (getEdge (ntypes g) i t) = Some (if moved e then [] else [Mk own_now (e, w)]).
Proof.
  intros Ht Hi Hw Hf. destruct e as (gid, ps). cbn [snd] in *. unfold keep_edge, read_pins. cbn [mp_g mp_plan].
  rewrite (edge_pins_hyper _ _ _ _ _ HR t es ws i gid ps fuel HH Ht Hi Hf). cbn [obind].
  assert (PA : forall v, In v ps -> In v all) by (intros; eapply (pins_in_all _ _ _ _ _ HR); eauto).
  rewrite mapM_map, (mapM_some _ _ _ (fun v => memZ v mv)).
  2: { intros v Hv. apply (has_v _ _ _ _ _ r oo HR HL plan mv dst v HP). auto. }
  cbn [obind].
  assert (X : forall (l : list bool), existsb (fun b => b) l = existsb (fun b => b) l) by reflexivity.
  replace (existsb (fun b : bool => b) (map (fun v => memZ v mv) ps)) with (existsb (fun v => memZ v mv) ps).
  2: { clear. induction ps as [|v ps IH]; cbn; auto. now rewrite IH. }
  destruct (existsb (fun v => memZ v mv) ps); auto.
  rewrite (egid_hyper _ _ _ _ _ t es ws i gid ps HR HH Ht Hi). cbn [obind]. rewrite (eweight_ok _ _ _ _ _ t es ws i w HR Ht Hw). cbn [obind].
  rewrite (edegree_hyper _ _ _ _ _ HR t es ws i gid ps HH Ht Hi). cbn [obind].
  rewrite (edge_pins_hyper_gids _ _ _ _ _ HR t es ws i gid ps Ht Hi). cbn [obind].
  rewrite mapM_map, (mapM_some _ _ _ own_now).
  2: { intros v Hv. apply (owner_v _ _ _ _ _ _ _ HR HO HS). auto. }
  reflexivity.
Qed.
Lemma kept_edges_ok fuel t es ws : nth_error tys t = Some (es, ws) -> length es < fuel -> (forall e, In e es -> length (snd e) < fuel) ->
  kept_edges fuel st t = Some (map (Mk own_now) (filter (fun x => negb (moved (fst x))) (combine es ws))).
Proof.
  intros Ht Hf Hp. unfold kept_edges. cbn [mp_g]. rewrite (all_edges_ok _ _ _ _ _ HR t es ws fuel Ht Hf). cbn [obind].
  rewrite mapM_map.
  assert (LW : length ws = length es).
  { destruct (gtype_ok _ _ _ _ _ HR _ _ _ Ht) as (ed & _ & HE & _). apply (er_wlen _ _ _ _ _ _ HE). }
  replace (length es) with (length (combine es ws)) by (rewrite combine_length; lia).
  rewrite (mapM_seq_nth _ _ _ (combine es ws) (fun x => if moved (fst x) then [] else [Mk own_now x])).
  - cbn [obind]. f_equal. clear. induction (combine es ws) as [|x l IH]; cbn; auto. destruct (moved (fst x)); cbn; now rewrite IH.
  - intros i (e, w) Hx. apply combine_nth_inv in Hx as (Hi & Hw). apply (keep_edge_ok fuel t es ws i e w); auto. apply Hp. eapply nth_error_In; eauto.
Qed.

(* ------- edges sent ------- *)
Variables (es : list (Z * list Z)) (ws : list Z).
Hypothesis H0 : nth_error tys 0 = Some (es, ws).
Notation eh i := (getEdge (ntypes g) i 0).
Lemma LW0 : length ws = length es.
Proof. destruct (gtype_ok _ _ _ _ _ HR _ _ _ H0) as (ed & _ & HE & _). apply (er_wlen _ _ _ _ _ _ HE). Qed.

Lemma affected_edges_ok fuel :
  (forall v, length (flat_map (fun i => match nth_error es i with Some e => snd e | None => [] end) (incident v es)) < fuel) ->
  exists l, affected_edges fuel st = Some l /\ NoDup l /\ forall h, In h l <-> exists i e, h = eh i /\ nth_error es i = Some e /\ moved e = true.
Proof.
  intros Hf. unfold affected_edges. rewrite affected_verts_ok. cbn [obind mp_g]. rewrite mapM_map.
  rewrite (mapM_some _ _ _ (fun v => flat_map (fun i => map (fun _ => eh i) (match nth_error es i with Some e => snd e | None => [] end)) (incident v es))).
  - cbn [obind]. eexists. split; [reflexivity|]. split; [apply NoDup_nodup|]. intros h. rewrite nodup_In, in_concat. split.
    + intros (l & Hl & Hh). apply in_map_iff in Hl as (v & <- & Hv). apply in_flat_map in Hh as (i & Hi & Hh).
      apply (incident_in verts r oo HL es ws LW0) in Hi as (e & He & Hve). rewrite He in Hh. apply in_map_iff in Hh as (x & <- & Hx).
      exists i, e. split; auto. split; auto. apply existsb_exists. exists v. split; auto. now apply memZ_In.
    + intros (i & e & -> & He & Hm). apply existsb_exists in Hm as (v & Hv & Hmv). apply memZ_In in Hmv.
      eexists. split; [apply in_map; exact Hmv|]. apply in_flat_map. exists i. split; [apply (incident_in verts r oo HL es ws LW0); eauto|].
      rewrite He. apply in_map_iff. exists v. auto.
  - intros v Hv. assert (Hl : In v verts) by (now apply HM in Hv).
    apply (adjacent_edges_hyper _ _ _ _ _ HR 0 es ws H0 (idx all v) v fuel HH).
    + rewrite idx_app by auto. now apply idx_nth. + apply Hf.
Qed.
Lemma pack_edge_ok i e w : nth_error es i = Some e -> nth_error ws i = Some w ->
  pack_edge st (eh i) = Some (Mk newown (e, w), nodup Z.eq_dec (map newown (snd e))).
Proof.
  intros Hi Hw. destruct e as (gid, ps). cbn [snd]. unfold pack_edge. cbn [mp_g mp_plan].
  rewrite (eweight_ok _ _ _ _ _ 0 es ws i w HR H0 Hw). cbn [obind]. rewrite HH.
  rewrite (egid_hyper _ _ _ _ _ 0 es ws i gid ps HR HH H0 Hi). cbn [obind].
  rewrite (edegree_hyper _ _ _ _ _ HR 0 es ws i gid ps HH H0 Hi). cbn [obind].
  rewrite (pins_begin_hyper _ _ _ _ _ HR 0 es ws i gid ps HH H0 Hi). cbn [obind].
  pose proof (pins_yields _ _ _ _ _ HR 0 es ws i gid ps H0 Hi 0 ltac:(lia)) as Y. rewrite Nat.add_0_r in Y. cbn [skipn] in Y.
  pose proof (yields_iter_n _ _ _ _ Y) as YI. rewrite map_length in YI. rewrite YI. cbn [obind].
  assert (PA : forall v, In v ps -> In v all) by (intros; eapply (pins_in_all _ _ _ _ _ HR); eauto).
  rewrite mapM_map, (mapM_some _ _ _ newown).
  - cbn [obind]. rewrite (edge_pins_hyper_gids _ _ _ _ _ HR 0 es ws i gid ps H0 Hi). reflexivity.
  - intros v Hv. rewrite (owner_v _ _ _ _ _ _ _ HR HO HS) by auto. cbn [obind]. rewrite (has_v _ _ _ _ _ r oo HR HL plan mv dst v HP) by auto. cbn [obind].
    unfold newown. destruct (memZ v mv) eqn:Em; auto. apply memZ_In in Em. apply (get_v _ _ _ _ _ r oo HR HL plan mv dst v HP Em).
Qed.
Lemma edge_send_ok fuel w : w_part w = st ->
  (forall v, length (flat_map (fun i => match nth_error es i with Some e => snd e | None => [] end) (incident v es)) < fuel) ->
  exists ms, edge_send fuel w = Some ms /\
    forall d m, In (d, m) ms <-> exists x, In x (combine es ws) /\ moved (fst x) = true /\ m = Mk newown x /\ In d (map newown (snd (fst x))).
Proof.
  intros Ew Hf. unfold edge_send. rewrite Ew. destruct (affected_edges_ok fuel Hf) as (l & -> & _ & Hl). cbn [obind].
  assert (LW : length ws = length es).
  { destruct (gtype_ok _ _ _ _ _ HR _ _ _ H0) as (ed & _ & HE & _). apply (er_wlen _ _ _ _ _ _ HE). }
  assert (W : forall i e, nth_error es i = Some e -> exists w, nth_error ws i = Some w).
  { intros i e Hi. assert (i < length es) by (apply nth_error_Some; congruence). destruct (nth_error ws i) eqn:E; eauto. apply nth_error_None in E. lia. }
  assert (M : exists ls, mapM (fun e => '(m, dests) <- pack_edge st e ;; Some (map (fun d => (d, m)) dests)) l = Some ls).
  { apply mapM_forall. intros h Hh. apply Hl in Hh as (i & e & -> & Hi & _). destruct (W i e Hi) as (x & Hx). rewrite (pack_edge_ok i e x Hi Hx). cbn. eauto. }
  destruct M as (ls & M). rewrite M. cbn [obind]. eexists. split; [reflexivity|]. intros d m. rewrite in_concat. split.
  - intros (k & Hk & Hd). apply In_nth_error in Hk as (j & Hj).
    assert (exists h, nth_error l j = Some h) as (h & Hh).
    { destruct (nth_error l j) eqn:E; eauto. apply nth_error_None in E. apply mapM_length in M. assert (j < length ls) by (apply nth_error_Some; congruence). lia. }
    destruct (mapM_nth _ _ _ _ _ _ _ M Hh) as (y & Hy & Ey). assert (y = k) by congruence. subst y.
    apply nth_error_In in Hh. apply Hl in Hh as (i & e & -> & Hi & Hm). destruct (W i e Hi) as (x & Hx). rewrite (pack_edge_ok i e x Hi Hx) in Ey. cbn [obind] in Ey.
    inversion Ey; subst k. apply in_map_iff in Hd as (d' & Ed & Hd). inversion Ed; subst d' m. apply nodup_In in Hd.
    exists (e, x). cbn [fst]. split; [eapply nth_error_In; apply combine_nth_error; eauto|]. auto.
  - intros ((e, x) & Hin & Hm & -> & Hd). cbn [fst] in *. apply In_nth_error in Hin as (i & Hi). apply combine_nth_inv in Hi as (Hi & Hx).
    assert (Hh : In (eh i) l) by (apply Hl; eauto). apply In_nth_error in Hh as (j & Hj).
    destruct (mapM_nth _ _ _ _ _ _ _ M Hj) as (y & Hy & Ey). rewrite (pack_edge_ok i e x Hi Hx) in Ey. cbn [obind] in Ey. inversion Ey; subst y.
    eexists. split; [eapply nth_error_In; exact Hy|]. apply in_map_iff. exists d. split; auto. now apply nodup_In.
Qed.
End Part2.
