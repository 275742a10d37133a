(** Lemmas behind VtkProps.v. *)
From Verif Require Import Base GraphModel CsrProofs ConstructProofs GraphSpec AccessProofs AccessProofs2 CountProofs GraphTop GraphTop2 Comm TagModel TagProps MigrateModel MigrateProofs1 MetricsProofs GraphIOProps VtkModel VtkSpec.
From Coq Require Import QArith Lqa.
Local Open Scope nat_scope.

Lemma map_repeat A B (f : A -> B) x n : map f (repeat x n) = repeat (f x) n.
Proof. induction n as [|n IH]; [reflexivity|cbn; now rewrite IH]. Qed.
(** ** one part *)
Section P.
Variables (me : Z) (hg : bool) (verts vws : list Z) (tys : list type_input) (owns : zmap Z) (g : graph).
Hypothesis HV : valid_input hg verts vws tys.
Hypothesis HB : build_part me hg verts vws tys owns = Some g.
Hypothesis HN : forall v, In v (ghosts_of verts tys) -> part_of me verts owns v <> me.
Notation all := (verts ++ ghosts_of verts tys).
Notation po := (part_of me verts owns).
Notation HR := (proj1 (part_rep _ _ _ _ _ _ _ HV HB)).
Let HC : constructed me hg verts vws tys g := p_constructed _ _ _ _ _ _ _ HV HB.
Let SG : self g = me := p_self _ _ _ _ _ _ _ HV HB.
Let NV : nlv g = length verts := rp_nlv _ _ _ _ _ HR.

Lemma po_here v : In v all -> (Z.eqb (po v) me = here verts v).
Proof.
  intros I. unfold here. destruct (in_dec Z.eq_dec v verts) as [L|L]; [unfold part_of; destruct (in_dec Z.eq_dec v verts); [apply Z.eqb_refl|contradiction]|].
  apply in_app_or in I as [I|I]; [contradiction|]. apply Z.eqb_neq. now apply HN.
Qed.
Lemma own_idx v : In v all -> owner g (S (idx all v)) = Some (po v).
Proof.
  intros I. pose proof (p_owner _ _ _ _ _ _ _ HV HB (idx all v) v (idx_nth _ _ I)) as X. unfold getVertex in X. now rewrite Nat.add_1_r in X.
Qed.
Lemma idx_here v : here verts v = true -> idx all v = idx verts v /\ In v verts.
Proof. unfold here. destruct (in_dec Z.eq_dec v verts); [|discriminate]. split; auto. now apply idx_app. Qed.

Section E.
Variables (es : list edge_input) (ws : list Z).
Hypothesis Ht : nth_error tys 0 = Some (es, ws).
Lemma pins_all i gid ps : nth_error es i = Some (gid, ps) -> incl ps all.
Proof. intros H v Hv. eapply (pins_in_all _ _ _ _ _ HR 0 es (eff_wgts ws (length es))); [apply (nth_eff _ _ _ _ Ht)|eauto|auto]. Qed.

(** *** hypergraphs *)
Section Hy.
Hypothesis HH : hg = true.
Variable fuel : nat.
Lemma pins_of_edge i gid ps : nth_error es i = Some (gid, ps) -> length ps < fuel -> edge_pins g (getEdge (ntypes g) i 0) fuel = Some (map (fun v => S (idx all v)) ps).
Proof. intros H L. eapply (edge_pins_hyper _ _ _ _ _ HR 0 es _ i gid ps); eauto; [rewrite (p_hyper _ _ _ _ _ _ _ HV HB); auto|apply (nth_eff _ _ _ _ Ht)]. Qed.
Lemma local_pins_ok i gid ps : nth_error es i = Some (gid, ps) -> length ps < fuel ->
  local_pins fuel g (getEdge (ntypes g) i 0) = Some (map (fun v => S (idx verts v)) (filter (here verts) ps)).
Proof.
  intros H L. unfold local_pins. rewrite (pins_of_edge i gid ps H L). cbn [obind].
  pose proof (pins_all i gid ps H) as IA. rewrite (mapM_some _ _ _ (fun h => match owner g h with Some o => o | None => 0%Z end)).
  2:{ intros h Hh. apply in_map_iff in Hh as (v & <- & Hv). rewrite own_idx by auto. reflexivity. }
  cbn [obind]. f_equal. rewrite SG. clear H L. induction ps as [|v ps IH]; [reflexivity|]. cbn [map combine filter snd].
  assert (Iv : In v all) by (apply IA; left; auto). rewrite own_idx by auto. rewrite (po_here v Iv). specialize (IH (fun x Hx => IA x (or_intror Hx))).
  destruct (here verts v) eqn:E; [|exact IH]. cbn [map fst]. rewrite IH. rewrite (proj1 (idx_here v E)). reflexivity.
Qed.
Lemma mapM_edges A (f : nat -> option A) (h : nat -> edge_input -> A) : (forall i e, nth_error es i = Some e -> f (getEdge (ntypes g) i 0) = Some (h i e)) ->
  mapM f (map (fun i => getEdge (ntypes g) i 0) (seq 0 (length es))) = Some (map (fun x => h (fst x) (snd x)) (combine (seq 0 (length es)) es)).
Proof.
  intros H. assert (G : forall r k, (forall j e, nth_error r j = Some e -> nth_error es (k + j) = Some e) ->
    mapM f (map (fun i => getEdge (ntypes g) i 0) (seq k (length r))) = Some (map (fun x => h (fst x) (snd x)) (combine (seq k (length r)) r))).
  { induction r as [|e r IH]; intros k Hk; [reflexivity|]. cbn [length seq map mapM combine fst snd]. pose proof (Hk 0 e eq_refl) as He. rewrite Nat.add_0_r in He. rewrite (H k e He). cbn [obind].
    rewrite IH; [reflexivity|]. intros j x Hj. replace (S k + j) with (k + S j) by lia. auto. }
  apply (G es 0). auto.
Qed.
Hypothesis HF : length es < fuel.
Hypothesis HP : forall e, In e es -> length (snd e) < fuel.
Lemma cells_ok : writeCells fuel g = Some (let ls := local_incidences verts es in
    (concat (map (fun x => [length verts + fst x; idx verts (snd x)]) ls), map (fun i => 2 * (i + 1)) (seq 0 (length ls)), repeat 3 (length ls))).
Proof.
  unfold writeCells. rewrite (w_iter_edges _ _ _ _ _ _ HC 0 es ws fuel Ht HF). cbn [obind]. rewrite (p_hyper _ _ _ _ _ _ _ HV HB), HH.
  rewrite (mapM_edges _ _ (fun i e => map (fun v => [length verts + i; idx verts v]) (filter (here verts) (snd e)))).
  - cbn [obind lines]. unfold local_incidences. assert (E : concat (map (fun x : nat * edge_input => map (fun v => [length verts + fst x; idx verts v]) (filter (here verts) (snd (snd x)))) (combine (seq 0 (length es)) es))
      = map (fun x => [length verts + fst x; idx verts (snd x)]) (flat_map (fun x : nat * edge_input => map (pair (fst x)) (filter (here verts) (snd (snd x)))) (combine (seq 0 (length es)) es))).
    { generalize (combine (seq 0 (length es)) es). induction l as [|x l IH]; [reflexivity|]. cbn [map concat flat_map]. rewrite map_app, IH, map_map. reflexivity. }
    rewrite E. cbv zeta. rewrite map_length. reflexivity.
  - intros i (gid, ps) Hi. rewrite (local_pins_ok i gid ps Hi) by (apply (HP (gid, ps)); eapply nth_error_In; eauto). cbn [obind]. unfold elid. rewrite edec_getEdge.
    2:{ destruct (gtype_ok _ _ _ _ _ HR 0 es (eff_wgts ws (length es)) (nth_eff _ _ _ _ Ht)) as (_ & _ & _ & X). exact X. }
    cbn [obind snd]. rewrite (mapM_some _ _ _ (fun h => [i + nlv g; h - 1])).
    + rewrite map_map. f_equal. apply map_ext. intros v. rewrite NV. f_equal; [lia|]. f_equal. lia.
    + intros h Hh. apply in_map_iff in Hh as (v & <- & _). cbn. rewrite Nat.sub_0_r. reflexivity.
Qed.
Lemma numcells_ok : getNumCells fuel g = Some (length (local_incidences verts es)).
Proof.
  unfold getNumCells. rewrite (p_hyper _ _ _ _ _ _ _ HV HB), HH. rewrite (w_iter_edges _ _ _ _ _ _ HC 0 es ws fuel Ht HF). cbn [obind].
  rewrite (mapM_edges _ _ (fun i e => map (fun v => S (idx verts v)) (filter (here verts) (snd e)))).
  - cbn [obind]. f_equal. unfold local_incidences. generalize (combine (seq 0 (length es)) es). induction l as [|x l IH]; [reflexivity|]. cbn [map flat_map nsum fold_right]. unfold nsum in *. cbn [fold_right]. rewrite IH, app_length, !map_length. reflexivity.
  - intros i (gid, ps) Hi. apply local_pins_ok with (gid := gid); auto. apply (HP (gid, ps)). eapply nth_error_In; eauto.
Qed.
End Hy.

(** *** coordinates *)
Section C.
Variables (xyz : Z -> Q * Q * Q) (crd : Z -> Z) (gcs : arr Z).
Lemma vcoord_ok l v : nth_error verts l = Some v -> vcoord g (map crd verts) (S l) = Some (crd v).
Proof.
  intros H. assert (l < length verts) by (apply nth_error_Some; congruence). unfold vcoord. cbn [vlid obind]. rewrite NV. destruct (Nat.leb_spec (length verts) l); [lia|]. now apply map_nth_error.
Qed.
Lemma vpoints_ok fuel : length verts < fuel -> exists vs, all_verts g fuel = Some vs /\ length vs = length verts /\
  mapM (fun v => c <- vcoord g (map crd verts) v ;; let '(x, y, z) := xyz c in Some (Pt x y z)) vs = Some (map (fun v => point_at xyz (crd v)) verts).
Proof.
  intros HF. exists (map S (seq 0 (length verts))). split; [apply (all_verts_ok _ _ _ _ _ HR); auto|]. split; [now rewrite map_length, seq_length|].
  assert (G : forall r k, (forall j v, nth_error r j = Some v -> nth_error verts (k + j) = Some v) ->
    mapM (fun v => c <- vcoord g (map crd verts) v ;; let '(x, y, z) := xyz c in Some (Pt x y z)) (map S (seq k (length r))) = Some (map (fun v => point_at xyz (crd v)) r)).
  { induction r as [|v r IH]; intros k Hk; [reflexivity|]. cbn [length seq map mapM]. pose proof (Hk 0 v eq_refl) as Hv. rewrite Nat.add_0_r in Hv. rewrite (vcoord_ok k v Hv). cbn [obind].
    unfold point_at at 1. destruct (xyz (crd v)) as [[x y] z]. cbn [obind]. rewrite IH; [reflexivity|]. intros j x0 Hj. replace (S k + j) with (k + S j) by lia. auto. }
  apply (G verts 0). auto.
Qed.
Hypothesis HG : forall j v, nth_error (ghosts_of verts tys) j = Some v -> aget gcs j = Some (crd v).
Lemma pin_coord_ok v : In v all -> pin_coord g (map crd verts) gcs (S (idx all v)) = Some (crd v).
Proof.
  intros I. unfold pin_coord. rewrite own_idx by auto. cbn [obind]. rewrite SG, po_here by auto. destruct (here verts v) eqn:E; cbn [negb].
  - destruct (idx_here v E) as (-> & L). apply vcoord_ok. now apply idx_nth.
  - assert (NI : ~ In v verts) by (unfold here in E; destruct (in_dec Z.eq_dec v verts); [discriminate|auto]). cbn [vlid obind]. rewrite NV.
    pose proof (idx_nth _ _ I) as X. destruct (Nat.lt_ge_cases (idx all v) (length verts)) as [L|L].
    + rewrite nth_error_app1 in X by auto. exfalso. apply NI. eapply nth_error_In; eauto.
    + destruct (Nat.ltb_spec (idx all v) (length verts)); [lia|]. rewrite nth_error_app2 in X by auto. now apply HG.
Qed.
Lemma fold_padd ps : forall a, exists s, fold_left (fun c p => padd c (xyz p)) ps a = s /\
  (fst (fst s) == fst (fst a) + qsum (map (fun c => fst (fst (xyz c))) ps) /\ snd (fst s) == snd (fst a) + qsum (map (fun c => snd (fst (xyz c))) ps) /\ snd s == snd a + qsum (map (fun c => snd (xyz c)) ps))%Q.
Proof.
  induction ps as [|p ps IH]; intros a; [exists a; cbn; split; auto; repeat split; ring|]. cbn [fold_left map qsum]. destruct (IH (padd a (xyz p))) as (s & E & A & B & C). exists s. split; auto.
  rewrite A, B, C. destruct a as [[a1 a2] a3]. destruct (xyz p) as [[x y] z]. cbn [padd fst snd]. repeat split; ring.
Qed.
Lemma edge_point_ok fuel i gid ps : hg = true -> nth_error es i = Some (gid, ps) -> length ps < fuel ->
  exists q, edge_point xyz fuel g (map crd verts) gcs (getEdge (ntypes g) i 0) = Some q /\ same_point q (mean xyz (map crd ps)).
Proof.
  intros HH H L. unfold edge_point. rewrite (pins_of_edge HH fuel i gid ps H L). cbn [obind]. pose proof (pins_all i gid ps H) as IA.
  assert (EM : mapM (pin_coord g (map crd verts) gcs) (map (fun v => S (idx all v)) ps) = Some (map crd ps)).
  { clear H L. induction ps as [|v ps IH]; [reflexivity|]. cbn [map mapM]. rewrite pin_coord_ok by (apply IA; left; auto). cbn [obind]. rewrite IH; [reflexivity|]. intros x Hx. apply IA. right; auto. }
  rewrite EM. cbn [obind]. rewrite (edegree_hyper _ _ _ _ _ HR 0 es (eff_wgts ws (length es)) i gid ps); auto; [|rewrite (p_hyper _ _ _ _ _ _ _ HV HB); auto|apply (nth_eff _ _ _ _ Ht)]. cbn [obind].
  eexists. split; [reflexivity|]. destruct (fold_padd (map crd ps) (0, 0, 0)%Q) as (s & -> & A & B & C). destruct s as [[x y] z]. cbn [fst snd] in *. unfold pdiv, mean. destruct ps as [|v ps]; [cbn; exact I|].
  cbn [length Nat.eqb map] in *. cbn [same_point]. rewrite map_length. cbn [length].
  repeat split; [apply Qdiv_comp; [rewrite A|reflexivity]|apply Qdiv_comp; [rewrite B|reflexivity]|apply Qdiv_comp; [rewrite C|reflexivity]]; ring.
Qed.
Lemma points_hyper fuel : hg = true -> length verts < fuel -> length es < fuel -> (forall e, In e es -> length (snd e) < fuel) ->
  exists l, writePoints xyz fuel g (map crd verts) gcs = Some l /\ Forall2 same_point l (map (fun v => point_at xyz (crd v)) verts ++ map (fun e => mean xyz (map crd (snd e))) es).
Proof.
  intros HH HF1 HF2 HF3. destruct (vpoints_ok fuel HF1) as (vs & E1 & _ & E2). unfold writePoints. rewrite E1. cbn [obind]. rewrite E2. cbn [obind].
  rewrite (p_hyper _ _ _ _ _ _ _ HV HB), HH. rewrite (w_iter_edges _ _ _ _ _ _ HC 0 es ws fuel Ht HF2). cbn [obind].
  assert (G : forall r k, (forall j e, nth_error r j = Some e -> nth_error es (k + j) = Some e) ->
    exists l, mapM (edge_point xyz fuel g (map crd verts) gcs) (map (fun i => getEdge (ntypes g) i 0) (seq k (length r))) = Some l /\ Forall2 same_point l (map (fun e => mean xyz (map crd (snd e))) r)).
  { induction r as [|e r IH]; intros k Hk; [exists []; split; [reflexivity|constructor]|]. cbn [length seq map mapM]. pose proof (Hk 0 e eq_refl) as He. rewrite Nat.add_0_r in He. destruct e as (gid, ps).
    destruct (edge_point_ok fuel k gid ps HH He) as (q & Eq & SP); [apply (HF3 (gid, ps)); eapply nth_error_In; eauto|]. rewrite Eq. cbn [obind].
    destruct (IH (S k)) as (l & El & F); [intros j x Hj; replace (S k + j) with (k + S j) by lia; auto|]. rewrite El. exists (q :: l). split; [reflexivity|]. constructor; auto. }
  destruct (G es 0) as (l & El & F); auto. rewrite El. cbn [obind]. eexists. split; [reflexivity|]. apply Forall2_app; auto.
  clear. induction verts as [|v r IH]; constructor; auto. unfold point_at. destruct (xyz (crd v)) as [[x y] z]. cbn. repeat split; reflexivity.
Qed.
Lemma points_trad fuel : hg = false -> length verts < fuel -> writePoints xyz fuel g (map crd verts) gcs = Some (map (fun v => point_at xyz (crd v)) verts).
Proof.
  intros HH HF. destruct (vpoints_ok fuel HF) as (vs & E1 & _ & E2). unfold writePoints. rewrite E1. cbn [obind]. rewrite E2. cbn [obind]. rewrite (p_hyper _ _ _ _ _ _ _ HV HB), HH. reflexivity.
Qed.
End C.

(** *** traditional graphs *)
Lemma cells_trad fuel : hg = false -> local_sources verts es -> length es < fuel ->
  writeCells fuel g = Some (concat (map (fun a => [idx all (fst a); idx all (snd a)]) (csr_order verts es)), map (fun i => 2 * (i + 1)) (seq 0 (length es)), repeat 3 (length es)).
Proof.
  intros HH HS HF. unfold writeCells. rewrite (w_iter_edges _ _ _ _ _ _ HC 0 es ws fuel Ht HF). cbn [obind]. rewrite (p_hyper _ _ _ _ _ _ _ HV HB), HH.
  assert (HC' : constructed me false verts vws tys g) by (rewrite <- HH; exact HC).
  assert (E : mapM (fun e => u <- u_of g e;; v <- v_of g e;; a <- vlid u;; b <- vlid v;; Some [a; b]) (map (fun i => getEdge (ntypes g) i 0) (seq 0 (length es))) = Some (map (fun a => [idx all (fst a); idx all (snd a)]) (csr_order verts es))).
  { pose proof (stored_len _ _ _ _ _ HC' 0 es ws Ht HS) as LS. assert (MM : forall (f : nat -> option (list nat)) (h : nat -> nat) l, mapM f (map h l) = mapM (fun x => f (h x)) l) by (intros f h l; induction l as [|x l IH]; [reflexivity|cbn; now rewrite IH]). rewrite MM. rewrite <- LS. rewrite <- (map_length (fun a => [idx all (fst a); idx all (snd a)])). apply mapM_seq_nth.
    intros j x Hj. rewrite nth_error_map in Hj. assert (Lj : j < length es). { rewrite <- LS. apply nth_error_Some. intros X. change (list (Z * Z)) with (list (Z * Z)) in *. rewrite X in Hj. discriminate. }
    destruct (row_at _ _ _ _ _ HC' 0 es ws Ht HS j Lj) as (l & v & m & w & Hl & Hm & Ej & Hc). rewrite Hc in Hj. injection Hj as <-. cbn [fst snd Nat.add].
    destruct (row_ends _ _ _ _ _ HC' 0 es ws Ht l v m w Hl Hm) as (_ & Hx & Iw). assert (Ll : l < length verts) by (apply nth_error_Some; congruence).
    assert (Hcnt : m < cnt_of l (occ_of g verts (ghosts_of verts tys) es)) by (unfold cnt_of; apply nth_error_Some; congruence).
    rewrite Ej. rewrite (u_of_ok _ _ _ _ _ HR 0 es (eff_wgts ws (length es)) l m); auto; [|apply (nth_eff _ _ _ _ Ht)]. cbn [obind].
    rewrite (v_of_ok _ _ _ _ _ HR 0 es (eff_wgts ws (length es)) l m (idx all w)); auto; [|rewrite (p_hyper _ _ _ _ _ _ _ HV HB); auto|apply (nth_eff _ _ _ _ Ht)]. cbn [obind vlid].
    f_equal. f_equal. symmetry. apply nth_idx; [apply HR|]. now rewrite nth_error_app1. }
  rewrite E. cbn [obind lines]. rewrite map_length, seq_length. reflexivity.
Qed.
End E.

(** *** point data *)
Lemma data_ok fuel tag t es ws : nth_error tys 0 = Some (es, ws) -> length verts < fuel -> length es < fuel -> tag_filled hg (length verts) (length es) tag t ->
  exists d, writePointData fuel g tag t = Some d /\ data_right me hg (length verts) (length es) tag t d.
Proof.
  intros Ht HF1 HF2 HT. unfold writePointData. rewrite (all_verts_ok _ _ _ _ _ HR fuel HF1). cbn [obind]. rewrite (p_hyper _ _ _ _ _ _ _ HV HB). set (vs := map S (seq 0 (length verts))).
  assert (Lv : length vs = length verts) by (unfold vs; now rewrite map_length, seq_length).
  set (eh := map (fun i => getEdge (ntypes g) i 0) (seq 0 (length es))).
  assert (EE : (if hg then all_edges g 0 fuel else Some []) = Some (if hg then eh else [])) by (destruct hg; [apply (w_iter_edges _ _ _ _ _ _ HC 0 es ws fuel Ht HF2)|reflexivity]).
  rewrite EE. cbn [obind]. set (ne := if hg then length es else 0). assert (Le : length (if hg then eh else []) = ne) by (unfold ne, eh; destruct hg; [now rewrite map_length, seq_length|reflexivity]).
  assert (RP : forall A (x : A) B (l : list B), map (fun _ => x) l = repeat x (length l)) by (intros A x B l; induction l as [|b l IH]; [reflexivity|cbn; now rewrite IH]).
  rewrite !RP, Lv, Le.
  assert (TV : forall a, tag = Some a -> length a = length verts -> (forall k, k < length verts -> aget a k <> None) -> exists l, mapM (get_vtag g a) vs = Some l /\ map Some l = a).
  { intros a _ La Fa. assert (G : forall r k, (forall j x, nth_error r j = Some x -> nth_error a (k + j) = Some x) -> (forall x, In x r -> x <> None) -> k + length r = length verts -> exists l, mapM (get_vtag g a) (map S (seq k (length r))) = Some l /\ map Some l = r).
    { induction r as [|x r IH]; intros k Hk Hx Lk; [exists []; split; reflexivity|]. cbn [length seq map mapM]. pose proof (Hk 0 x eq_refl) as H0. rewrite Nat.add_0_r in H0. cbn [length] in Lk.
      destruct x as [x|]; [|exfalso; apply (Hx None); cbn; auto]. assert (GV : get_vtag g a (S k) = Some x). { unfold get_vtag. cbn [vlid obind]. rewrite NV. destruct (Nat.leb_spec (length verts) k); [lia|]. unfold aget. rewrite H0. reflexivity. }
      rewrite GV. cbn [obind]. destruct (IH (S k)) as (l & El & Ml); [intros j y Hj; replace (S k + j) with (k + S j) by lia; auto|intros y Hy; apply Hx; right; auto|lia|]. rewrite El. exists (x :: l). split; [reflexivity|]. cbn. now rewrite Ml. }
    destruct (G a 0) as (l & El & Ml); auto; [|exists l; split; auto; unfold vs; rewrite <- La; exact El]. intros x Hx ->. apply In_nth_error in Hx as (k & Hk). assert (Lk : k < length a) by (apply nth_error_Some; congruence). apply (Fa k); [lia|]. unfold aget. rewrite Hk. reflexivity. }
  assert (T0 : 0 < ntypes g). { destruct (gtype_ok _ _ _ _ _ HR 0 es (eff_wgts ws (length es)) (nth_eff _ _ _ _ Ht)) as (_ & _ & _ & X). exact X. }
  assert (TE : forall a, tag = Some a -> length a = length es -> (forall k, k < length es -> aget a k <> None) -> exists l, mapM (get_etag g a) eh = Some l /\ map Some l = a).
  { intros a _ La Fa. assert (G : forall r k, (forall j x, nth_error r j = Some x -> nth_error a (k + j) = Some x) -> (forall x, In x r -> x <> None) -> k + length r = length es -> exists l, mapM (get_etag g a) (map (fun i => getEdge (ntypes g) i 0) (seq k (length r))) = Some l /\ map Some l = r).
    { induction r as [|x r IH]; intros k Hk Hx Lk; [exists []; split; reflexivity|]. cbn [length seq map mapM]. pose proof (Hk 0 x eq_refl) as H0. rewrite Nat.add_0_r in H0. cbn [length] in Lk.
      destruct x as [x|]; [|exfalso; apply (Hx None); cbn; auto]. assert (GV : get_etag g a (getEdge (ntypes g) k 0) = Some x). { unfold get_etag. rewrite edec_getEdge by auto. cbn [obind]. unfold aget. rewrite H0. reflexivity. }
      rewrite GV. cbn [obind]. destruct (IH (S k)) as (l & El & Ml); [intros j y Hj; replace (S k + j) with (k + S j) by lia; auto|intros y Hy; apply Hx; right; auto|lia|]. rewrite El. exists (x :: l). split; [reflexivity|]. cbn. now rewrite Ml. }
    destruct (G a 0) as (l & El & Ml); auto; [|exists l; split; auto; unfold eh; rewrite <- La; exact El]. intros x Hx ->. apply In_nth_error in Hx as (k & Hk). assert (Lk : k < length a) by (apply nth_error_Some; congruence). apply (Fa k); [lia|]. unfold aget. rewrite Hk. reflexivity. }
  unfold data_right, shown_tag. fold ne. rewrite SG. unfold shows_tag. rewrite (p_hyper _ _ _ _ _ _ _ HV HB).
  destruct tag as [a|]; [|cbn [obind]; eexists; split; [reflexivity|]; rewrite <- repeat_app, app_nil_r; destruct hg; eexists; split; reflexivity].
  destruct t as [| |te].
  - cbn [obind]. eexists; split; [reflexivity|]. rewrite <- repeat_app, app_nil_r. destruct hg; eexists; split; reflexivity.
  - destruct HT as (La & Fa). destruct (TV a eq_refl La Fa) as (l & El & Ml). rewrite El. cbn [obind]. eexists; split; [reflexivity|]. rewrite <- repeat_app. destruct hg; (eexists; split; [reflexivity|]); eexists; (split; [reflexivity|]); rewrite map_app, Ml, map_repeat; reflexivity.
  - destruct hg; [|cbn [obind]; eexists; split; [reflexivity|]; rewrite <- repeat_app, app_nil_r; eexists; split; reflexivity]. destruct te as [|te].
    + destruct (HT eq_refl) as (La & Fa). destruct (TE a eq_refl La Fa) as (l & El & Ml). cbn [obind]. rewrite El. cbn [obind]. eexists; split; [reflexivity|]. rewrite <- repeat_app. eexists; (split; [reflexivity|]); eexists; (split; [reflexivity|]). rewrite map_app, Ml, map_repeat. reflexivity.
    + cbn [obind]. eexists; split; [reflexivity|]. rewrite <- !repeat_app. eexists; (split; [reflexivity|]); eexists; (split; [reflexivity|]). rewrite map_repeat. reflexivity.
Qed.
End P.
