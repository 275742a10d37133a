(** Weight diffusion over all parts of a hypergraph. *)
From Verif Require Import Base GraphModel GraphSpec CsrProofs ConstructProofs GraphTop GraphTop2 AccessProofs Comm TagModel TagProps MetricsModel MetricsProofs MetricsProps SdModel QueueModel QueueProps MigrateModel MigrateSpec MigrateProofs1 MigrateProofs3 SelectorModel SelectorProofs SidesProofs SidesProps WeightMigModel WeightMigProps BalanceProps WBalModel WBalProofs1.
From Verif Require StepProofs MigrateProofs5.
From Coq Require Import Lqa Qround.
Local Open Scope nat_scope.

(** ** construction with other vertex weights *)
Lemma core_weights g x a b ids degs pv ws : construct_core (set_weights g x) a b ids degs pv ws = option_map (fun r => (set_weights (fst r) x, snd r)) (construct_core g a b ids degs pv ws).
Proof.
  unfold construct_core. change (ntypes (set_weights g x)) with (ntypes g). destruct (ntypes g =? 7); [reflexivity|]. change (hyper (set_weights g x)) with (hyper g). change (nlv (set_weights g x)) with (nlv g). change (ngv (set_weights g x)) with (ngv g). change (gunmap (set_weights g x)) with (gunmap g). change (vmap (set_weights g x)) with (vmap g).
  destruct (aset (anew (a + 1)) 0 0) as [pd0|]; [|reflexivity]. cbn [obind].
  destruct (foldM (edge1 (hyper g) (nlv g) ids degs pv) (seq 0 a) _) as [[[[em eu] pd] q]|]; [|reflexivity]. cbn [obind].
  destruct (prefix_sums (nlv g) (p_deg q)) as [deg|]; [|reflexivity]. cbn [obind].
  destruct (aget deg (nlv g)) as [tt|]; [|reflexivity]. cbn [obind].
  destruct (grow_ghosts (gunmap g) (p_ng q) (p_ng q - ngv g)) as [gu|]; [|reflexivity]. cbn [obind].
  destruct (foldM (edge2 (hyper g) (nlv g) pv (p_pins q) pd) (seq 0 a) _) as [[[el tc] gu']|]; [|reflexivity]. cbn [obind].
  destruct ws as [w|]; [|reflexivity]. cbn [obind option_map fst snd]. unfold set_weights. cbn [hyper nlv ngv lunmap lwgts gunmap vmap types owners self]. reflexivity.
Qed.
Lemma call_weights g x ty : call_constructEdges (set_weights g x) ty = option_map (fun r => set_weights r x) (call_constructEdges g ty).
Proof.
  unfold call_constructEdges, constructEdges. destruct (_ =? _); [|reflexivity]. rewrite core_weights. destruct (construct_core g _ _ _ _ _ _) as [[g' k]|]; reflexivity.
Qed.
Lemma verts_weights me hg verts vws ws g : length vws <= length verts -> length ws = length verts -> constructVerts me hg verts vws = Some g -> constructVerts me hg verts ws = Some (set_weights g (ainit ws)).
Proof.
  intros L L' H. unfold constructVerts in *.
  assert (G : forall k lu lw lw' vm r, k <= length verts -> length lu = length verts -> length lw = length verts -> length lw' = length verts -> (forall i, i < k -> aget lw' i = nth_error ws i) ->
    foldM (fun '(lu, lw, vm) i => v <- nth_error verts i ;; lu' <- aset lu i v ;; w <- (if i <? length vws then nth_error vws i else Some 1%Z) ;; lw' <- aset lw i w ;; Some (lu', lw', zset vm v i)) (seq k (length verts - k)) (lu, lw, vm) = Some r ->
    exists lw2, foldM (fun '(lu, lw, vm) i => v <- nth_error verts i ;; lu' <- aset lu i v ;; w <- (if i <? length ws then nth_error ws i else Some 1%Z) ;; lw' <- aset lw i w ;; Some (lu', lw', zset vm v i)) (seq k (length verts - k)) (lu, lw', vm) = Some (fst (fst r), lw2, snd r) /\
      length lw2 = length verts /\ forall i, i < length verts -> aget lw2 i = nth_error ws i).
  { intros k. remember (length verts - k) as m eqn:Em. revert k Em. induction m as [|m IH]; intros k Em lu lw lw' vm r Lk Lu Lw Lw' A; cbn [seq foldM].
    - intros E. inversion E; subst. exists lw'. split; [reflexivity|]. split; auto. intros i Li. apply A. lia.
    - destruct (nth_error verts k) as [v|] eqn:Ev; [|discriminate]. cbn [obind]. rewrite !(aset_some _ lu) by lia. cbn [obind]. destruct (if k <? length vws then nth_error vws k else Some 1%Z) as [w|]; [|discriminate]. cbn [obind].
      rewrite (aset_some _ lw) by lia. cbn [obind]. intros E. destruct (Nat.ltb_spec k (length ws)); [|lia]. destruct (nth_error ws k) as [w'|] eqn:Ew; [|apply nth_error_None in Ew; lia]. cbn [obind]. rewrite (aset_some _ lw') by lia. cbn [obind].
      eapply (IH (Datatypes.S k)); [lia|lia|now rewrite upd_length| |now rewrite upd_length| |exact E]; [now rewrite upd_length|]. intros i Li. destruct (Nat.eq_dec i k) as [->|N]; [rewrite aget_upd_eq by lia; auto|]. rewrite aget_upd_neq by auto. apply A. lia. }
  match type of H with (obind ?x _ = _) => destruct x as [r|] eqn:E; [|discriminate] end. cbn [obind] in H.
  assert (E2 := E). rewrite <- (Nat.sub_0_r (length verts)) in E2 at 1. destruct (G 0 (anew (length verts)) (anew (length verts)) (anew (length verts)) [] r) as (lw2 & E3 & L2 & A); try apply anew_length; try lia; auto.
  rewrite Nat.sub_0_r in E3. match goal with |- obind ?x _ = _ => assert (E4 : x = Some (fst (fst r), lw2, snd r)) by exact E3; rewrite E4 end. cbn [obind]. destruct r as [[lu lw] vm]. cbn [fst snd] in *. inversion H; subst g. unfold set_weights. cbn [hyper nlv ngv lunmap lwgts gunmap vmap types owners self]. do 2 f_equal.
  rewrite firstn_all2 by (unfold ainit; rewrite map_length; lia).
  apply nth_error_ext. intros i. destruct (Nat.lt_ge_cases i (length verts)) as [Li|Gi].
  - specialize (A i Li). unfold aget in A. unfold ainit. rewrite nth_error_map. destruct (nth_error ws i) as [y|] eqn:Ey; [|apply nth_error_None in Ey; lia]. destruct (nth_error lw2 i) as [[z|]|]; cbn in *; congruence.
  - rewrite (proj2 (nth_error_None lw2 i)), (proj2 (nth_error_None (ainit ws) i)); auto; [unfold ainit; rewrite map_length|]; lia.
Qed.
Lemma build_weights me hg verts vws tys owns ws g : length vws <= length verts -> length ws = length verts -> build_part me hg verts vws tys owns = Some g -> build_part me hg verts ws tys owns = Some (set_weights g (ainit ws)).
Proof.
  intros L L' H. unfold build_part, build_graph in *. destruct (constructVerts me hg verts vws) as [g0|] eqn:E0; [|discriminate]. cbn [obind] in H. rewrite (verts_weights _ _ _ _ _ _ L L' E0). cbn [obind].
  assert (G : forall g0, foldM call_constructEdges tys (set_weights g0 (ainit ws)) = option_map (fun r => set_weights r (ainit ws)) (foldM call_constructEdges tys g0)).
  { clear. induction tys as [|ty tys IH]; intros g0; cbn [foldM]; [reflexivity|]. rewrite call_weights. destruct (call_constructEdges g0 ty); cbn [obind option_map]; auto. }
  rewrite G. destruct (foldM call_constructEdges tys g0) as [g1|]; [|discriminate]. cbn [obind option_map] in *. unfold constructGhosts_owners in *. change (gunmap (set_weights g1 (ainit ws))) with (gunmap g1). change (ngv (set_weights g1 (ainit ws))) with (ngv g1).
  destruct (foldM _ (seq 0 (ngv g1)) (anew (ngv g1))) as [ow|]; [|discriminate]. cbn [obind] in *. inversion H; subst g. reflexivity.
Qed.

(** ** the graphs after a weight migration *)
Lemma weight_struct fuel sts (Q : list (graph * flow) -> Prop) : weight_migrate fuel sts Q -> weight_migrate fuel sts (fun sts' => Q sts' /\ forall r s s', nth_error sts r = Some s -> nth_error sts' r = Some s' -> exists ws, fst s' = set_weights (wp_g s) ws).
Proof.
  intros (works & Ew & sent & Es & D & K). exists works. split; auto. exists sent. split; auto. split; auto. intros rcv Dl. destruct (K rcv Dl) as (st' & E' & HQ). exists st'. split; auto. split; auto.
  intros r s s' Hs Hs'. destruct (par2_nth _ _ _ _ _ _ _ _ _ _ E' Hs') as (wk & arr & Hw & Ha & ER). destruct (mapM_nth _ _ _ _ _ _ _ Ew Hs) as (wk' & Hw' & EB). assert (wk' = wk) by congruence. subst wk'.
  assert (G1 : ww_g wk = wp_g s).
  { unfold wm_begin in EB. destruct (wm_read (wp_g s) fuel) as [w0|]; [|discriminate]. cbn [obind] in EB. destruct (wi_run fuel _) as [xs|]; [|discriminate]. cbn [obind] in EB. revert EB.
    assert (X : forall xs st, foldM wm_step xs st = Some wk -> ww_g wk = ww_g st).
    { clear. induction xs as [|x xs IH]; intros st; cbn [foldM]; [intros E; inversion E; auto|]. destruct (wm_step st x) as [st1|] eqn:E; [|discriminate]. cbn [obind]. intros H. rewrite (IH st1 H). destruct x as [[u v] w]. unfold wm_step in E.
      destruct (vgid _ u); [|discriminate]. cbn [obind] in E. destruct (vgid _ v); [|discriminate]. cbn [obind] in E. destruct (vlid u) as [l|]; [|discriminate]. cbn [obind] in E. destruct (aget (ww_ws st) l); [|discriminate]. cbn [obind] in E. destruct (aset (ww_ws st) l _); [|discriminate]. cbn [obind] in E. destruct (owner _ v); [|discriminate]. inversion E; reflexivity. }
    intros EB. now apply X in EB. }
  unfold wm_recv in ER. destruct (foldM wm_recv1 arr wk) as [wk2|] eqn:E2; [|discriminate]. cbn [obind] in ER. inversion ER; subst s'. cbn [fst]. exists (ww_ws wk2). f_equal. rewrite <- G1. revert E2. clear. revert wk.
  induction arr as [|m arr IH]; intros wk; cbn [foldM]; [intros E; inversion E; auto|]. destruct (wm_recv1 wk m) as [w1|] eqn:E; [|discriminate]. cbn [obind]. intros H. rewrite (IH w1 H). unfold wm_recv1 in E. destruct m as [f [a [b w]]]. cbn [snd] in E.
  destruct (findGID _ b); [|discriminate]. cbn [obind] in E. destruct (nlv (ww_g wk) =? 0); [discriminate|]. destruct (aget _ _); [|discriminate]. cbn [obind] in E. destruct (aset _ _ _); [|discriminate]. inversion E; reflexivity.
Qed.

(** ** the plan of one part *)
Section PartPlan.
Variables (D : positive) (ord : list nat -> list nat) (fuel : nat) (me : Z) (p : part_in) (g : graph) (es : list edge_input) (ews : list Z) (targets : cont Q).
Hypothesis Hord : forall c, Permutation (ord c) c.
Hypothesis HV : valid_input true (in_verts p) (in_vws p) (in_tys p).
Hypothesis HB : build_part me true (in_verts p) (in_vws p) (in_tys p) (in_owns p) = Some g.
Hypothesis Ht : nth_error (in_tys p) 0 = Some (es, ews).
Hypothesis HF : length es < fuel.
Hypothesis HFp : forall e, In e es -> length (snd e) < fuel.
Hypothesis Hmine : forall e, In e es -> exists v, In v (snd e) /\ In v (in_verts p).
Hypothesis Hgh : forall v, In v (ghosts_of (in_verts p) (in_tys p)) -> part_of me (in_verts p) (in_owns p) v <> me.
Hypothesis Hws : forall z, In z (in_vws p) -> (0 <= z)%Z.
Notation all := (in_verts p ++ ghosts_of (in_verts p) (in_tys p)).
Notation n := (length (in_verts p)).
Definition home (l : nat) : Z := part_of me (in_verts p) (in_owns p) (gid_of p l).
Lemma wold_nonneg l : (0 <= wold p l)%Z.
Proof.
  unfold wold. destruct (nth_in_or_default l (in_vws p ++ repeat 1%Z (n - length (in_vws p))) 0%Z) as [H| ->]; [|lia]. apply in_app_iff in H as [H|H]; auto. apply repeat_spec in H. lia.
Qed.
Lemma home_self l : l < length all -> (home l = me <-> l < n).
Proof.
  intros L. unfold home. split.
  - intros H. destruct (Nat.lt_ge_cases l n) as [|G]; auto. exfalso. apply (Hgh (gid_of p l)); auto. rewrite app_length in L. unfold gid_of. rewrite app_nth2 by auto. apply nth_In. lia.
  - intros H. unfold part_of. destruct (in_dec Z.eq_dec (gid_of p l) (in_verts p)) as [|N]; auto. exfalso. apply N. now apply gid_local.
Qed.
Definition hpins (e : nat) : list nat := match edge_pins g e fuel with Some l => map pred l | None => [] end.
Lemma hpins_ok i e : nth_error es i = Some e -> hpins (getEdge (ntypes g) i 0) = map (idx all) (snd e) /\ good_edge g fuel n (length all) hpins (getEdge (ntypes g) i 0).
Proof.
  intros Hi. destruct (part_rep _ _ _ _ _ _ _ HV HB) as (R & RO & Hh & Hs). assert (Ie : In e es) by (eapply nth_error_In; eauto). destruct e as [gid ps].
  assert (E : edge_pins g (getEdge (ntypes g) i 0) fuel = Some (map (fun v => S (idx all v)) ps)).
  { eapply (edge_pins_hyper _ _ _ _ _ R); eauto; [eapply nth_eff; eauto|]. apply (HFp (gid, ps)); auto. }
  assert (H1 : hpins (getEdge (ntypes g) i 0) = map (idx all) ps) by (unfold hpins; rewrite E, map_map; reflexivity). split; [exact H1|].
  assert (IA : forall v, In v ps -> In v all). { intros v Hv. apply (c_incl _ _ _ _ _ _ (p_constructed _ _ _ _ _ _ _ HV HB) 0 es ews Ht). apply in_concat. exists ps. split; auto. apply in_map_iff. exists (gid, ps). auto. }
  split; [rewrite H1, map_map; exact E|]. rewrite H1. split.
  - intros l Hl. apply in_map_iff in Hl as (v & <- & Hv). apply idx_lt. auto.
  - destruct (Hmine (gid, ps) Ie) as (v & Hv & Lv). exists (idx all v). split; [now apply in_map|]. rewrite idx_app by auto. now apply idx_lt.
Qed.
Lemma hpins_total : nsum (map (fun e => length (hpins e)) (map (fun x => getEdge (ntypes g) (fst x) 0) (filter (fun x => crosses me (in_verts p) (in_owns p) (snd x)) (combine (seq 0 (length es)) es)))) <= nsum (map (fun e => length (snd e)) es).
Proof.
  rewrite map_map. etransitivity.
  - assert (G : forall (A : Type) (f : A -> nat) (b : A -> bool) l, nsum (map f (filter b l)) <= nsum (map f l)) by (intros A f b l; unfold nsum; induction l as [|x l IH]; cbn; [lia|destruct (b x); cbn; lia]). apply G.
  - rewrite (map_ext_in _ (fun x : nat * edge_input => length (snd (snd x)))).
    + clear. generalize 0. induction es as [|e l IH]; intros k; cbn; [lia|]. specialize (IH (S k)). unfold nsum in *. cbn. lia.
    + intros [i e] H. cbn [fst snd]. assert (Hi : nth_error es i = Some e). { apply In_nth_error in H as (j & Hj). apply combine_nth_inv in Hj as (H1 & H2). assert (j < length es) by (apply nth_error_Some; congruence). rewrite (nth_error_nth' _ 0) in H1 by (rewrite seq_length; auto). rewrite seq_nth in H1 by auto. cbn in H1. inversion H1; subst; auto. }
      rewrite (proj1 (hpins_ok i e Hi)). now rewrite map_length.
Qed.
Lemma hyper_plan : exists plan cs, weight_plan D ord g fuel targets = Some plan /\ plan = wm_made (map hcall cs) /\
  (forall c, In c cs -> fst (fst c) < n /\ n <= snd (fst c) < length all /\ chas targets (home (snd (fst c))) = true /\ exists x, (0 <= x)%Z /\ snd c = (x * Zpos D)%Z) /\
  (forall m, m < n -> (sent_by cs m <= wold p m)%Z) /\ (forall o, (0 <= sent_to home cs o)%Z /\ (sent_to home cs o = 0%Z \/ (units D (sent_to home cs o) <= cget 0%Q targets o)%Q)) /\ length cs <= 10 * nsum (map (fun e => length (snd e)) es).
Proof.
  destruct (C37_hypergraph me (in_verts p) (in_vws p) (in_tys p) (in_owns p) g es ews fuel HV HB Ht HF) as (q & EQ & CC & WQ). set (l := map _ _) in WQ.
  destruct (part_rep _ _ _ _ _ _ _ HV HB) as (R & RO & Hh & Hs).
  destruct (plan_ok D ord g fuel n (length all) home (wold p) hpins targets Hord) with (l := l) (q := q) as (plan & cs & E & Ep & A & B & C & F); auto.
  - apply R.
  - intros k Lk. split; [|rewrite Hs; now apply home_self]. pose proof (p_owner _ _ _ _ _ _ _ HV HB k (gid_of p k)) as X. unfold getVertex in X. rewrite Nat.add_1_r in X. apply X. apply gid_nth; auto.
  - rewrite app_length. lia.
  - intros k Lk. split; [|apply wold_nonneg]. pose proof (vweight_old _ _ _ _ k HV HB Lk) as X. unfold getVertex in X. now rewrite Nat.add_1_r in X.
  - now apply StepProofs.waiting_fits.
  - intros e He. unfold l in He. apply in_map_iff in He as ((i, x) & <- & He). apply filter_In in He as (He & _). cbn [fst]. assert (Hi : nth_error es i = Some x). { apply In_nth_error in He as (j & Hj). apply combine_nth_inv in Hj as (H1 & H2). assert (j < length es) by (apply nth_error_Some; congruence). rewrite (nth_error_nth' _ 0) in H1 by (rewrite seq_length; auto). rewrite seq_nth in H1 by auto. cbn in H1. inversion H1; subst; auto. }
    apply (hpins_ok i x Hi).
  - exists plan, cs. split; auto. split; auto. split; [exact A|]. split; auto. split; auto. unfold pin_total in F. pose proof hpins_total as X. fold l in X. lia.
Qed.
End PartPlan.
