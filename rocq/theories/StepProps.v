(** C57: a whole run of the diffusive balancer. *)
From Verif Require Import Base GraphModel GraphSpec ConstructProofs GraphTop GraphTop2 AccessProofs Comm TagModel TagProps MetricsModel MetricsProofs MetricsProps SdModel SdProps QueueModel MigrateModel MigrateSpec MigrateProofs1 MigrateTop MigrateProps RepartModel SelectorModel SelectorTop SelectorTop2 BalanceProps StepModel StepProofs.
From Verif Require SelectorProps SelectorTop2.
From Coq Require Import Lqa Qround.
Local Open Scope nat_scope.

(** Vocabulary (StepProofs): [settled n V E0 own ps w]: the n parts hold the hypergraph (V, E0), vertex v on part [own v]; [part_weight] (SelectorTop) is the
    weight of the vertices of a part, or of the edges with a pin on it; [suitable]: weights are nonnegative (of edges: at least 1), every edge has fewer than 100
    different pins, and for the distance queue no connected component has fewer than three edges; [lighter]: the part is strictly lighter in the
    dimension and strictly below the limits of the completed dimensions. *)

(** the parts as the user made them *)
Definition started (n : nat) (V : list (Z * (Z * Z))) (E0 : list (edge_input * Z)) (own : Z -> nat) (ps : list pdesc) (w : list (graph * option (arr Z))) : Prop :=
  length ps = n /\ length w = n /\ distributed own V [E0] ps /\ forall r p s, nth_error ps r = Some p -> nth_error w r = Some s ->
    build_part (Z.of_nat r) true (pd_verts p) (pd_vws p) (pd_tys p) (pd_owns p) = Some (fst s) /\
    (snd s = Some (ainit (pd_oo p)) \/ snd s = None /\ pd_oo p = repeat (Z.of_nat r) (length (pd_verts p))).
(** the i-th entry of the list of completed dimensions: the i-th priority and its tolerance; weights that the parts had in some distribution of the
    hypergraph; the limit is the larger of the heaviest part and tolerance times average, and just that when the criterion was met *)
Definition tolerance (inp : dinput) (i : nat) : Q := match nth_error (i_tols inp) i with Some t => t | None => (11 # 10)%Q end.
Definition entry_ok (val : Z -> Q) (inp : dinput) (n : nat) (V : list (Z * (Z * Z))) (E0 : list (edge_input * Z)) (i : nat) (x : done) : Prop :=
  nth_error (i_prio inp) i = Some (dn_dim x) /\ dn_tol x = tolerance inp i /\
  exists own1 ps1 w1 m, settled n V E0 own1 ps1 w1 /\ length (dn_ws x) = n /\ (forall r y, nth_error (dn_ws x) r = Some y -> (y == part_weight val own1 V [E0] r (dn_dim x))%Q) /\
    let target := (dn_tol x * (qsum (dn_ws x) / inject_Z (Z.of_nat n)))%Q in
    is_max (dn_ws x) m /\ (m <= dn_lim x)%Q /\ (target <= dn_lim x)%Q /\ (dn_lim x == m \/ dn_lim x == target)%Q /\ (dn_rc x = 1%Z -> (dn_lim x == target)%Q).

Section Run.
Variables (val : Z -> Q) (fuel : nat) (inp : dinput) (V : list (Z * (Z * Z))) (E0 : list (edge_input * Z)) (n : nat).
Hypothesis SU : suitable val fuel inp V E0.
Hypothesis HP : Forall (fun d => dim_known d /\ heavy val V E0 d) (i_prio inp).
Hypothesis L6 : length (i_prio inp) <= 6.
Notation pw own r d := (part_weight val own V [E0] r d).

(** One step: within tolerance and unchanged; or stopped and unchanged; or a migration of at least one vertex, in which every vertex that moves goes to a
    part that is strictly lighter and has room, and no part is pushed over the limit of a completed dimension. *)
Theorem C57_step : forall own ps w d tol sideTol ds s, settled n V E0 own ps w -> dim_known d -> heavy val V E0 d -> Forall dim_known (map dn_dim ds) -> length ds <= 5 ->
  (forall x q, In x ds -> q < n -> (pw own q (dn_dim x) <= dn_lim x)%Q) -> sd_reach s ->
  runStep val fuel inp d tol sideTol ds s w (fun rc s' w' => sd_reach s' /\
    ((rc = 1%Z /\ w' = w /\ forall r, r < n -> (pw own r d < tol * (qsum (map (fun q => pw own q d) (seq 0 n)) / inject_Z (Z.of_nat n)))%Q) \/
     ((rc = 2%Z \/ rc = 3%Z) /\ w' = w) \/
     (rc = 0%Z /\ exists own' ps', settled n V E0 own' ps' w' /\ (forall x q, In x ds -> q < n -> (pw own' q (dn_dim x) <= dn_lim x)%Q) /\
        (forall v, In v (map fst V) -> own' v <> own v -> own' v < n /\ (pw own (own' v) d < pw own (own v) d)%Q /\ forall x, In x ds -> (pw own (own' v) (dn_dim x) < dn_lim x)%Q) /\
        exists v, In v (map fst V) /\ own' v <> own v))).
Proof.
  intros own ps w d tol sideTol ds s HS Hd HH HK L5 HW SR. eapply runStep_mono; [|apply (runStep_ok val fuel inp V E0 n SU own ps w d tol sideTol ds s HS Hd HH HK L5 HW SR)].
  intros rc s' w' (SR' & [X|[X|(-> & own' & ps' & HS' & HW' & MV & EX)]]); split; auto. right; right. split; auto. exists own', ps'. split; auto. split; auto. split; auto.
  intros v Hv Nv. destruct (MV v Hv) as [A|(A & B & C & D)]; [contradiction|auto].
Qed.

Lemma entries_app i l x : (forall j y, nth_error l j = Some y -> entry_ok val inp n V E0 (i + j) y) -> entry_ok val inp n V E0 (i + length l) x -> forall j y, nth_error (l ++ [x]) j = Some y -> entry_ok val inp n V E0 (i + j) y.
Proof.
  intros A B j y H. destruct (lt_eq_lt_dec j (length l)) as [[L|E]|G].
  - rewrite nth_error_app1 in H by auto. auto.
  - rewrite nth_error_app2, E, Nat.sub_diag in H by lia. inversion H; subst. exact B.
  - exfalso. assert (j < length (l ++ [x])) by (apply nth_error_Some; congruence). rewrite app_length in H0. cbn in H0. lia.
Qed.
Definition done_ok (own : Z -> nat) (ds : list done) : Prop := (forall i x, nth_error ds i = Some x -> entry_ok val inp n V E0 i x) /\ within val V E0 n own ds.
Lemma done_dims ds : (forall i x, nth_error ds i = Some x -> entry_ok val inp n V E0 i x) -> Forall dim_known (map dn_dim ds).
Proof.
  intros H. apply Forall_forall. intros d Hd. apply in_map_iff in Hd as (x & <- & Hx). apply In_nth_error in Hx as (i & Hi). destruct (H i x Hi) as (E & _). eapply Forall_forall in HP; [|eapply nth_error_In; exact E]. apply HP.
Qed.
Lemma dimension_ok own ps w k index step ds : settled n V E0 own ps w -> done_ok own ds -> length ds = index -> index < length (i_prio inp) -> Z.to_nat (i_per inp) < k ->
  dimension val fuel inp k index step ds w (fun step' ds' w' => length ds' = Datatypes.S index /\ exists own' ps', settled n V E0 own' ps' w' /\ done_ok own' ds').
Proof.
  intros HS (HE & HW) Ld Li Lk. destruct (nth_error (i_prio inp) index) as [d|] eqn:Ed; [|apply nth_error_None in Ed; lia]. exists d. split; auto.
  assert (HD : dim_known d /\ heavy val V E0 d) by (eapply Forall_forall in HP; [|eapply nth_error_In; exact Ed]; exact HP). destruct HD as (Hd & HH).
  destruct (sides_all val fuel inp V E0 n SU own ps w HS) as (ss & Es & _). change (match nth_error (i_tols inp) index with Some t => t | None => 11 # 10 end) with (tolerance inp index). exists ss. split; auto.
  eapply diffuse_mono; [|apply (diffuse_ok val fuel inp V E0 n SU k d (tolerance inp index) (averageSides ss) ds 0%Z step sd_new own ps w); auto].
  - intros rc step' w' (own' & ps' & HS' & HW' & BL). destruct (weights_all val fuel inp V E0 n SU own' ps' w' d HS' Hd) as (ws & Ew & Lw & HWs). exists ws. split; auto. split; [rewrite app_length; cbn; lia|].
    exists own', ps'. split; auto.
    pose proof (weights_sum val V E0 n own' d ws Lw HWs) as SW. pose proof (sum_pos val fuel inp V E0 n SU own' ps' w' d HS' Hd HH) as SP.
    assert (NE : ws <> []) by (intros ->; rewrite <- SW in SP; cbn in SP; lra). pose proof (all_max_ok ws NE) as MX. set (m := all_max ws) in *. rewrite Lw.
    set (lim := if qlt m (all_sum ws / inject_Z (Z.of_nat n) * tolerance inp index) then (all_sum ws / inject_Z (Z.of_nat n) * tolerance inp index)%Q else m).
    set (target := (tolerance inp index * (qsum ws / inject_Z (Z.of_nat n)))%Q). assert (TE : (all_sum ws / inject_Z (Z.of_nat n) * tolerance inp index == target)%Q) by (unfold target; rewrite all_sum_qsum; ring).
    assert (LIM : (m <= lim)%Q /\ (target <= lim)%Q /\ (lim == m \/ lim == target)%Q /\ (rc = 1%Z -> (lim == target)%Q)).
    { unfold lim. destruct (qlt m _) eqn:Q0.
      - apply qlt_spec in Q0. split; [lra|]. split; [lra|]. split; [right; exact TE|intros _; exact TE].
      - assert (Q1 : (target <= m)%Q). { destruct (Qlt_le_dec m target) as [L|]; auto. exfalso. rewrite <- TE in L. apply qlt_spec in L. congruence. }
        split; [lra|]. split; [exact Q1|]. split; [left; reflexivity|]. intros E. exfalso. specialize (BL E). destruct MX as (MI & _). apply In_nth_error in MI as (r & Hr). assert (Lr : r < n) by (rewrite <- Lw; apply nth_error_Some; congruence). specialize (BL r Lr). rewrite <- (HWs r _ Hr), <- SW in BL. fold target in BL. lra. }
    clearbody lim. destruct LIM as (M1 & M2 & M3 & M4). split.
    + intros i x Hi. apply (entries_app 0 ds (mkDone d (tolerance inp index) rc ws lim)); auto. cbn [plus]. rewrite Ld. split; [exact Ed|]. split; [reflexivity|]. exists own', ps', w', m. split; [exact HS'|]. split; [exact Lw|]. split; [exact HWs|]. cbn [dn_tol dn_ws dn_lim dn_rc]. fold target. cbv zeta. fold target. split; [exact MX|]. split; [exact M1|]. split; [exact M2|]. split; [exact M3|exact M4].
    + intros x q Hx Lq. apply in_app_iff in Hx as [Hx|[<-|[]]]; [auto|]. cbn [dn_dim dn_lim]. destruct (nth_error ws q) as [y|] eqn:Ey; [|apply nth_error_None in Ey; lia]. rewrite <- (HWs q y Ey). destruct MX as (_ & MX). specialize (MX y (nth_error_In _ _ Ey)). lra.
  - now apply done_dims.
  - lia.
  - exists []. reflexivity.
  - reflexivity.
  - rewrite Z.sub_0_r. exact Lk.
Qed.
Lemma dimensions_ok k : forall own ps w nn index step ds, settled n V E0 own ps w -> done_ok own ds -> length ds = index -> index < length (i_prio inp) -> length (i_prio inp) - index <= k -> Z.to_nat (i_per inp) < nn ->
  dimensions val fuel inp k nn index step ds w (fun step' ds' w' => (length ds' = length (i_prio inp) \/ (i_max inp <= step')%Z) /\ index < length ds' /\ exists own' ps', settled n V E0 own' ps' w' /\ done_ok own' ds').
Proof.
  induction k as [|k IH]; intros own ps w nn index step ds HS HD Ld Li Lk Ln; [lia|]. cbn [dimensions].
  assert (MONO : forall (Q1 Q2 : Z -> list done -> world -> Prop), (forall a b c, Q1 a b c -> Q2 a b c) -> dimension val fuel inp nn index step ds w Q1 -> dimension val fuel inp nn index step ds w Q2).
  { intros Q1 Q2 H (d & E & ss & Es & P). exists d. split; auto. exists ss. split; auto. revert P. apply diffuse_mono. intros a b c (ws & Ew & X). exists ws. auto. }
  eapply MONO; [|apply (dimension_ok own ps w nn index step ds); auto]. intros step' ds' w' (Ld' & own' & ps' & HS' & HD').
  destruct (Datatypes.S index <? length (i_prio inp)) eqn:A; cbn [andb].
  - destruct (step' <? i_max inp)%Z eqn:B.
    + apply Nat.ltb_lt in A. pose proof (IH own' ps' w' nn (Datatypes.S index) step' ds' HS' HD' Ld' A ltac:(lia) Ln) as X.
      assert (DM : forall k' index0 step0 ds0 w0 (Q1 Q2 : Z -> list done -> world -> Prop), (forall a b c, Q1 a b c -> Q2 a b c) -> dimensions val fuel inp k' nn index0 step0 ds0 w0 Q1 -> dimensions val fuel inp k' nn index0 step0 ds0 w0 Q2).
      { clear. induction k' as [|k' IH]; intros index0 step0 ds0 w0 Q1 Q2 H; cbn [dimensions]; auto. intros (d & E & ss & Es & P). exists d. split; auto. exists ss. split; auto. revert P. apply diffuse_mono. intros a b c (ws & Ew & X). exists ws. split; auto. destruct (_ && _); auto. revert X. now apply IH. }
      revert X. apply DM. intros a b c (X1 & X2 & X3). split; auto. split; [lia|auto].
    + apply Z.ltb_ge in B. split; auto. split; [lia|]. eauto.
  - apply Nat.ltb_ge in A. split; [left; lia|]. split; [lia|]. eauto.
Qed.

Lemma original_owners g oo l r : nlv g = length l -> self g = r -> (oo = Some (ainit l) \/ oo = None /\ l = repeat r (length l)) -> setOriginalOwners g oo = Some (ainit l).
Proof.
  intros Hn Hs [->|(-> & E)]; [reflexivity|]. cbn [setOriginalOwners]. rewrite Hn.
  assert (G : forall m a k, k = length a -> foldM (fun x i => aset x i (self g)) (seq k m) (a ++ anew m) = Some (a ++ repeat (Some (self g)) m)).
  { induction m as [|m IH]; intros a k ->; cbn [seq foldM]; [unfold anew; cbn; now rewrite app_nil_r|].
    unfold aset. unfold anew. cbn [repeat]. rewrite app_length. cbn [length]. replace (length a <? length a + Datatypes.S (length (repeat None m))) with true by (symmetry; apply Nat.ltb_lt; lia). cbn [obind].
    pose proof (upd_app_r _ a (None :: repeat None m) 0 (Some (self g))) as U. rewrite Nat.add_0_r in U. rewrite U. cbn [upd]. specialize (IH (a ++ [Some (self g)]) (Datatypes.S (length a))). rewrite <- !app_assoc in IH. cbn [app] in IH. apply IH. rewrite app_length; cbn; lia. }
  specialize (G (length l) [] 0 eq_refl). cbn [app] in G. rewrite G. apply (f_equal Some). rewrite E at 2. unfold ainit. rewrite Hs. clear. generalize (length l) as k. induction k as [|k IH]; [reflexivity|]. cbn [repeat map]. now rewrite IH.
Qed.

(** The run ends, whatever the arrival orders of the messages and the traversal orders of the sets; the parts hold the same hypergraph as before; and in every
    dimension that was completed no part ends above the limit: the larger of the heaviest part when the dimension was completed and tolerance times
    average - just that if the criterion was met.  All priorities are treated unless the maximal number of iterations is reached. *)
Theorem C57_balance : forall own ps w, n <> 1 -> 0 < length (i_prio inp) -> started n V E0 own ps w ->
  balance val fuel inp w (fun step ds res => exists own' ps' w', res = map (fun s => (fst s, Some (snd s))) w' /\ settled n V E0 own' ps' w' /\
    0 < length ds /\ (length ds = length (i_prio inp) \/ (i_max inp <= step)%Z) /\
    forall i x, nth_error ds i = Some x -> entry_ok val inp n V E0 i x /\ forall q, q < n -> (pw own' q (dn_dim x) <= dn_lim x)%Q).
Proof.
  intros own ps w N1 L0 (Lp & Lw & HD & HB). unfold balance. rewrite (Nat.max_r 1 (length (i_prio inp))) by lia. rewrite Lw. destruct (Nat.eqb_spec n 1) as [|_]; [contradiction|].
  apply local_intro with (PB := fun r s => forall p, nth_error ps r = Some p -> built_from true r p s).
  - intros r s Hs. assert (Lr : r < length ps) by (rewrite Lp, <- Lw; apply nth_error_Some; congruence). destruct (nth_error ps r) as [p|] eqn:Ep; [|apply nth_error_None in Ep; lia]. destruct (HB r p s Ep Hs) as (B & OO).
    destruct HD as (_ & _ & HX). destruct (HX r p Ep) as (HV & Lo & _). destruct (part_rep _ _ _ _ _ _ _ HV B) as (R & RO & Hh & Hs'). destruct (c_counts _ _ _ _ _ _ (p_constructed _ _ _ _ _ _ _ HV B)) as (Hn & _).
    rewrite (original_owners (fst s) (snd s) (pd_oo p) (Z.of_nat r)); [|congruence|auto|rewrite Lo; auto]. cbn [obind]. eexists. split; [reflexivity|]. intros p' Hp'. assert (p' = p) by congruence. subst p'. split; auto.
  - intros w0 Lw0 HB0.
    assert (HS : settled n V E0 own ps w0) by (split; [auto|]; split; [congruence|]; split; auto).
    pose proof (dimensions_ok (length (i_prio inp)) own ps w0 (Z.to_nat (i_per inp) + 1) 0 0%Z [] HS) as X.
    assert (DM : forall k' nn index0 step0 ds0 w0 (Q1 Q2 : Z -> list done -> world -> Prop), (forall a b c, Q1 a b c -> Q2 a b c) -> dimensions val fuel inp k' nn index0 step0 ds0 w0 Q1 -> dimensions val fuel inp k' nn index0 step0 ds0 w0 Q2).
    { clear. induction k' as [|k' IH]; intros nn index0 step0 ds0 w0 Q1 Q2 H; cbn [dimensions]; auto. intros (d & E & ss & Es & P). exists d. split; auto. exists ss. split; auto. revert P. apply diffuse_mono. intros a b c (ws & Ew & X). exists ws. split; auto. destruct (_ && _); auto. revert X. now apply IH. }
    eapply DM; [|apply X].
    + intros step ds w' (A & B & own' & ps' & HS' & HE & HW). exists own', ps', w'. split; auto. split; auto. split; [lia|]. split; auto. intros i x Hi. split; auto. intros q Lq. apply HW; auto. eapply nth_error_In; eauto.
    + split; [intros [|i] x; discriminate|intros x q []].
    + reflexivity.
    + exact L0.
    + lia.
    + lia.
Qed.
(** the vertices: total weight does not change, so that a run whose vertex criterion was met leaves no part above tolerance times the ideal share *)
Lemma vertex_total own ps w : settled n V E0 own ps w -> (qsum (map (fun q => pw own q None) (seq 0 n)) == qsum (map (fun v => val (fst (snd v))) V))%Q.
Proof.
  intros (Lp & _ & (_ & OB & _) & _). rewrite Lp in OB. clear - OB. cbn [part_weight]. induction V as [|v V0 IH].
  - cbn [filter map qsum]. rewrite (qsum_eq _ 0%Q); [ring|]. intros y Hy. apply in_map_iff in Hy as (z & <- & _). reflexivity.
  - cbn [map qsum]. rewrite <- IH by (intros; apply OB; right; auto). assert (Lv : own (fst v) < n) by (apply OB; left; auto). clear IH OB.
    assert (G : forall a k, (qsum (map (fun q => qsum (map (fun v => val (fst (snd v))) (filter (fun v => own (fst v) =? q) (v :: V0)))) (seq a k)) ==
      (if (a <=? own (fst v)) && (own (fst v) <? a + k) then val (fst (snd v)) else 0) + qsum (map (fun q => qsum (map (fun v => val (fst (snd v))) (filter (fun v => own (fst v) =? q) V0))) (seq a k)))%Q).
    { intros a k. revert a. induction k as [|k IH]; intros a.
      - cbn [seq map qsum]. destruct (Nat.leb_spec a (own (fst v))); destruct (Nat.ltb_spec (own (fst v)) (a + 0)); cbn [andb]; try lia; ring.
      - cbn [seq map qsum]. rewrite IH. cbn [filter]. destruct (Nat.eqb_spec (own (fst v)) a) as [->|Na].
        + cbn [map qsum]. rewrite (proj2 (Nat.leb_gt (Datatypes.S a) a)) by lia. rewrite (proj2 (Nat.leb_le a a)) by lia. rewrite (proj2 (Nat.ltb_lt a (a + Datatypes.S k))) by lia. cbn [andb]. ring.
        + destruct (Nat.leb_spec (Datatypes.S a) (own (fst v))); destruct (Nat.leb_spec a (own (fst v))); destruct (Nat.ltb_spec (own (fst v)) (Datatypes.S a + k)); destruct (Nat.ltb_spec (own (fst v)) (a + Datatypes.S k)); cbn [andb]; try lia; ring. }
    rewrite (G 0 n). rewrite (proj2 (Nat.ltb_lt _ _)) by (cbn [plus]; exact Lv). cbn [Nat.leb andb]. reflexivity.
Qed.
Theorem C57_vertices : forall own ps w, n <> 1 -> 0 < length (i_prio inp) -> started n V E0 own ps w ->
  balance val fuel inp w (fun step ds res => exists own' ps' w', res = map (fun s => (fst s, Some (snd s))) w' /\ settled n V E0 own' ps' w' /\
    forall x, In x ds -> dn_dim x = None -> dn_rc x = 1%Z -> forall q, q < n -> (pw own' q None <= dn_tol x * (qsum (map (fun v => val (fst (snd v))) V) / inject_Z (Z.of_nat n)))%Q).
Proof.
  intros own ps w N1 L0 HS. pose proof (C57_balance own ps w N1 L0 HS) as X.
  assert (BM : forall (Q1 Q2 : Z -> list done -> list (graph * option (arr Z)) -> Prop), (forall a b c, Q1 a b c -> Q2 a b c) -> balance val fuel inp w Q1 -> balance val fuel inp w Q2).
  { clear. intros Q1 Q2 H. unfold balance. destruct (length w =? 1); [apply H|]. apply local_mono. intros w0. generalize (Z.to_nat (i_per inp) + 1) as nn. intros nn. set (k := Nat.max 1 (length (i_prio inp))). clearbody k. generalize 0, 0%Z, (@nil done). revert w0. induction k as [|k IH]; intros w0 index step ds; cbn [dimensions]; auto. intros (d & E & ss & Es & P). exists d. split; auto. exists ss. split; auto. revert P. apply diffuse_mono. intros a b c (ws & Ew & X). exists ws. split; auto. destruct (_ && _); [revert X; apply IH|apply H; exact X]. }
  revert X. apply BM. intros step ds res (own' & ps' & w' & E & HS' & _ & _ & HE). exists own', ps', w'. split; auto. split; auto. intros x Hx Dx Rx q Lq. apply In_nth_error in Hx as (i & Hi). destruct (HE i x Hi) as ((_ & _ & own1 & ps1 & w1 & m & HS1 & Lw & HWs & _ & _ & _ & _ & R1) & F). specialize (F q Lq). rewrite Dx in *.
  rewrite (R1 Rx) in F. rewrite (weights_sum val V E0 n own1 None (dn_ws x) Lw HWs) in F. unfold all_weights in F. rewrite (vertex_total own1 ps1 w1 HS1) in F. exact F.
Qed.
End Run.
Print Assumptions C57_step. Print Assumptions C57_balance. Print Assumptions C57_vertices.

(** with one part nothing is done *)
Theorem C57_single : forall val fuel inp s (Q : Z -> list done -> list (graph * option (arr Z)) -> Prop), Q 0%Z [] [s] -> balance val fuel inp [s] Q.
Proof. intros. unfold balance. exact H. Qed.
(** without a priority the first one is read all the same *)
Theorem C57_no_priority_refuted : forall val fuel inp w Q, length w <> 1 -> i_prio inp = [] -> ~ balance val fuel inp w Q.
Proof. intros val fuel inp w Q L E. unfold balance. destruct (Nat.eqb_spec (length w) 1) as [|_]; [contradiction|]. rewrite E. cbn [length Nat.max dimensions]. intros (w0 & _ & (d & X & _)). rewrite E in X. discriminate. Qed.
Print Assumptions C57_no_priority_refuted.

(** ** a concrete run *)
(** the executable run is one of the executions: what holds of every execution is defined for it and holds of its result *)
Lemma run_migrate_some fuel sts Q : migrate fuel sts Q -> exists sts', run_migrate fuel sts = Some sts' /\ Q sts'.
Proof.
  unfold migrate, run_migrate. intros (s0 & E0 & H). rewrite E0. cbn [obind]. apply SelectorProps.run_phase_some in H as (s1 & E1 & ws & E & H). rewrite E1. cbn [obind]. rewrite E. cbn [obind]. apply SelectorProps.run_phase_some in H as (ws1 & E2 & H). rewrite E2. cbn [obind].
  clear - H. revert ws1 H. induction (seq 0 (max_types sts)) as [|t ts IH]; intros ws1 H; cbn [foldM edge_phases] in *; [exact H|]. apply SelectorProps.run_phase_some in H as (w & -> & H). cbn [obind]. now apply IH.
Qed.
Section Sound.
Variables (val : Z -> Q) (fuel : nat) (inp : dinput).
Lemma run_makeWeights_some d w ss Q : makeWeights val fuel d w ss Q -> exists x, run_makeWeights val fuel d w ss = Some x /\ Q x.
Proof. intros (ws & E & H). unfold run_makeWeights. rewrite E. cbn [obind]. now apply SelectorProps.run_phase_some in H. Qed.
Lemma run_completed_some ds : forall w ss Q, completed val fuel ds w ss Q -> exists x, run_completed val fuel ds w ss = Some x /\ Q x.
Proof.
  induction ds as [|d ds IH]; intros w ss Q H; cbn [completed run_completed] in *; [eauto|]. apply run_makeWeights_some in H as (c & -> & H). cbn [obind]. apply IH in H as (cs & -> & H). cbn [obind]. eauto.
Qed.
Lemma run_trimmed_some ds mps Q : trimmed val fuel ds mps Q -> exists x, run_trimmed val fuel ds mps = Some x /\ Q x.
Proof.
  unfold trimmed, run_trimmed. destruct ds; [eauto|]. unfold trim_cancel, run_trim_cancel. intros H. apply SelectorProps.run_phase_some in H as (sa & -> & H). cbn [obind]. apply SelectorProps.run_phase_some in H as (pl & -> & H). cbn [obind]. eauto.
Qed.
Lemma run_planning_some d sideTol ds w Q : planning val fuel inp d sideTol ds w Q -> exists x, run_planning val fuel inp d sideTol ds w = Some x /\ Q x.
Proof.
  intros (ss & E & H). unfold run_planning. rewrite E. cbn [obind]. apply run_makeWeights_some in H as (tw & -> & H). cbn [obind]. apply run_completed_some in H as (cs & -> & tg & ET & H). cbn [obind]. rewrite ET. cbn [obind].
  destruct (H id_orders) as (mps & EM & T); [intros r; split; intros; apply Permutation_refl|]. rewrite EM. cbn [obind]. now apply run_trimmed_some in T.
Qed.
Lemma run_runStep_some d tol sideTol ds s w (Q : Z -> sd -> world -> Prop) : runStep val fuel inp d tol sideTol ds s w Q -> exists rc s' w', run_runStep val fuel inp d tol sideTol ds s w = Some (rc, s', w') /\ Q rc s' w'.
Proof.
  intros (ws & imb & E1 & E2 & H). unfold run_runStep. rewrite E1. cbn [obind]. rewrite E2. cbn [obind]. destruct (qlt imb tol); [eauto 6|]. destruct H as (s' & stop & E3 & E4 & H). rewrite E3. cbn [obind]. rewrite E4. cbn [obind]. destruct stop; [eauto 6|].
  apply run_planning_some in H as (mps & -> & H). cbn [obind]. destruct (0 <? _); [|eauto 6]. apply run_migrate_some in H as (w' & -> & H). cbn [obind]. eauto 6.
Qed.
Lemma run_diffuse_some n : forall d tol sideTol ds inner step s w (Q : Z -> Z -> world -> Prop), diffuse val fuel inp n d tol sideTol ds inner step s w Q -> exists rc st w', run_diffuse val fuel inp n d tol sideTol ds inner step s w = Some (rc, st, w') /\ Q rc st w'.
Proof.
  induction n as [|n IH]; intros d tol sideTol ds inner step s w Q H; cbn [diffuse run_diffuse] in *; [destruct H|]. apply run_runStep_some in H as (rc & s' & w' & -> & H). cbn [obind]. destruct (Z.eqb rc 0); [|eauto 6]. destruct (inner <? i_per inp)%Z; [|eauto 6]. destruct (step <? i_max inp)%Z; [|eauto 6]. now apply IH.
Qed.
Lemma run_dimension_some n index step ds w (Q : Z -> list done -> world -> Prop) : dimension val fuel inp n index step ds w Q -> exists st ds' w', run_dimension val fuel inp n index step ds w = Some (st, ds', w') /\ Q st ds' w'.
Proof.
  intros (d & E & ss & Es & H). unfold run_dimension. rewrite E. cbn [obind]. rewrite Es. cbn [obind]. apply run_diffuse_some in H as (rc & st & w' & -> & ws & Ew & H). cbn [obind]. rewrite Ew. cbn [obind]. eauto 6.
Qed.
Lemma run_dimensions_some k : forall n index step ds w (Q : Z -> list done -> world -> Prop), dimensions val fuel inp k n index step ds w Q -> exists st ds' w', run_dimensions val fuel inp k n index step ds w = Some (st, ds', w') /\ Q st ds' w'.
Proof.
  induction k as [|k IH]; intros n index step ds w Q H; cbn [dimensions run_dimensions] in *; [destruct H|]. apply run_dimension_some in H as (st & ds' & w' & -> & H). cbn [obind]. destruct (_ && _); [now apply IH|eauto 6].
Qed.
Lemma run_balance_some w Q : balance val fuel inp w Q -> exists st ds res, run_balance val fuel inp w = Some (st, ds, res) /\ Q st ds res.
Proof.
  unfold balance, run_balance. destruct (length w =? 1); [eauto 6|]. intros (w0 & -> & H). cbn [obind]. apply run_dimensions_some in H as (st & ds & w' & -> & H). cbn [obind]. eauto 6.
Qed.
End Sound.

Definition c57_V : list (Z * (Z * Z)) := [(1, (3, 0)); (2, (2, 0)); (3, (2, 0)); (4, (2, 0)); (5, (3, 0)); (6, (2, 1))]%Z.
Definition c57_E : list (edge_input * Z) := [((100, [1; 2]), 1); ((101, [2; 3]), 1); ((102, [3; 4]), 1); ((103, [4; 5]), 2); ((104, [5; 6]), 1); ((105, [6; 3]), 1)]%Z.
Definition c57_own (v : Z) : nat := if Z.leb v 5 then 0 else 1.
Definition c57_ps : list pdesc :=
  [mkPD [1; 2; 3; 4; 5]%Z [3; 2; 2; 2; 3]%Z [([(100, [1; 2]); (101, [2; 3]); (102, [3; 4]); (103, [4; 5]); (104, [5; 6]); (105, [6; 3])], [1; 1; 1; 2; 1; 1])]%Z [(6, 1)]%Z [0; 0; 0; 0; 0]%Z;
   mkPD [6]%Z [2]%Z [([(104, [5; 6]); (105, [6; 3])], [1; 1])]%Z [(5, 0); (3, 0)]%Z [1]%Z].
Definition c57_inp (dist : bool) : dinput := mkDI [None; Some 0] [11 # 10]%Q 50 10 (1 # 2)%Q 0 dist true 0%Q 1 1.
Definition fresh (ps : list pdesc) : option (list (graph * option (arr Z))) :=
  mapM (fun x : nat * pdesc => g <- build_part (Z.of_nat (fst x)) true (pd_verts (snd x)) (pd_vws (snd x)) (pd_tys (snd x)) (pd_owns (snd x)) ;; Some (g, None)) (combine (seq 0 (length ps)) ps).
Lemma fresh_started V E0 own ps w : distributed own V [E0] ps -> (forall r p, nth_error ps r = Some p -> pd_oo p = repeat (Z.of_nat r) (length (pd_verts p))) -> fresh ps = Some w -> started (length ps) V E0 own ps w.
Proof.
  intros HD HO E. pose proof (mapM_length _ _ _ _ _ E) as L. rewrite combine_length, seq_length, Nat.min_id in L. split; auto. split; auto. split; auto. intros r p s Hp Hs.
  assert (Lr : r < length ps) by (apply nth_error_Some; congruence). assert (HC : nth_error (combine (seq 0 (length ps)) ps) r = Some (r, p)). { apply SelectorTop2.combine_nth2; auto. rewrite nth_error_nth' with (d := 0) by (rewrite seq_length; auto). now rewrite seq_nth. }
  destruct (mapM_nth _ _ _ _ _ _ _ E HC) as (s' & Hs' & B). assert (s' = s) by congruence. subst s'. cbn [fst snd] in B. destruct (build_part _ _ _ _ _ _) as [g|]; [|discriminate]. cbn [obind] in B. inversion B; subst s. cbn [fst snd]. split; auto.
Qed.
Lemma c57_closed (f : edge_input * Z -> bool) : (forall a b v, In a c57_E -> In b c57_E -> f a = true -> In v (snd (fst a)) -> In v (snd (fst b)) -> f b = true) -> (exists e, In e c57_E /\ f e = true) -> forall e, In e c57_E -> f e = true.
Proof.
  intros H (e0 & I0 & F0).
  assert (C : forall a b v, In a c57_E -> In b c57_E -> In v (snd (fst a)) -> In v (snd (fst b)) -> f a = f b).
  { intros a b v Ha Hb Va Vb. destruct (f a) eqn:A; [symmetry; eapply (H a b); eauto|]. destruct (f b) eqn:B; auto. rewrite <- A. eapply (H b a); eauto. }
  assert (N : forall i v, In v (snd (fst (nth i c57_E ((0, []), 0)%Z))) -> In v (snd (fst (nth (S i) c57_E ((0, []), 0)%Z))) -> S i < 6 -> f (nth i c57_E ((0, []), 0)%Z) = f (nth (S i) c57_E ((0, []), 0)%Z)).
  { intros i v A B L. apply (C _ _ v); auto; apply nth_In; cbn [length c57_E]; lia. }
  pose proof (N 0 2%Z ltac:(cbn; auto) ltac:(cbn; auto) ltac:(lia)) as X1. pose proof (N 1 3%Z ltac:(cbn; auto) ltac:(cbn; auto) ltac:(lia)) as X2. pose proof (N 2 4%Z ltac:(cbn; auto) ltac:(cbn; auto) ltac:(lia)) as X3. pose proof (N 3 5%Z ltac:(cbn; auto) ltac:(cbn; auto) ltac:(lia)) as X4. pose proof (N 4 6%Z ltac:(cbn; auto) ltac:(cbn; auto) ltac:(lia)) as X5.
  clear N C H. cbn [nth c57_E] in X1, X2, X3, X4, X5. intros e He. cbn [c57_E In] in I0, He. intuition congruence.
Qed.
(** part 0 has 12 of 14 units of vertex weight; one migration brings both parts to 7, then the edges are within tolerance *)
Definition seen (x : Z * list done * list (graph * option (arr Z))) :=
  let '(st, ds, w) := x in vs <- mapM (fun s => match snd s with Some oo => verts_seen 30 (fst s, oo) | None => None end) w ;;
  Some (st, map (fun d => (dn_dim d, dn_rc d, map Qred (dn_ws d), Qred (dn_lim d))) ds, vs).
Example C57_example : forall dist, exists w res, fresh c57_ps = Some w /\ suitable inject_Z 500 (c57_inp dist) c57_V c57_E /\ started 2 c57_V c57_E c57_own c57_ps w /\
  Forall (fun d => dim_known d /\ heavy inject_Z c57_V c57_E d) (i_prio (c57_inp dist)) /\ run_balance inject_Z 500 (c57_inp dist) w = Some res /\
  seen res = Some (1%Z, [(None, 1%Z, [7; 7]%Q, 77 # 10); (Some 0, 1%Z, [5; 6]%Q, 121 # 20)],
     [[(1, (3, 0)); (2, (2, 0)); (4, (2, 0))]; [(6, (2, 1)); (5, (3, 0)); (3, (2, 0))]]%Z).
Proof.
  intros dist. destruct (fresh c57_ps) as [w|] eqn:E; [|vm_compute in E; discriminate]. destruct (run_balance inject_Z 500 (c57_inp dist) w) as [res|] eqn:Er.
  2:{ vm_compute in E. inversion E; subst w. destruct dist; vm_compute in Er; discriminate. }
  exists w, res. split; auto. split; [|split; [|split; [|split; [exact Er|]]]].
  - constructor; cbn [i_side i_min i_dist c57_inp].
    + split; [cbn; lia|]. intros E1 [<-|[]]. vm_compute. lia.
    + vm_compute. lia.
    + intros v Hv. cbn in Hv. intuition (subst v; vm_compute; intros X; discriminate X).
    + intros e He. cbn in He. intuition (subst e; vm_compute; intros X; discriminate X).
    + intros e He. cbn in He. intuition (subst e; vm_compute; lia).
    + reflexivity.
    + lia.
    + intros _ f HC HE. pose proof (c57_closed f HC HE) as A. assert (F : filter f c57_E = c57_E). { clear - A. induction c57_E as [|x l IH]; [reflexivity|]. cbn [filter]. rewrite (A x (or_introl eq_refl)). f_equal. apply IH. intros e He. apply A. right; auto. } rewrite F. cbn. lia.
  - change 2 with (length c57_ps). apply fresh_started; auto; [apply distributedb_ok; vm_compute; reflexivity|]. intros [|[|r]] p Hp; inversion Hp; subst; [reflexivity|reflexivity|destruct r; discriminate].
  - repeat constructor; cbn [dim_known heavy]; auto; [exists (1, (3, 0))%Z; split; [cbn; auto|reflexivity]|exists ((100, [1; 2]), 1)%Z; split; [cbn; auto|discriminate]].
  - vm_compute in E. inversion E; subst w. destruct dist; vm_compute in Er; inversion Er; subst res; vm_compute; reflexivity.
Qed.
(** a component of one edge inside a part without ghosts: with the distance queue (the default for hypergraphs) the run is undefined *)
Definition c57s_V : list (Z * (Z * Z)) := [(1, (1, 0)); (2, (1, 0)); (3, (1, 0)); (4, (1, 1))]%Z.
Definition c57s_E : list (edge_input * Z) := [((100, [1; 2]), 1); ((101, [2; 3]), 1); ((102, [1; 3]), 1); ((103, [4]), 1)]%Z.
Definition c57s_own (v : Z) : nat := if Z.leb v 3 then 0 else 1.
Definition c57s_ps : list pdesc :=
  [mkPD [1; 2; 3]%Z [] [([(100, [1; 2]); (101, [2; 3]); (102, [1; 3])], [])]%Z [] [0; 0; 0]%Z; mkPD [4]%Z [] [([(103, [4])], [])]%Z [] [1]%Z].
Theorem C57_small_component_refuted : exists w, fresh c57s_ps = Some w /\ started 2 c57s_V c57s_E c57s_own c57s_ps w /\
  (forall Q, ~ balance inject_Z 500 (c57_inp true) w Q) /\ run_balance inject_Z 500 (c57_inp false) w <> None.
Proof.
  destruct (fresh c57s_ps) as [w|] eqn:E; [|vm_compute in E; discriminate]. exists w. split; auto. split; [|split].
  - change 2 with (length c57s_ps). apply fresh_started; auto; [apply distributedb_ok; vm_compute; reflexivity|]. intros [|[|r]] p Hp; inversion Hp; subst; [reflexivity|reflexivity|destruct r; discriminate].
  - intros Q H. apply run_balance_some in H as (st & ds & res & H & _). vm_compute in E. inversion E; subst w. vm_compute in H. discriminate.
  - vm_compute in E. inversion E; subst w. vm_compute. discriminate.
Qed.
Print Assumptions C57_small_component_refuted.
