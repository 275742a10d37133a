(** C34 (weights and imbalance) and C35 (evaluatePartition). *)
From Verif Require Import Base GraphModel GraphSpec GraphTop GraphTop2 AccessProofs Comm TagModel ConnModel MetricsModel MetricsProofs GraphProps TagProps.
From Coq Require Import Lqa.
Local Open Scope nat_scope.

(** the weights the user gave, with the default 1 *)
Definition vertex_weights (verts vws : list Z) : list Z := vws ++ repeat 1%Z (length verts - length vws).
Definition edge_weights (ty : type_input) : list Z := match snd ty with [] => repeat 1%Z (length (fst ty)) | ws => ws end.

(** the weight of a part is the sum of the weights given for its vertices (edges of one type) *)
Theorem C34_vertex_weight : forall val me hg verts vws tys g gw fuel,
  constructed me hg verts vws tys g -> length verts < fuel ->
  exists w, getWeight val g gw None false fuel = Some w /\ (w == qsum (map val (vertex_weights verts vws)))%Q.
Proof.
  intros val me hg verts vws tys g gw fuel HC HF. pose proof (proj1 (constructed_rep _ _ _ _ _ _ HC)) as HR. unfold getWeight.
  rewrite (all_verts_ok _ _ _ _ _ HR) by auto. cbn [obind].
  assert (LV : length vws <= length verts) by apply HC. assert (L : length (vertex_weights verts vws) = length verts) by (unfold vertex_weights; rewrite app_length, repeat_length; lia).
  destruct (foldM_qsum nat (weight_of val g gw) (map S (seq 0 (length verts))) 0%Q (map val (vertex_weights verts vws))) as (r & -> & R).
  - rewrite mapM_of_map. rewrite <- L, <- (map_length val). apply mapM_seq. intros j x Hj. cbn [Nat.add]. rewrite nth_error_map in Hj.
    destruct (nth_error (vertex_weights verts vws) j) as [y|] eqn:E; [|discriminate]. inversion Hj; subst.
    assert (Lj : j < length verts) by (rewrite <- L; apply nth_error_Some; congruence). destruct (nth_error verts j) as [v|] eqn:Ev; [|apply nth_error_None in Ev; lia].
    unfold weight_of. cbn [vlid obind]. assert (NL : nlv g = length verts) by apply HR. rewrite NL. destruct (Nat.ltb_spec j (length verts)); [|lia].
    pose proof (w_vertex _ _ _ _ _ _ HC j v Ev) as W. unfold getVertex in W. rewrite Nat.add_1_r in W. rewrite W. cbn [obind]. do 2 f_equal.
    unfold vertex_weights in E. destruct (Nat.lt_ge_cases j (length vws)).
    + rewrite nth_error_app1 in E by auto. now rewrite E.
    + rewrite (proj2 (nth_error_None vws j)) by auto. rewrite nth_error_app2 in E by auto. apply nth_error_In, repeat_spec in E. auto.
  - exists r. split; [reflexivity|]. rewrite R. ring.
Qed.
Print Assumptions C34_vertex_weight.

(** counting ghosts adds the weight stored for each ghost (which C14 shows to be the weight of the vertex on its owner) *)
Theorem C34_ghost_weight : forall val me hg verts vws tys g tag gws fuel,
  constructed me hg verts vws tys g -> length verts < fuel -> length (ghosts_of verts tys) < fuel ->
  length gws = length (ghosts_of verts tys) -> (forall j x, nth_error gws j = Some x -> aget tag j = Some x) ->
  exists w, getWeight val g (Some tag) None true fuel = Some w /\ (w == qsum (map val (vertex_weights verts vws)) + qsum (map val gws))%Q.
Proof.
  intros val me hg verts vws tys g tag gws fuel HC HF HG LG HT. pose proof (proj1 (constructed_rep _ _ _ _ _ _ HC)) as HR.
  destruct (C34_vertex_weight val me hg verts vws tys g (Some tag) fuel HC HF) as (w & E & W). unfold getWeight in *.
  destruct (all_verts g fuel) as [vs|]; [|discriminate]. cbn [obind] in *.
  destruct (foldM (fun w v => x <- weight_of val g (Some tag) v ;; Some (w + x)%Q) vs 0%Q) as [w1|]; [|discriminate]. cbn [obind] in *. inversion E; subst w1. clear E.
  rewrite (all_ghosts_ok _ _ _ _ _ HR) by auto. cbn [obind].
  destruct (foldM_qsum nat (weight_of val g (Some tag)) (map S (seq (length verts) (length (ghosts_of verts tys)))) w (map val gws)) as (r & -> & R).
  - rewrite mapM_of_map. rewrite <- LG, <- (map_length val gws). apply mapM_seq. intros j x Hj. rewrite nth_error_map in Hj.
    destruct (nth_error gws j) as [y|] eqn:Ey; [|discriminate]. inversion Hj; subst. unfold weight_of. cbn [vlid obind].
    assert (NL : nlv g = length verts) by apply HR. rewrite NL. destruct (Nat.ltb_spec (length verts + j) (length verts)); [lia|].
    unfold get_vtag. cbn [vlid obind]. rewrite NL. destruct (Nat.leb_spec (length verts) (length verts + j)); [|lia].
    replace (length verts + j - length verts) with j by lia. rewrite (HT j y Ey). reflexivity.
  - exists r. split; [reflexivity|]. rewrite R, W. ring.
Qed.
Print Assumptions C34_ghost_weight.

Theorem C34_edge_weight : forall val me hg verts vws tys g gw t ty fuel,
  constructed me hg verts vws tys g -> nth_error tys t = Some ty -> length (fst ty) < fuel ->
  exists w, getWeight val g gw (Some t) false fuel = Some w /\ (w == qsum (map val (edge_weights ty)))%Q.
Proof.
  intros val me hg verts vws tys g gw t [es ws] fuel HC Ht HF. cbn [fst] in HF. unfold getWeight. rewrite (w_iter_edges _ _ _ _ _ _ HC t es ws fuel Ht HF). cbn [obind].
  assert (HW : ws = [] \/ length ws = length es). { destruct HC as ((_ & _ & _ & H) & _). apply (H es ws). eapply nth_error_In; eauto. }
  assert (L : length (edge_weights (es, ws)) = length es). { unfold edge_weights. cbn [fst snd]. destruct ws; [apply repeat_length|destruct HW; [discriminate|auto]]. }
  destruct (foldM_qsum nat (fun e => x <- eweight g e ;; Some (val x)) (map (fun i => getEdge (ntypes g) i t) (seq 0 (length es))) 0%Q (map val (edge_weights (es, ws)))) as (r & E & R).
  - rewrite mapM_of_map. rewrite <- L, <- (map_length val). apply mapM_seq. intros j x Hj. cbn [Nat.add]. rewrite nth_error_map in Hj.
    destruct (nth_error (edge_weights (es, ws)) j) as [y|] eqn:Ey; [|discriminate]. inversion Hj; subst.
    assert (Lj : j < length es) by (rewrite <- L; apply nth_error_Some; congruence). destruct (nth_error es j) as [e|] eqn:Ee; [|apply nth_error_None in Ee; lia].
    rewrite (w_edge _ _ _ _ _ _ HC t es ws j e Ht Ee). unfold edge_weights in Ey. cbn [fst snd] in Ey. destruct ws as [|w0 ws]; [|rewrite Ey; reflexivity].
    apply nth_error_In, repeat_spec in Ey. now subst y.
  - exists r. split; [|rewrite R; ring]. rewrite <- E. clear. generalize 0%Q. induction (map (fun i => getEdge (ntypes g) i t) (seq 0 (length es))) as [|e l IH]; intros a; [reflexivity|].
    cbn [foldM]. destruct (eweight g e); cbn [obind]; auto.
Qed.
Print Assumptions C34_edge_weight.

(** The imbalance of a positive total weight is (largest weight) / (total / number of parts); it is at least 1, it is 1 exactly when all
    parts weigh the same, and for weights that are not negative it is at most the number of parts. *)
Theorem C34_imbalance : forall ws, (0 < qsum ws)%Q ->
  exists i m, imbalance ws = Some i /\ is_max ws m /\ (i == m / (qsum ws / inject_Z (Z.of_nat (length ws))))%Q /\
    (1 <= i)%Q /\ ((i == 1)%Q <-> forall x y, In x ws -> In y ws -> (x == y)%Q) /\
    ((forall x, In x ws -> 0 <= x)%Q -> i <= inject_Z (Z.of_nat (length ws)))%Q.
Proof.
  intros ws HS. assert (NE : ws <> []) by (intros ->; cbn in HS; lra). destruct (all_max_ok ws NE) as (MI & ML). set (m := all_max ws) in *. set (n := inject_Z (Z.of_nat (length ws))).
  assert (N0 : (0 < n)%Q). { unfold n. rewrite <- (Zlt_Qlt 0). destruct ws; [congruence|cbn; lia]. }
  pose proof (qsum_le ws m ML) as UB. fold n in UB.
  assert (AP : (0 < all_sum ws / n)%Q). { rewrite all_sum_qsum. apply Qlt_shift_div_l; lra. }
  assert (EQ : (m / (all_sum ws / n) == (n * m) / qsum ws)%Q). { rewrite all_sum_qsum. field. split; lra. }
  exists (m / (all_sum ws / n))%Q, m. unfold imbalance. fold n m. rewrite (qdiv_some _ n) by lra. cbn [obind]. rewrite qdiv_some by lra. split; [reflexivity|].
  split; [split; auto|]. split; [rewrite all_sum_qsum; reflexivity|]. split; [|split].
  - rewrite EQ. apply Qle_shift_div_l; lra.
  - rewrite EQ. split; intros H.
    + assert (E : (n * m == qsum ws)%Q). { assert (E0 : (n * m == n * m / qsum ws * qsum ws)%Q) by (field; lra). rewrite E0, H. ring. }
      assert (A : forall x, In x ws -> (x == m)%Q). { intros x Hx. specialize (ML x Hx). destruct (Qlt_le_dec x m) as [L|L]; [|lra]. pose proof (qsum_strict ws m x) as S. fold n in S. specialize (S ltac:(intros; apply all_max_ok; auto) Hx L). lra. }
      intros x y Hx Hy. rewrite (A x Hx), (A y Hy). reflexivity.
    + rewrite (qsum_eq ws m); [|intros x Hx; apply H; auto]. fold n. rewrite (qsum_eq ws m) in HS by (intros x Hx; apply H; auto). fold n in HS. unfold Qdiv. apply Qmult_inv_r. lra.
  - intros P. rewrite EQ. apply Qle_shift_div_r; auto. assert (m <= qsum ws)%Q by (apply qsum_elem; auto). apply Qmult_le_l; auto.
Qed.
Print Assumptions C34_imbalance.
(** an empty total has no imbalance: the code divides by zero *)
Theorem C34_zero_total : forall ws, (qsum ws == 0)%Q -> imbalance ws = None.
Proof.
  intros ws H. unfold imbalance. destruct (qdiv (all_sum ws) (inject_Z (Z.of_nat (length ws)))) as [a|] eqn:E; [|reflexivity]. cbn [obind]. apply qdiv_none.
  unfold qdiv in E. destruct (Qeq_bool (inject_Z (Z.of_nat (length ws))) 0); [discriminate|]. inversion E. rewrite all_sum_qsum, H. unfold Qdiv. ring.
Qed.
Print Assumptions C34_zero_total.
Example C34_example : option_map Qred (imbalance [1 # 2; 3 # 2; 1]%Q) = Some (3 # 2)%Q /\ (0 < qsum [1 # 2; 3 # 2; 1])%Q /\
  (g <- build_part 1 true ex_verts ex_vws ex_tys ex_owns ;; a <- getWeight (fun z => z # 2)%Q g None None false 20 ;; b <- getWeight (fun z => z # 2)%Q g None (Some 0) false 20 ;; Some (Qred a, Qred b)) = Some (9 # 1, 6 # 1)%Q.
Proof. repeat split; vm_compute; reflexivity. Qed.

(** ** C35 *)
(** the value number i of every part *)
Definition column (i : nat) (vals : list (list Q)) : list Q := map (fun v => nth i v 0%Q) vals.
Definition row_ok (col : list Q) (r : row4) : Prop :=
  is_max col (r_max r) /\ is_min col (r_min r) /\ (r_avg r == qsum col / inject_Z (Z.of_nat (length col)))%Q /\
  r_imb r = if Qeq_bool (r_avg r) 0 then None else Some (r_max r / r_avg r)%Q.
Definition max_sum (col : list Q) (p : Q * Q) : Prop := is_max col (fst p) /\ (snd p == qsum col)%Q.

Lemma reduce_nth op n vals i : i < n -> nth_error (reduce op n vals) i = Some (op (column i vals)).
Proof. intros H. unfold reduce. rewrite nth_error_map, nth_error_seq by auto. reflexivity. Qed.
Lemma column_ne i vals : vals <> [] -> column i vals <> [].
Proof. destruct vals; [congruence|discriminate]. Qed.
Lemma fill_step nt peers total : forall k a, length a = 4 + nt * 2 -> k <= 4 + nt * 2 -> length total = 4 + nt * 2 ->
  exists a', foldM (fun a i => t <- nth_error total i ;; aset a i (t / inject_Z (Z.of_nat peers))%Q) (seq 0 k) a = Some a' /\ length a' = 4 + nt * 2 /\
    forall i, aget a' i = if i <? k then option_map (fun t => t / inject_Z (Z.of_nat peers))%Q (nth_error total i) else aget a i.
Proof.
  induction k as [|k IH]; intros a La Lk Lt; [exists a; repeat split; auto|]. destruct (IH a La ltac:(lia) Lt) as (a1 & E1 & L1 & G1).
  rewrite seq_S, foldM_app, E1. cbn [obind foldM Nat.add]. destruct (nth_error total k) as [t|] eqn:Et; [|apply nth_error_None in Et; lia]. cbn [obind].
  rewrite (aset_some _ a1 k) by lia. exists (upd a1 k (Some (t / inject_Z (Z.of_nat peers))%Q)). split; [reflexivity|]. split; [now rewrite upd_length|].
  intros i. destruct (Nat.eq_dec i k) as [->|N].
  - rewrite aget_upd_eq by lia. destruct (Nat.ltb_spec k (S k)); [|lia]. now rewrite Et.
  - rewrite aget_upd_neq by auto. rewrite G1. destruct (Nat.ltb_spec i k); destruct (Nat.ltb_spec i (S k)); auto; lia.
Qed.
Lemma reduce_length op n vals : length (reduce op n vals) = n.
Proof. unfold reduce. now rewrite map_length, seq_length. Qed.

(** With one or two edge types the table is right. *)
Theorem C35_table_partial : forall nt vals, nt = 1 \/ nt = 2 -> vals <> [] -> (forall v, In v vals -> length v = 4 + nt * 2) ->
  exists r, evaluatePartition nt vals = Some r /\
    rp_empty r = Z.of_nat (length (filter (fun v => Qeq_bool (nth 3 v 0%Q) 0) vals)) /\
    max_sum (column 0 vals) (rp_dis r) /\ row_ok (column 1 vals) (rp_nb r) /\ row_ok (column 2 vals) (rp_vtx r) /\ row_ok (column 3 vals) (rp_tot r) /\
    length (rp_edges r) = nt /\
    forall t row cut, nth_error (rp_edges r) t = Some (row, cut) -> row_ok (column (4 + 2 * t) vals) row /\ max_sum (column (5 + 2 * t) vals) cut.
Proof.
  intros nt vals Hnt NE HL. unfold evaluatePartition. set (n := 4 + nt * 2). set (mx := reduce all_max n vals). set (mn := reduce all_min n vals). set (tot := reduce all_sum n vals).
  unfold fill_avg. fold n. destruct (fill_step nt (length vals) tot (5 + nt) (anew n)) as (avg & EA & LA & GA); [apply repeat_length|unfold n in *; lia|apply reduce_length|].
  rewrite EA. cbn [obind].
  assert (RO : forall i, i < n -> i < 5 + nt -> exists r, get_row mx mn avg i = Some r /\ row_ok (column i vals) r).
  { intros i Hi Hb. unfold get_row, mx, mn. rewrite !reduce_nth by auto. cbn [obind]. rewrite GA. destruct (Nat.ltb_spec i (5 + nt)); [|lia]. unfold tot. rewrite reduce_nth by auto. cbn [option_map obind].
    eexists. split; [reflexivity|]. split; [apply all_max_ok, column_ne; auto|]. split; [apply all_min_ok, column_ne; auto|]. cbn [r_avg r_imb r_max]. split.
    - replace (length (column i vals)) with (length vals) by (unfold column; now rewrite map_length). rewrite all_sum_qsum. reflexivity.
    - unfold qdiv. reflexivity. }
  assert (MS : forall i, i < n -> exists a b, nth_error mx i = Some a /\ nth_error tot i = Some b /\ max_sum (column i vals) (a, b)).
  { intros i Hi. unfold mx, tot. rewrite !reduce_nth by auto. do 2 eexists. split; [reflexivity|]. split; [reflexivity|]. split; [apply all_max_ok, column_ne; auto|apply all_sum_qsum]. }
  destruct (MS 0 ltac:(unfold n; lia)) as (m0 & t0 & -> & -> & M0). cbn [obind].
  destruct (RO 1 ltac:(unfold n; lia) ltac:(lia)) as (r1 & -> & R1). cbn [obind].
  destruct (RO 2 ltac:(unfold n; lia) ltac:(lia)) as (r2 & -> & R2). cbn [obind].
  destruct (RO 3 ltac:(unfold n; lia) ltac:(lia)) as (r3 & -> & R3). cbn [obind].
  assert (ES : exists es, mapM (fun i => r <- get_row mx mn avg (4 + i * 2) ;; cm <- nth_error mx (5 + i * 2) ;; ct <- nth_error tot (5 + i * 2) ;; Some (r, (cm, ct))) (seq 0 nt) = Some es).
  { apply TagProps.mapM_forall. intros i Hi. apply in_seq in Hi. destruct (RO (4 + i * 2) ltac:(unfold n; lia) ltac:(lia)) as (r & -> & _). cbn [obind].
    destruct (MS (5 + i * 2) ltac:(unfold n; lia)) as (a & b & -> & -> & _). cbn [obind]. eauto. }
  destruct ES as (es & EE). rewrite EE. cbn [obind]. eexists. split; [reflexivity|]. cbn [rp_empty rp_dis rp_nb rp_vtx rp_tot rp_edges]. split.
  { clear. induction vals as [|v vals IH]; [reflexivity|]. cbn [map filter zsum fold_right]. unfold zsum in IH. rewrite IH. destruct (Qeq_bool (nth 3 v 0%Q) 0); cbn [length]; lia. }
  repeat (split; [assumption|]). pose proof (mapM_length _ _ _ _ _ EE) as LE. rewrite seq_length in LE. split; [auto|]. intros t row cut Ht.
  assert (L : t < nt) by (rewrite <- LE; apply nth_error_Some; congruence).
  destruct (mapM_nth _ _ _ _ _ t t EE) as (y & Y1 & Y2); [rewrite nth_error_seq by auto; reflexivity|]. rewrite Ht in Y1. inversion Y1; subst y. cbv beta in Y2.
  destruct (RO (4 + t * 2) ltac:(unfold n; lia) ltac:(lia)) as (r & E & R). rewrite E in Y2. cbn [obind] in Y2.
  destruct (MS (5 + t * 2) ltac:(unfold n; lia)) as (a & b & E1 & E2 & M). rewrite E1, E2 in Y2. cbn [obind] in Y2. inversion Y2; subst.
  replace (2 * t) with (t * 2) by lia. auto.
Qed.
Print Assumptions C35_table_partial.

(** Without edge types the loop over the averages writes beyond the end of the array. *)
Theorem C35_no_types_refuted : forall vals, evaluatePartition 0 vals = None.
Proof.
  intros vals. unfold evaluatePartition, fill_avg. set (tot := reduce all_sum (4 + 0 * 2) vals). change (5 + 0) with (4 + 1). rewrite seq_app, foldM_app.
  destruct (foldM _ (seq 0 4) _) as [a|]; [|reflexivity]. cbn [obind]. cbn [Nat.add seq foldM]. assert (E : nth_error tot 4 = None) by (apply nth_error_None; unfold tot; rewrite reduce_length; lia). now rewrite E.
Qed.
Print Assumptions C35_no_types_refuted.
(** With three or more types the average printed for the last type is read from a cell that was never written. *)
Theorem C35_many_types_refuted : forall nt vals, 3 <= nt -> evaluatePartition nt vals = None.
Proof.
  intros nt vals Hn. unfold evaluatePartition. set (n := 4 + nt * 2). set (mx := reduce all_max n vals). set (mn := reduce all_min n vals). set (tot := reduce all_sum n vals).
  unfold fill_avg. fold n. destruct (fill_step nt (length vals) tot (5 + nt) (anew n)) as (avg & EA & LA & GA); [apply repeat_length|lia|apply reduce_length|].
  rewrite EA. cbn [obind]. do 5 (match goal with |- obind ?x _ = None => destruct x; [|reflexivity]; cbn [obind] end).
  match goal with |- obind ?x _ = None => destruct x as [es|] eqn:EE; [|reflexivity] end.
  exfalso. destruct (mapM_nth _ _ _ _ _ (nt - 1) (nt - 1) EE) as (y & _ & Y2); [rewrite nth_error_seq by lia; reflexivity|]. cbv beta in Y2.
  unfold get_row in Y2. destruct (nth_error mx (4 + (nt - 1) * 2)); [|discriminate]. cbn [obind] in Y2. destruct (nth_error mn (4 + (nt - 1) * 2)); [|discriminate]. cbn [obind] in Y2.
  rewrite GA in Y2. destruct (Nat.ltb_spec (4 + (nt - 1) * 2) (5 + nt)); [lia|]. assert (X : aget (@anew Q n) (4 + (nt - 1) * 2) = None).
  { unfold aget, anew. destruct (nth_error (repeat None n) (4 + (nt - 1) * 2)) eqn:E; auto. apply nth_error_In, repeat_spec in E. now subst. }
  rewrite X in Y2. discriminate.
Qed.
Print Assumptions C35_many_types_refuted.
(** the values of two parts with one edge type *)
Definition ex_vals : list (list Q) := [[0; 1; 5; 7; 4; 2]; [1; 1; 3; 4; 6; 3]]%Q.
Example C35_example : (forall v, In v ex_vals -> length v = 4 + 1 * 2) /\
  option_map (fun r => (rp_empty r, Qred (r_avg (rp_vtx r)), option_map Qred (r_imb (rp_vtx r)), map (fun e => (Qred (r_avg (fst e)), Qred (snd (snd e)))) (rp_edges r))) (evaluatePartition 1 ex_vals)
  = Some (0%Z, 4 # 1, Some (5 # 4), [(5 # 1, 5 # 1)])%Q.
Proof. split; [intros v [<-|[<-|[]]]; reflexivity|vm_compute; reflexivity]. Qed.
