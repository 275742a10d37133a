(** C57 on traditional graphs: the run of the balancer loses edges. *)
From Verif Require Import Base GraphModel GraphSpec CsrProofs TagModel MetricsModel QueueModel MigrateModel MigrateSpec MigrateProps TradSpec TradProps SelectorModel SdModel RepartModel StepModel StepProps.
From Coq Require Import QArith.
Local Open Scope nat_scope.

(** A path of six vertices, both directions stored; part 0 holds five of them. *)
Definition c57t_V : list (Z * (Z * Z)) := [(1, (1, 0)); (2, (1, 0)); (3, (1, 0)); (4, (1, 0)); (5, (1, 0)); (6, (1, 1))]%Z.
Definition c57t_A : list arc := [(1, 2); (2, 1); (2, 3); (3, 2); (3, 4); (4, 3); (4, 5); (5, 4); (5, 6); (6, 5)]%Z.
Definition c57t_own (v : Z) : nat := if Z.leb v 5 then 0 else 1.
Definition c57t_ps : list pdesc :=
  [mkPD [1; 2; 3; 4; 5]%Z [1; 1; 1; 1; 1]%Z [([(100, [1; 2]); (101, [2; 1]); (102, [2; 3]); (103, [3; 2]); (104, [3; 4]); (105, [4; 3]); (106, [4; 5]); (107, [5; 4]); (108, [5; 6])], [])]%Z [(6, 1)]%Z [0; 0; 0; 0; 0]%Z;
   mkPD [6]%Z [1]%Z [([(109, [6; 5])], [])]%Z [(5, 0)]%Z [1]%Z].
(** vertices only, tolerance 1.1, step factor 1/2, the queue that is the default for traditional graphs *)
Definition c57t_inp : dinput := mkDI [None] [11 # 10]%Q 50 10 (1 # 2)%Q 0 false true 0%Q 1 1.
Definition fresh_trad (ps : list pdesc) : option (list (graph * option (arr Z))) :=
  mapM (fun x : nat * pdesc => g <- build_part (Z.of_nat (fst x)) false (pd_verts (snd x)) (pd_vws (snd x)) (pd_tys (snd x)) (pd_owns (snd x)) ;; Some (g, None)) (combine (seq 0 (length ps)) ps).
(** the ids of the vertices of every part, and the ends of the edges stored by every part *)
Definition vertices_at (w : list (graph * option (arr Z))) : option (list (list Z)) := mapM (fun s => hs <- all_verts (fst s) 200 ;; mapM (vgid (fst s)) hs) w.
Definition arcs_at (w : list (graph * option (arr Z))) : option (list (list (list Z))) := mapM (fun s => es <- edges_seen 200 0 (fst s, []) ;; Some (map snd es)) w.
Definition arcs_list (l : list arc) : list (list Z) := map (fun a => [fst a; snd a]) l.

(** *** the run does nothing for the balance and loses two edges: after it every part has the vertices it had, and the edges 4 -> 5 and 6 -> 5 are nowhere *)
Theorem C57_traditional_refuted : tdistributed c57t_own c57t_V c57t_A 1 c57t_ps /\ (forall a b, In (a, b) c57t_A -> In (b, a) c57t_A) /\ exists w, fresh_trad c57t_ps = Some w /\
  vertices_at w = Some [[1; 2; 3; 4; 5]; [6]]%Z /\ arcs_at w = Some [arcs_list [(1, 2); (2, 1); (2, 3); (3, 2); (3, 4); (4, 3); (4, 5); (5, 4); (5, 6)]; arcs_list [(6, 5)]]%Z /\
  forall Q, balance inject_Z 200 c57t_inp w Q -> exists steps ds w', Q steps ds w' /\
  vertices_at w' = Some [[1; 2; 3; 4; 5]; [6]]%Z /\ arcs_at w' = Some [arcs_list [(1, 2); (2, 1); (2, 3); (3, 2); (3, 4); (4, 3); (5, 4); (5, 6)]; []]%Z.
Proof.
  split; [apply tdistributedb_ok; vm_compute; reflexivity|]. split. { intros a b H. cbn in H. intuition (match goal with X : _ = (a, b) |- _ => inversion X; subst end; cbn; auto 12). }
  destruct (fresh_trad c57t_ps) as [w|] eqn:E; [|vm_compute in E; discriminate]. exists w. split; auto. vm_compute in E. inversion E; subst w. split; [vm_compute; reflexivity|]. split; [vm_compute; reflexivity|].
  intros Q H. apply run_balance_some in H as (st & ds & w' & H & HQ). exists st, ds, w'. split; auto. vm_compute in H. inversion H; subst. split; vm_compute; reflexivity.
Qed.
Print Assumptions C57_traditional_refuted.

(** *** one step moves weight from the light part to the heavy one: when only the light part has edges to the other, it never hears of the weight of that part and takes it for 0 *)
Definition c57u_V : list (Z * (Z * Z)) := [(1, (1, 0)); (2, (1, 0)); (3, (1, 0)); (4, (1, 0)); (5, (1, 1)); (6, (1, 1))]%Z.
Definition c57u_A : list arc := [(1, 2); (2, 3); (3, 4); (5, 4); (5, 6); (6, 5)]%Z.
Definition c57u_own (v : Z) : nat := if Z.leb v 4 then 0 else 1.
Definition c57u_ps : list pdesc :=
  [mkPD [1; 2; 3; 4]%Z [1; 1; 1; 1]%Z [([(100, [1; 2]); (101, [2; 3]); (102, [3; 4])], [])]%Z [] [0; 0; 0; 0]%Z;
   mkPD [5; 6]%Z [1; 1]%Z [([(103, [5; 4]); (104, [5; 6]); (105, [6; 5])], [])]%Z [(4, 0)]%Z [1; 1]%Z].
Theorem C57_light_to_heavy_refuted : tdistributed c57u_own c57u_V c57u_A 1 c57u_ps /\ exists w, fresh_trad c57u_ps = Some w /\ vertices_at w = Some [[1; 2; 3; 4]; [5; 6]]%Z /\
  forall w0, mapM (fun s => oo <- setOriginalOwners (fst s) (snd s) ;; Some (fst s, oo)) w = Some w0 -> weights_of inject_Z 200 None w0 = Some [4; 2]%Q /\
  forall sideTol Q, runStep inject_Z 200 c57t_inp None (11 # 10)%Q sideTol [] sd_new w0 Q ->
  exists s w', Q 0%Z s w' /\ vertices_at (map (fun s => (fst s, Some (snd s))) w') = Some [[1; 2; 3; 4; 5]; [6]]%Z.
Proof.
  split; [apply tdistributedb_ok; vm_compute; reflexivity|]. destruct (fresh_trad c57u_ps) as [w|] eqn:E; [|vm_compute in E; discriminate]. exists w. split; auto. vm_compute in E. inversion E; subst w. split; [vm_compute; reflexivity|].
  intros w0 H0. vm_compute in H0. inversion H0; subst w0. split; [vm_compute; reflexivity|]. intros sideTol Q H. apply run_runStep_some in H as (rc & s' & w' & H & HQ). exists s', w'.
  vm_compute in H. inversion H; subst. split; [exact HQ|vm_compute; reflexivity].
Qed.
Print Assumptions C57_light_to_heavy_refuted.
