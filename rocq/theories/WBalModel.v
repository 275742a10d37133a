(** Weight diffusion: partition/Diffusive/src/engpar_weightSelector.cpp, engpar_weightBalancer.cpp, Diffusive/engpar_weight_input.cpp.
    Simplifications: a vertex weight is stored as a whole number of units of 1/D (finitely many doubles are always multiples of a common
    power of two) and no operation rounds; [val] gives the value of a stored edge weight; int is unbounded; timers, logs and messages are
    omitted; the results of global reductions are the same on every part.  [ord] is the order in which an unordered_set is traversed;
    predicates on outcomes hold for every such order and every order of arrival of messages; [None]/[False] is undefined behaviour or
    exhausted fuel. *)
From Verif Require Import Base GraphModel Comm TagModel MetricsModel SdModel QueueModel MigrateModel SelectorModel WeightMigModel.
Local Open Scope nat_scope.

Definition qless (a b : Q) : bool := negb (Qle_bool b a).
Section W.
Variables (val : Z -> Q) (D : positive).
(** the value of a stored vertex weight *)
Definition units (z : Z) : Q := (z # D)%Q.
Variable ord : list nat -> list nat.

(** getWeightCavity, engpar_weightSelector.cpp:9-22: the last owned pin and the set of the others *)
Definition weight_cavity (g : graph) (fuel e : nat) : option (option nat * list nat) :=
  ps <- edge_pins g e fuel ;;
  foldM (fun '(mine, others) v => o <- owner g v ;; Some (if Z.eqb o (self g) then (Some v, others) else (mine, sadd others v))) ps (None, []).

(** operator[] of a map of (whole) doubles *)
Definition at_whole (m : zmap Z) (k : Z) : Z := match zfind m k with Some x => x | None => 0%Z end.
Fixpoint nput (m : list (nat * Z)) (k : nat) (x : Z) : list (nat * Z) :=
  match m with [] => [(k, x)] | (k', y) :: r => if k' =? k then (k', x) :: r else (k', y) :: nput r k x end.
Definition nat_whole (m : list (nat * Z)) (k : nat) : Z := match nfind m k with Some x => x | None => 0%Z end.
(** WeightSelector (engpar_weightSelector.h:27-30), the plan it fills and planW; the amounts are conversions to int, hence whole *)
Record wsel := mkWS { ws_q : sarr; ws_sending : zmap Z; ws_vsend : list (nat * Z); ws_plan : wmig; ws_w : Z }.
(** the body of the loop over the cavity, engpar_weightSelector.cpp:37-48; k is cav.size(), w the weight left when the edge was reached *)
Definition send_to (g : graph) (targets : cont Q) (mine : nat) (w : Q) (k : nat) (st : wsel) (v : nat) : option wsel :=
  o <- owner g v ;;
  let t := cget 0%Q targets o in let s := at_whole (ws_sending st) o in
  if chas targets o && qless (inject_Z s) t then
    let x0 := trunc (w * (1 # 10) / inject_Z (Z.of_nat k)) in
    let x := if qless (t - inject_Z s) (inject_Z x0) then trunc (t - inject_Z s) else x0 in
    Some (mkWS (ws_q st) (zput (ws_sending st) o (s + x)%Z) (nput (ws_vsend st) mine (nat_whole (ws_vsend st) mine + x)%Z)
               (wm_insert (ws_plan st) mine v (x * Zpos D)%Z) (ws_w st + x)%Z)
  else Some st.
(** the body of the loop over the queue, engpar_weightSelector.cpp:32-50; a NULL vertex has no weight *)
Definition weigh_edge (g : graph) (fuel : nat) (targets : cont Q) (st : wsel) (e : nat) : option wsel :=
  '(m, cav) <- weight_cavity g fuel e ;; mine <- m ;;
  x <- weight_of units g None mine ;; let w := (x - inject_Z (nat_whole (ws_vsend st) mine))%Q in
  st' <- foldM (send_to g targets mine w (length cav)) (ord cav) st ;;
  q' <- sa_add (ws_q st') e ;; Some (mkWS q' (ws_sending st') (ws_vsend st') (ws_plan st') (ws_w st')).
(** the loop, engpar_weightSelector.cpp:30-51 *)
Fixpoint weigh_loop (g : graph) (fuel : nat) (targets : cont Q) (is : list nat) (st : wsel) : option wsel :=
  match is with
  | [] => Some st
  | i :: r => if qless (c_total targets) (inject_Z (ws_w st)) then Some st
              else e <- sa_get (ws_q st) i ;; st' <- weigh_edge g fuel targets st e ;; weigh_loop g fuel targets r st'
  end.
(** WeightSelector::select, engpar_weightSelector.cpp:24-53 *)
Definition weigh (g : graph) (fuel : nat) (targets : cont Q) (st : wsel) : option wsel :=
  let q0 := sa_start (ws_q st) in
  weigh_loop g fuel targets (seq 0 (sa_size q0)) (mkWS q0 (ws_sending st) (ws_vsend st) (ws_plan st) (ws_w st)).
(** for (i < selectIterations), engpar_weightBalancer.cpp:76-83: the sums are whole, so a difference below .00001 is not positive *)
Fixpoint weigh_times (n : nat) (g : graph) (fuel : nat) (targets : cont Q) (st : wsel) : option wsel :=
  match n with
  | 0 => Some st
  | S k => st' <- weigh g fuel targets st ;; if (ws_w st' - ws_w st <=? 0)%Z then Some st' else weigh_times k g fuel targets st'
  end.
(** the queue, the selector and the plan of one part, engpar_weightBalancer.cpp:62-83 *)
Definition weight_plan (g : graph) (fuel : nat) (targets : cont Q) : option wmig :=
  q <- createIterationQueue g fuel ;; st <- weigh_times 10 g fuel targets (mkWS q [] [] wm_new 0%Z) ;; Some (ws_plan st).
End W.

Section Step.
Variables (val : Z -> Q) (D : positive) (fuel : nat).
(** WeightInput, engpar_weight_input.cpp:4-9 *)
Record winput := mkWI { w_max : Z; w_tol : Q; w_step : Q; w_type : nat }.
Variable inp : winput.
Definition wworld := list (graph * flow).
(** getWeight(g, -1, false) on every part *)
Definition wb_weights (w : wworld) : option (list Q) := mapM (fun s => getWeight (units D) (fst s) None None false fuel) w.
(** makeSides and makeWeights, engpar_weightBalancer.cpp:44-48, engpar_sides.h:15-35, engpar_weights.h:13-31 *)
Definition wb_exchange (w : wworld) (Q : list (cont Z * (QArith_base.Q * cont QArith_base.Q)) -> Prop) : Prop :=
  exists sides ws, mapM (fun s => makeSides val (fst s) (w_type inp) fuel) w = Some sides /\ wb_weights w = Some ws /\
  phase (fun x => Some (weights_sent (fst x) (snd x))) (fun x r => Some (fst x, (snd x, weights_recv r))) (combine sides ws) Q.
(** makeTargets without completed dimensions, engpar_weightBalancer.cpp:51-53 *)
Definition wb_targets (n : nat) (sideTol : Z) (g : graph) (x : cont Z * (Q * cont Q)) : option (cont Q) :=
  makeTargets (hyper g) n (w_step inp) (fst x) (snd (snd x)) (fst (snd x)) sideTol [].
(** runStep, engpar_weightBalancer.cpp:33-117: 1 = within tolerance, 2 = stagnation, 3 = nothing to migrate, 0 = migrated.
    [o r] is the order of the sets of part r *)
Definition wb_step (sideTol : Z) (s : sd) (w : wworld) (Q : Z -> sd -> wworld -> Prop) : Prop :=
  exists ws imb, wb_weights w = Some ws /\ imbalance ws = Some imb /\
  if qless imb (w_tol inp) then Q 1%Z s w
  else
    exists s' stop, sd_push s imb = Some s' /\ (if sd_full s' then m <- sd_slope s' ;; Some (qless 0 m) else Some false) = Some stop /\
    if stop : bool then Q 2%Z s' w
    else wb_exchange w (fun xs => exists tgts, par2 (fun _ s x => wb_targets (length w) sideTol (fst s) x) 0 w xs = Some tgts /\
      forall o : nat -> list nat -> list nat, (forall r c, Permutation (o r c) c) ->
      exists mps, par2 (fun r s t => p <- weight_plan D (o r) (fst s) fuel t ;; Some (mkWMP (fst s) (snd s) p)) 0 w tgts = Some mps /\
      if (0 <? zsum (map (fun m => wm_size (wp_plan m)) mps))%Z then weight_migrate fuel mps (fun w' => Q 0%Z s' w') else Q 3%Z s' w).
(** while (step++ < maxIterations && !runStep(tol)), engpar_weightBalancer.cpp:176; [n] bounds the rounds *)
Fixpoint wb_loop (n : nat) (sideTol step : Z) (s : sd) (w : wworld) (Q : Z -> wworld -> Prop) : Prop :=
  match n with
  | 0 => False
  | S f => if (step <? w_max inp)%Z then wb_step sideTol s w (fun rc s' w' => if Z.eqb rc 0 then wb_loop f sideTol (step + 1)%Z s' w' Q else Q (step + 1)%Z w')
           else Q (step + 1)%Z w
  end.
(** simplifyPlan, engpar_weightBalancer.cpp:18-31: entries that are not positive are erased (a [flow] lists the newest value of a key first) *)
Definition simplify (m : flow) : flow := filter (fun x => (0 <? fl_get m (fst (fst x)) (snd (fst x)))%Z) m.
Definition fl_has (m : flow) (a b : Z) : bool := existsb (fun x => Z.eqb (fst (fst x)) a && Z.eqb (snd (fst x)) b) m.
(** balance, engpar_weightBalancer.cpp:118-219: the flow is cleared; sideTol is ten times the number of edges (numGlobalEdges) *)
Definition wb_balance (sideTol : Z) (gs : list graph) (Q : Z -> wworld -> Prop) : Prop :=
  if length gs =? 1 then Q 0%Z (map (fun g => (g, [])) gs)
  else wb_loop (Z.to_nat (w_max inp) + 1) sideTol 0%Z sd_new (map (fun g => (g, [])) gs) (fun st w => Q st (map (fun s => (fst s, simplify (snd s))) w)).
End Step.
