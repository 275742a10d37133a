(** The control flow of the diffusive balancers: Balancer::balance and runStep (partition/Diffusive/src/engpar_balancer.cpp:83-350),
    WeightBalancer::balance and runStep (engpar_weightBalancer.cpp:33-187).
    What a step computes from the distributed graph is a parameter: [imbalance w d] is EnGPar_Get_Imbalance of the weights
    of dimension d, [planned w d cd cw] is the plan of one step (total number of vertices planned over all parts, and the
    world after the plan was migrated), [max_weight] and [avg_weight] are getMaxWeight and getAvgWeight, [prepare] is
    partWeightBalancer.  These values come out of global reductions, so every part takes the same branches.
    Simplifications: doubles are rationals, int counters are unbounded, timers, logging and messages are omitted.
    The field [b_moves] is a ghost field: the dimension of every migration performed, in order. *)
From Verif Require Import Base SdModel.
Local Open Scope nat_scope.

Record config := mkCfg { c_prio : list Z; c_tols : list Q; c_max : Z; c_per : Z; c_pwb : bool }.
(** the members sd, completed_dimensions, completed_weights of Balancer, and the distributed graph *)
Record bstate (W : Type) := mkB { b_world : W; b_sd : sd; b_dims : list Z; b_ws : list Q; b_moves : list Z }.
Arguments mkB {W}. Arguments b_world {W}. Arguments b_sd {W}. Arguments b_dims {W}. Arguments b_ws {W}. Arguments b_moves {W}.

Section Model.
Context {W : Type}.
Variables (imbalance : W -> Z -> Q) (planned : W -> Z -> list Z -> list Q -> nat * W) (max_weight avg_weight : W -> Z -> Q) (prepare : W -> Z -> Q -> W).
Definition qlt (a b : Q) : bool := match Qcompare a b with Lt => true | _ => false end.

(** runStep, engpar_balancer.cpp:83-194: 1 = within tolerance, 2 = stagnation, 3 = nothing migrated, 0 = migrated *)
Definition runStep (dim : Z) (tol : Q) (b : bstate W) : option (Z * bstate W) :=
  let imb := imbalance (b_world b) dim in
  if qlt imb tol then Some (1%Z, b)
  else
    s <- sd_push (b_sd b) imb ;;
    stop <- (if sd_full s then m <- sd_slope s ;; Some (qlt 0%Q m) else Some false) ;;
    let b1 := mkB (b_world b) s (b_dims b) (b_ws b) (b_moves b) in
    if stop : bool then Some (2%Z, b1)
    else
      let '(n, w') := planned (b_world b) dim (b_dims b) (b_ws b) in
      if 0 <? n then Some (0%Z, mkB w' s (b_dims b) (b_ws b) (b_moves b ++ [dim])) else Some (3%Z, b1).
(** while ((rc = runStep(tol)) == 0 && inner_steps++ < maxIterationsPerType && step++ < maxIterations), 278-281 *)
Fixpoint diffuse (fuel : nat) (cfg : config) (dim : Z) (tol : Q) (inner step : Z) (b : bstate W) : option (Z * Z * Z * bstate W) :=
  match fuel with
  | 0 => None
  | S f =>
      '(rc, b') <- runStep dim tol b ;;
      if Z.eqb rc 0 then
        if (inner <? c_per cfg)%Z then
          if (step <? c_max cfg)%Z then diffuse f cfg dim tol (inner + 1)%Z (step + 1)%Z b'
          else Some (rc, (inner + 1)%Z, (step + 1)%Z, b')
        else Some (rc, (inner + 1)%Z, step, b')
      else Some (rc, inner, step, b')
  end.
(** the body of the do loop, 238-321 *)
Definition phase (fuel : nat) (cfg : config) (index : nat) (step : Z) (b : bstate W) : option (Z * bstate W) :=
  dim <- nth_error (c_prio cfg) index ;;
  let tol := match nth_error (c_tols cfg) index with Some t => t | None => (11 # 10)%Q end in
  let w := if c_pwb cfg then prepare (b_world b) dim tol else b_world b in
  '(_, _, step', b') <- diffuse fuel cfg dim tol 0%Z step (mkB w sd_new (b_dims b) (b_ws b) (b_moves b)) ;;
  let maxW := max_weight (b_world b') dim in let tgt := (avg_weight (b_world b') dim * tol)%Q in
  Some (step', mkB (b_world b') (b_sd b') (b_dims b' ++ [dim]) (b_ws b' ++ [if qlt maxW tgt then tgt else maxW]) (b_moves b')).
(** do { ... } while (index < priorities.size() && step < maxIterations), 237-323 *)
Fixpoint phases (fuel ifuel : nat) (cfg : config) (index : nat) (step : Z) (b : bstate W) : option (Z * bstate W) :=
  match fuel with
  | 0 => None
  | S f =>
      '(step', b') <- phase ifuel cfg index step b ;;
      if (S index <? length (c_prio cfg)) && (step' <? c_max cfg)%Z then phases f ifuel cfg (S index) step' b' else Some (step', b')
  end.
(** balance, engpar_balancer.cpp:195-350 *)
Definition balance (fuel : nat) (peers : Z) (cfg : config) (w : W) : option (Z * bstate W) :=
  let b := mkB w sd_new [] [] [] in
  if Z.eqb peers 1 then Some (0%Z, b) else phases fuel fuel cfg 0 0%Z b.

(** WeightBalancer::runStep has the same control flow (engpar_weightBalancer.cpp:33-117).
    WeightBalancer::balance, 168-186: while (step++ < maxIterations && !runStep(tol)) *)
Fixpoint weight_loop (fuel : nat) (maxit : Z) (tol : Q) (step : Z) (b : bstate W) : option (Z * bstate W) :=
  match fuel with
  | 0 => None
  | S f => if (step <? maxit)%Z then '(rc, b') <- runStep (-1)%Z tol b ;; if Z.eqb rc 0 then weight_loop f maxit tol (step + 1)%Z b' else Some ((step + 1)%Z, b')
           else Some ((step + 1)%Z, b)
  end.
Definition balance_weights (fuel : nat) (peers maxit : Z) (tol : Q) (w : W) : option (Z * bstate W) :=
  let b := mkB w sd_new [] [] [] in if Z.eqb peers 1 then Some (0%Z, b) else weight_loop fuel maxit tol 0%Z b.
End Model.
