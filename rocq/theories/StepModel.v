(** A whole run of the diffusive balancer on all parts: Balancer::runStep and Balancer::balance
    (partition/Diffusive/src/engpar_balancer.cpp:44-350), put together from the models of its components.
    Simplifications: doubles are exact rationals ([val] gives the value of a stored weight), int is unbounded; timers, logs and messages are
    omitted; countGhosts and runPartWeightBalancer are false (their defaults, engpar_diffusive_input.cpp:5-22).  The values that come out of
    global reductions are the same on every part.  A predicate [Q] on the outcome holds for every order of arrival of the messages and every
    order in which the unordered sets and maps of the selectors are traversed; [False] is undefined behaviour or exhausted fuel. *)
From Verif Require Import Base GraphModel Comm TagModel MetricsModel SdModel QueueModel MigrateModel RepartModel SelectorModel.
Local Open Scope nat_scope.

(** DiffusiveInput, engpar_diffusive_input.h; a priority -1 is [None] *)
Record dinput := mkDI { i_prio : list (option nat); i_tols : list Q; i_max : Z; i_per : Z; i_step : Q; i_side : nat; i_dist : bool; i_push : bool; i_growth : Q; i_con : nat; i_min : nat }.
(** one dimension that was completed: its tolerance, the value returned by the last runStep, the weights of the parts then, and the limit kept in
    completed_weights *)
Record done := mkDone { dn_dim : option nat; dn_tol : Q; dn_rc : Z; dn_ws : list Q; dn_lim : Q }.
Definition qlt (a b : Q) : bool := negb (Qle_bool b a).

Section Step.
Variables (val : Z -> Q) (fuel : nat) (inp : dinput).
Definition world := list (graph * arr Z).
(** the orders in which the sets and maps of a selector are traversed *)
Definition orders := nat -> (list nat -> list nat) * (list (Z * list nat) -> list (Z * list nat)).
Definition fair (o : orders) : Prop := forall r, (forall c, Permutation (fst (o r) c) c) /\ forall m, Permutation (snd (o r) m) m.

(** getWeight on every part *)
Definition weights_of (dim : option nat) (w : world) : option (list Q) := mapM (fun s => getWeight val (fst s) None dim false fuel) w.
(** makeSides on every part, makeSides(inp) = new Sides(g, sides_edge_type) *)
Definition sides_of (w : world) : option (list (cont Z)) := mapM (fun s => makeSides val (fst s) (i_side inp) fuel) w.
(** makeWeights, engpar_weights.h:14-29: my weight, and the weights of the neighbours *)
Definition makeWeights (dim : option nat) (w : world) (sides : list (cont Z)) (Q : list (QArith_base.Q * cont QArith_base.Q) -> Prop) : Prop :=
  exists ws, weights_of dim w = Some ws /\ phase (fun x => Some (weights_sent (fst x) (snd x))) (fun x r => Some (snd x, weights_recv r)) (combine sides ws) Q.
(** completedWs, engpar_balancer.cpp:101-107 *)
Fixpoint completed (dims : list (option nat)) (w : world) (sides : list (cont Z)) (Q : list (list (cont QArith_base.Q)) -> Prop) : Prop :=
  match dims with [] => Q [] | d :: r => makeWeights d w sides (fun c => completed r w sides (fun cs => Q (map snd c :: cs))) end.
(** makeTargets on part r of n, engpar_targets.h:13-38 *)
Definition part_targets (n : nat) (sideTol : Z) (cs : list (list (cont Q))) (lims : list Q) (r : nat) (g : graph) (side : cont Z) (wt : Q * cont Q) : option (cont Q) :=
  col <- mapM (fun c => nth_error c r) cs ;; makeTargets (hyper g) n (i_step inp) side (snd wt) (fst wt) sideTol (combine col lims).
(** the queue, the selector and the plan of one part, engpar_balancer.cpp:124-141 *)
Definition part_plan (o : orders) (dim : option nat) (r : nat) (s : graph * arr Z) (targets : cont Q) : option mpart :=
  let g := fst s in
  q <- (if i_dist inp then createDistanceQueue (i_push inp) g fuel else createIterationQueue g fuel) ;;
  s0 <- (p0 <- plan_new g fuel ;; new_selector g fuel q p0) ;;
  s1 <- select_sizes val (fst (o r)) (snd (o r)) g None fuel targets (i_growth inp) dim s0 ;;
  s2 <- selectDisconnected val (fst (o r)) (snd (o r)) g None fuel (i_con inp) (i_min inp) dim s1 ;;
  Some (mkMP g (snd s) (s_plan s2)).
(** trim and cancel, engpar_balancer.cpp:142-154 *)
Definition trimmed (ds : list done) (mps : list mpart) (Q : list mpart -> Prop) : Prop :=
  match ds with
  | [] => Q mps
  | _ => trim_cancel val fuel (map dn_dim ds) (map dn_lim ds) false (map (fun m => mkSP (mp_g m) None (mp_plan m)) mps)
           (fun plans => Q (map (fun x => mkMP (mp_g (fst x)) (mp_oo (fst x)) (snd x)) (combine mps plans)))
  end.
(** the plan of a step, engpar_balancer.cpp:91-163 *)
Definition planning (dim : option nat) (sideTol : Z) (ds : list done) (w : world) (Q : list mpart -> Prop) : Prop :=
  exists sides, sides_of w = Some sides /\
  makeWeights dim w sides (fun tw => completed (map dn_dim ds) w sides (fun cs =>
  exists tgts, par2 (fun r s x => part_targets (length w) sideTol cs (map dn_lim ds) r (fst s) (fst x) (snd x)) 0 w (combine sides tw) = Some tgts /\
  forall o, fair o -> exists mps, par2 (fun r s t => part_plan o dim r s t) 0 w tgts = Some mps /\ trimmed ds mps Q)).
(** runStep, engpar_balancer.cpp:83-194: 1 = within tolerance, 2 = stagnation, 3 = nothing to migrate, 0 = migrated *)
Definition runStep (dim : option nat) (tol : Q) (sideTol : Z) (ds : list done) (s : sd) (w : world) (Q : Z -> sd -> world -> Prop) : Prop :=
  exists ws imb, weights_of dim w = Some ws /\ imbalance ws = Some imb /\
  if qlt imb tol then Q 1%Z s w
  else
    exists s' stop, sd_push s imb = Some s' /\ (if sd_full s' then m <- sd_slope s' ;; Some (qlt 0 m) else Some false) = Some stop /\
    if stop : bool then Q 2%Z s' w
    else planning dim sideTol ds w (fun mps => if 0 <? nsum (map (fun m => length (pl_sending (mp_plan m))) mps) then migrate fuel mps (fun w' => Q 0%Z s' w') else Q 3%Z s' w).
(** while ((rc = runStep(tol)) == 0 && inner_steps++ < maxIterationsPerType && step++ < maxIterations), engpar_balancer.cpp:278-281 *)
Fixpoint diffuse (n : nat) (dim : option nat) (tol : Q) (sideTol : Z) (ds : list done) (inner step : Z) (s : sd) (w : world) (Q : Z -> Z -> world -> Prop) : Prop :=
  match n with
  | 0 => False
  | S f =>
      runStep dim tol sideTol ds s w (fun rc s' w' =>
        if Z.eqb rc 0 then
          if (inner <? i_per inp)%Z then
            if (step <? i_max inp)%Z then diffuse f dim tol sideTol ds (inner + 1)%Z (step + 1)%Z s' w' Q else Q rc (step + 1)%Z w'
          else Q rc step w'
        else Q rc step w')
  end.
(** averageSides, engpar_balancer.cpp:55-59, converted to int *)
Definition averageSides (sides : list (cont Z)) : Z := trunc (all_sum (map (fun s => inject_Z (c_total s)) sides) / inject_Z (Z.of_nat (length sides))).
(** the body of the do loop, engpar_balancer.cpp:238-321; getMaxWeight and getAvgWeight are 44-54 *)
Definition dimension (n index : nat) (step : Z) (ds : list done) (w : world) (Q : Z -> list done -> world -> Prop) : Prop :=
  exists dim, nth_error (i_prio inp) index = Some dim /\
  let tol := match nth_error (i_tols inp) index with Some t => t | None => (11 # 10)%Q end in
  exists sides, sides_of w = Some sides /\
  diffuse n dim tol (averageSides sides) ds 0%Z step sd_new w (fun rc step' w' =>
    exists ws, weights_of dim w' = Some ws /\
    let maxW := all_max ws in let tgt := (all_sum ws / inject_Z (Z.of_nat (length ws)) * tol)%Q in
    Q step' (ds ++ [mkDone dim tol rc ws (if qlt maxW tgt then tgt else maxW)]) w').
(** do { ... } while (index < priorities.size() && step < maxIterations), engpar_balancer.cpp:237-323; [k] bounds the number of rounds *)
Fixpoint dimensions (k n index : nat) (step : Z) (ds : list done) (w : world) (Q : Z -> list done -> world -> Prop) : Prop :=
  match k with
  | 0 => False
  | S f => dimension n index step ds w (fun step' ds' w' =>
             if (S index <? length (i_prio inp)) && (step' <? i_max inp)%Z then dimensions f n (S index) step' ds' w' Q else Q step' ds' w')
  end.
(** balance, engpar_balancer.cpp:195-350: with one part nothing is done *)
Definition balance (w : list (graph * option (arr Z))) (Q : Z -> list done -> list (graph * option (arr Z)) -> Prop) : Prop :=
  if length w =? 1 then Q 0%Z [] w
  else local (fun s => oo <- setOriginalOwners (fst s) (snd s) ;; Some (fst s, oo)) w (fun w0 =>
       dimensions (Nat.max 1 (length (i_prio inp))) (Z.to_nat (i_per inp) + 1) 0 0%Z [] w0 (fun step ds w' => Q step ds (map (fun s => (fst s, Some (snd s))) w'))).

(** ** The same run with the messages arriving in the order of their senders and the sets traversed in the order in which they are listed; the
    lines modelled are those of the definitions above *)
Definition id_orders : orders := fun _ => (fun c => c, fun m => m).
(** as [makeWeights], engpar_weights.h:14-29 *)
Definition run_makeWeights (dim : option nat) (w : world) (sides : list (cont Z)) : option (list (Q * cont Q)) :=
  ws <- weights_of dim w ;; run_phase (fun x => Some (weights_sent (fst x) (snd x))) (fun x r => Some (snd x, weights_recv r)) (combine sides ws).
(** as [completed], engpar_balancer.cpp:101-107 *)
Fixpoint run_completed (dims : list (option nat)) (w : world) (sides : list (cont Z)) : option (list (list (cont Q))) :=
  match dims with [] => Some [] | d :: r => c <- run_makeWeights d w sides ;; cs <- run_completed r w sides ;; Some (map snd c :: cs) end.
(** as [trimmed], engpar_balancer.cpp:142-154 *)
Definition run_trimmed (ds : list done) (mps : list mpart) : option (list mpart) :=
  match ds with
  | [] => Some mps
  | _ => plans <- run_trim_cancel val fuel (map dn_dim ds) (map dn_lim ds) false (map (fun m => mkSP (mp_g m) None (mp_plan m)) mps) ;;
         Some (map (fun x => mkMP (mp_g (fst x)) (mp_oo (fst x)) (snd x)) (combine mps plans))
  end.
(** as [planning], engpar_balancer.cpp:91-163 *)
Definition run_planning (dim : option nat) (sideTol : Z) (ds : list done) (w : world) : option (list mpart) :=
  sides <- sides_of w ;; tw <- run_makeWeights dim w sides ;; cs <- run_completed (map dn_dim ds) w sides ;;
  tgts <- par2 (fun r s x => part_targets (length w) sideTol cs (map dn_lim ds) r (fst s) (fst x) (snd x)) 0 w (combine sides tw) ;;
  mps <- par2 (fun r s t => part_plan id_orders dim r s t) 0 w tgts ;; run_trimmed ds mps.
(** as [runStep], engpar_balancer.cpp:83-194 *)
Definition run_runStep (dim : option nat) (tol : Q) (sideTol : Z) (ds : list done) (s : sd) (w : world) : option (Z * sd * world) :=
  ws <- weights_of dim w ;; imb <- imbalance ws ;;
  if qlt imb tol then Some (1%Z, s, w)
  else
    s' <- sd_push s imb ;; stop <- (if sd_full s' then m <- sd_slope s' ;; Some (qlt 0 m) else Some false) ;;
    if stop : bool then Some (2%Z, s', w)
    else mps <- run_planning dim sideTol ds w ;;
         if 0 <? nsum (map (fun m => length (pl_sending (mp_plan m))) mps) then w' <- run_migrate fuel mps ;; Some (0%Z, s', w') else Some (3%Z, s', w).
(** as [diffuse], engpar_balancer.cpp:278-281 *)
Fixpoint run_diffuse (n : nat) (dim : option nat) (tol : Q) (sideTol : Z) (ds : list done) (inner step : Z) (s : sd) (w : world) : option (Z * Z * world) :=
  match n with
  | 0 => None
  | S f =>
      x <- run_runStep dim tol sideTol ds s w ;; let '(rc, s', w') := x in
        if Z.eqb rc 0 then
          if (inner <? i_per inp)%Z then
            if (step <? i_max inp)%Z then run_diffuse f dim tol sideTol ds (inner + 1)%Z (step + 1)%Z s' w' else Some (rc, (step + 1)%Z, w')
          else Some (rc, step, w')
        else Some (rc, step, w')
  end.
(** as [dimension], engpar_balancer.cpp:238-321 *)
Definition run_dimension (n index : nat) (step : Z) (ds : list done) (w : world) : option (Z * list done * world) :=
  dim <- nth_error (i_prio inp) index ;;
  let tol := match nth_error (i_tols inp) index with Some t => t | None => (11 # 10)%Q end in
  sides <- sides_of w ;; x <- run_diffuse n dim tol (averageSides sides) ds 0%Z step sd_new w ;; let '(rc, step', w') := x in
  ws <- weights_of dim w' ;;
  let maxW := all_max ws in let tgt := (all_sum ws / inject_Z (Z.of_nat (length ws)) * tol)%Q in
  Some (step', ds ++ [mkDone dim tol rc ws (if qlt maxW tgt then tgt else maxW)], w').
(** as [dimensions], engpar_balancer.cpp:237-323 *)
Fixpoint run_dimensions (k n index : nat) (step : Z) (ds : list done) (w : world) : option (Z * list done * world) :=
  match k with
  | 0 => None
  | S f => x <- run_dimension n index step ds w ;; let '(step', ds', w') := x in
           if (S index <? length (i_prio inp)) && (step' <? i_max inp)%Z then run_dimensions f n (S index) step' ds' w' else Some (step', ds', w')
  end.
(** as [balance], engpar_balancer.cpp:195-350 *)
Definition run_balance (w : list (graph * option (arr Z))) : option (Z * list done * list (graph * option (arr Z))) :=
  if length w =? 1 then Some (0%Z, [], w)
  else w0 <- mapM (fun s => oo <- setOriginalOwners (fst s) (snd s) ;; Some (fst s, oo)) w ;;
       x <- run_dimensions (Nat.max 1 (length (i_prio inp))) (Z.to_nat (i_per inp) + 1) 0 0%Z [] w0 ;; let '(step, ds, w') := x in Some (step, ds, map (fun s => (fst s, Some (snd s))) w').
End Step.
