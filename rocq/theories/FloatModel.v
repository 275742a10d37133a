(** The arithmetic of weights in machine doubles: the sums of getWeight (engpar_metrics.cpp:6-31), the reductions and divisions of
    EnGPar_Get_Imbalance (engpar_metrics.cpp:33-41), the limits of balance() (engpar_balancer.cpp:46-54, 285-288), Selector::trim and
    cancel for vertex weights (engpar_selector.cpp:330-490) and the amounts of Targets (engpar_targets.h:13-45).
    A double is an element of Flocq's [binary_float 53 1024] (infinities, one NaN, signed zeros, subnormals); every operation rounds to
    the nearest, ties to even. Simplifications: int and part_t are unbounded integers; the compiler does not use extended precision or
    fused operations. *)
From Flocq Require Import Core BinarySingleNaN.
From Verif Require Import Base GraphModel Comm TagModel ConnModel MetricsModel.
Local Open Scope nat_scope.

(** wgt_t, agi.h: typedef double wgt_t *)
Definition b64 := binary_float 53 1024.
(** 0 < 53 and 53 < 1024, which Flocq's operations ask for *)
Definition hprec : Prec_gt_0 53 := eq_refl.
Definition hmax : Prec_lt_emax 53 1024 := eq_refl.
(** the operators +, -, *, / and the comparisons <, <= of C++ on double *)
Definition fadd : b64 -> b64 -> b64 := @Bplus 53 1024 hprec hmax mode_NE.
Definition fsub : b64 -> b64 -> b64 := @Bminus 53 1024 hprec hmax mode_NE.
Definition fmul : b64 -> b64 -> b64 := @Bmult 53 1024 hprec hmax mode_NE.
Definition fdiv : b64 -> b64 -> b64 := @Bdiv 53 1024 hprec hmax mode_NE.
Definition flt : b64 -> b64 -> bool := @Bltb 53 1024.
Definition fle : b64 -> b64 -> bool := @Bleb 53 1024.
(** the literal 0 and the conversion of an int to double *)
Definition f0 : b64 := B754_zero false.
Definition of_int (n : Z) : b64 := @binary_normalize 53 1024 hprec hmax mode_NE n 0 false.

(** double w = 0; for (x in l) w += x: engpar_selector.cpp:264-271 and the loops of getWeight *)
Definition fsum (l : list b64) : b64 := fold_left fadd l f0.

(** Ngraph::weight(vtx), agiVertex.cpp:18-28; a stored weight is a name whose value is given by [fv] *)
Definition weight_of_f (fv : Z -> b64) (g : graph) (gw : option (arr Z)) (h : nat) : option b64 :=
  l <- vlid h ;; if l <? nlv g then x <- vweight g h ;; Some (fv x) else tag <- gw ;; x <- get_vtag g tag h ;; Some (fv x).
(** getWeight, engpar_metrics.cpp:6-31; the dimension -1 is [None] *)
Definition getWeight_f (fv : Z -> b64) (g : graph) (gw : option (arr Z)) (dim : option nat) (countGhosts : bool) (fuel : nat) : option b64 :=
  match dim with
  | None =>
      vs <- all_verts g fuel ;; w <- foldM (fun w v => x <- weight_of_f fv g gw v ;; Some (fadd w x)) vs f0 ;;
      if countGhosts then gs <- all_ghosts g fuel ;; foldM (fun w v => x <- weight_of_f fv g gw v ;; Some (fadd w x)) gs w else Some w
  | Some t => es <- all_edges g t fuel ;; foldM (fun w e => x <- eweight g e ;; Some (fadd w (fv x))) es f0
  end.

(** the additions of one MPI_Allreduce with MPI_SUM: the library may bracket them in any way (engpar_metrics.cpp:38) *)
Inductive red := Val (x : b64) | Add (a b : red).
Fixpoint reduced (t : red) : b64 := match t with Val x => x | Add a b => fadd (reduced a) (reduced b) end.
(** the values added; the library may take the processes in any order *)
Fixpoint leaves (t : red) : list b64 := match t with Val x => [x] | Add a b => leaves a ++ leaves b end.
(** MPI_Allreduce with MPI_MAX, engpar_metrics.cpp:37 *)
Definition fmax (a b : b64) : b64 := if flt a b then b else a.
Definition all_max_f (l : list b64) : b64 := match l with [] => f0 | x :: r => fold_left fmax r x end.
(** EnGPar_Get_Imbalance, engpar_metrics.cpp:33-41: [t] is how the library adds the values [ws] of the processes *)
Definition avg_f (peers : nat) (t : red) : b64 := fdiv (fmul (reduced t) (of_int 1)) (of_int (Z.of_nat peers)).
Definition imbalance_f (ws : list b64) (t : red) : b64 := fdiv (fmul (all_max_f ws) (of_int 1)) (avg_f (length ws) t).
(** getMaxWeight, getAvgWeight and the limit of a completed dimension, engpar_balancer.cpp:46-54, 285-288 *)
Definition limit_f (ws : list b64) (t : red) (tol : b64) : b64 :=
  let maxW := all_max_f ws in let tgt := fmul (fdiv (reduced t) (of_int (Z.of_nat (length ws)))) tol in
  if flt maxW tgt then tgt else maxW.

(** determineAvailability, engpar_selector.cpp:342-351; [ws]: what getWeight returns for the completed dimensions *)
Definition availability_f (lims ws : list b64) : bool * list b64 :=
  let avail := map (fun x => fsub (fst x) (snd x)) (combine lims ws) in (forallb (fun a => negb (flt a f0)) avail, avail).
(** the body of the loop of acceptWeight, engpar_selector.cpp:353-378: isAvail is overwritten for every dimension *)
Definition accept_step_f (st : (bool * list b64) * list (Z * list b64)) (m : Z * list b64) : (bool * list b64) * list (Z * list b64) :=
  let '((is, avail), acc) := st in
  if is then
    let space := forallb (fun x => negb (flt (snd x) (fst x))) (combine (snd m) avail) in
    let take := if space then snd m else avail in
    let avail' := map (fun x => fsub (fst x) (snd x)) (combine avail take) in
    ((fold_left (fun _ a => flt f0 a) avail' is, avail'), acc ++ [(fst m, take)])
  else ((is, avail), acc ++ [(fst m, map (fun _ => f0) (snd m))]).
(** acceptWeight, engpar_selector.cpp:353-378: the answers in the order of the set of requests (one request of each sender) *)
Definition accept_f (st : bool * list b64) (inc : list (Z * list b64)) : list (Z * list b64) := snd (fold_left accept_step_f inc (st, [])).
(** cancel for the vertices planned for one part, in the order of the plan, in a vertex dimension with the granted capacity [cap]:
    engpar_selector.cpp:442-481; [w] is vtx_weight[dest] *)
Fixpoint keep_f (cap w : b64) (l : list b64) : list b64 :=
  match l with
  | [] => []
  | x :: r => if flt cap (fadd w x) then keep_f cap w r else x :: keep_f cap (fadd w x) r
  end.

(** trim and cancel for one completed dimension, the vertices, as one part receives: [plans] are the weights of the vertices planned for it by
    each sender (in the order in which it treats the requests), the request of a sender is their sum (calculatePlanWeights, sendPlanWeight,
    engpar_selector.cpp:300-331); the result is what the senders keep after the answers: engpar_selector.cpp:403-432, 442-490 *)
Definition trim_cancel_f (lim w : b64) (plans : list (Z * list b64)) : list (list b64) :=
  let answers := accept_f (availability_f [lim] [w]) (map (fun p => (fst p, [fsum (snd p)])) plans) in
  map (fun x => keep_f (nth 0 (snd (snd x)) f0) f0 (snd (fst x))) (combine plans answers).

(** the amount set for one neighbour, engpar_targets.h:31-41; [side] and [tot] are the ints of Sides *)
Definition target_f (myW nbW step : b64) (side tot : Z) : option b64 :=
  if flt nbW myW then
    let diff := fsub myW nbW in let frac := fdiv (of_int side) (of_int tot) in Some (fmul (fmul diff frac) step)
  else None.
