(** Weights, imbalance, sides, targets and the evaluation of a partition: partition/Metrics/engpar_metrics.cpp,
    partition/Diffusive/src/engpar_{container,sides,weights,targets}.h, partition/engpar.cpp.
    Simplifications: a double is an exact rational; the weights stored in the graph are names of weights, whose value is
    given by [val] (so that they need not be integers); int is unbounded; the order in which an unordered_map is traversed is
    the order of its list of entries, and theorems do not depend on it. *)
From Coq Require Export QArith.
From Verif Require Import Base GraphModel Comm TagModel ConnModel.
Local Close Scope Q_scope.

(** ** Container<T>, engpar_container.h *)
(** d[k] = x: one entry per key *)
Fixpoint zput {A} (m : zmap A) (k : Z) (x : A) : zmap A :=
  match m with [] => [(k, x)] | (k', y) :: r => if Z.eqb k' k then (k', x) :: r else (k', y) :: zput r k x end.
(** d and my_total, engpar_container.h:68-70 *)
Record cont (A : Type) := mkC { c_d : zmap A; c_total : A }.
Arguments mkC {A} _ _. Arguments c_d {A} _. Arguments c_total {A} _.
(** get, engpar_container.h:35-37: a missing key has the default value (the insertion it causes is not represented: it can
    only be observed by a traversal, and get is called during one in one place, see [pw_targets]) *)
Definition cget {A} (dflt : A) (c : cont A) (k : Z) : A := match zfind (c_d c) k with Some x => x | None => dflt end.
(** has, size *)
Definition chas {A} (c : cont A) (k : Z) : bool := match zfind (c_d c) k with Some _ => true | None => false end.
Definition csize {A} (c : cont A) : nat := length (c_d c).
(** set for Container<double>, engpar_container.h:46-52 *)
Definition cset (c : cont Q) (k : Z) (x : Q) : cont Q :=
  let t := match zfind (c_d c) k with Some old => (c_total c - old)%Q | None => c_total c end in
  mkC (zput (c_d c) k x) (t + x)%Q.

(** ** Metrics *)
Section M.
Variable val : Z -> Q.
(** Ngraph::weight(vtx), agiVertex.cpp:18-28; ghost_weights is the ghost tag made by constructGhosts (None = NULL) *)
Definition weight_of (g : graph) (gw : option (arr Z)) (h : nat) : option Q :=
  l <- vlid h ;; if l <? nlv g then x <- vweight g h ;; Some (val x) else tag <- gw ;; x <- get_vtag g tag h ;; Some (val x).
(** getWeight, engpar_metrics.cpp:6-31; the dimension -1 is [None] *)
Definition getWeight (g : graph) (gw : option (arr Z)) (dim : option nat) (countGhosts : bool) (fuel : nat) : option Q :=
  match dim with
  | None =>
      vs <- all_verts g fuel ;; w <- foldM (fun w v => x <- weight_of g gw v ;; Some (w + x)%Q) vs 0%Q ;;
      if countGhosts then gs <- all_ghosts g fuel ;; foldM (fun w v => x <- weight_of g gw v ;; Some (w + x)%Q) gs w else Some w
  | Some t => es <- all_edges g t fuel ;; foldM (fun w e => x <- eweight g e ;; Some (w + val x)%Q) es 0%Q
  end.
(** MPI_Allreduce with MPI_MAX, MPI_MIN, MPI_SUM over the values of the parts *)
Definition all_max (l : list Q) : Q := match l with [] => 0%Q | x :: r => fold_left (fun a b => if Qle_bool a b then b else a) r x end.
Definition all_min (l : list Q) : Q := match l with [] => 0%Q | x :: r => fold_left (fun a b => if Qle_bool b a then b else a) r x end.
Definition all_sum (l : list Q) : Q := fold_left Qplus l 0%Q.
(** EnGPar_Get_Imbalance, engpar_metrics.cpp:33-41; None = not a number (division by zero) *)
Definition qdiv (a b : Q) : option Q := if Qeq_bool b 0 then None else Some (a / b)%Q.
Definition imbalance (ws : list Q) : option Q :=
  let max := all_max ws in let total := all_sum ws in
  avg <- qdiv total (inject_Z (Z.of_nat (length ws))) ;; qdiv max avg.

(** ** Sides, engpar_sides.h:15-35 *)
(** conversion double -> int *)
Definition trunc (q : Q) : Z := Z.quot (Qnum q) (Zpos (Qden q)).
(** int += double *)
Definition int_add (a : Z) (w : Q) : Z := trunc (inject_Z a + w).
(** the body of the loop over the edges, engpar_sides.h:19-32; Peers is a std::set *)
Definition side_edge (g : graph) (s : cont Z) (e : nat) : option (cont Z) :=
  r <- getResidence g e ;; let res := nodup Z.eq_dec r in
  if 1 <? length res then
    w <- eweight g e ;;
    let d := fold_left (fun d p => if Z.eqb p (self g) then d else zput d p (int_add (match zfind d p with Some a => a | None => 0%Z end) (val w))) res (c_d s) in
    Some (mkC d (int_add (c_total s) (val w)))
  else Some s.
Definition makeSides (g : graph) (t : nat) (fuel : nat) : option (cont Z) :=
  es <- all_edges g t fuel ;; foldM (side_edge g) es (mkC [] 0%Z).

(** ** Weights, engpar_weights.h:13-31: what a part sends, and what it makes of the messages *)
Definition weights_sent (s : cont Z) (my : Q) : list (Z * Q) := map (fun e => (fst e, my)) (c_d s).
Definition weights_recv (arrived : list (Z * Q)) : cont Q := fold_left (fun c m => cset c (fst m) (snd m)) arrived (mkC [] 0%Q).

(** ** Targets, engpar_targets.h:13-38 *)
(** canSend; [completed] pairs the weights of a completed dimension with its tolerance *)
Definition can_send (hyper : bool) (peers : nat) (side sideTol : Z) (completed : list (cont Q * Q)) (nb : Z) : bool :=
  (negb hyper || (side <=? sideTol)%Z || (peers =? 2)) && forallb (fun wt => negb (Qle_bool (snd wt) (cget 0%Q (fst wt) nb))) completed.
Definition target_side (hyper : bool) (peers : nat) (step : Q) (s : cont Z) (w : cont Q) (my : Q) (sideTol : Z) (completed : list (cont Q * Q))
    (c : cont Q) (sd : Z * Z) : option (cont Q) :=
  let nb := fst sd in
  if can_send hyper peers (cget 0%Z s nb) sideTol completed nb then
    let nw := cget 0%Q w nb in
    if negb (Qle_bool my nw) then
      frac <- qdiv (inject_Z (snd sd)) (inject_Z (c_total s)) ;; Some (cset c nb ((my - nw) * frac * step)%Q)
    else Some c
  else Some c.
Definition makeTargets (hyper : bool) (peers : nat) (step : Q) (s : cont Z) (w : cont Q) (my : Q) (sideTol : Z) (completed : list (cont Q * Q)) : option (cont Q) :=
  foldM (target_side hyper peers step s w my sideTol completed) (c_d s) (mkC [] 0%Q).
(** the second constructor (part weight targets), engpar_targets.h:40-65: the inner loops run over the whole of the flow wp_map
    (gid of a part -> (part -> weight)) with a variable that hides the neighbour.  s->get inserts a missing key into the
    map that the outer loop is traversing: None. *)
Definition pw_targets (hyper : bool) (s : cont Z) (wp : list (Z * list (Z * Q))) (sideTol : Z) (completed : list (cont Q * Q)) : option (cont Q) :=
  foldM (fun c sd =>
     if (negb hyper || (cget 0%Z s (fst sd) <=? sideTol)%Z) && forallb (fun wt => negb (Qle_bool (snd wt) (cget 0%Q (fst wt) (fst sd)))) completed then
       foldM (fun c inner => foldM (fun c nd => side <- zfind (c_d s) (fst nd) ;; frac <- qdiv (inject_Z side) (inject_Z (c_total s)) ;;
                                       Some (cset c (fst nd) (snd nd * frac)%Q)) (snd inner) c) wp c
     else Some c) (c_d s) (mkC [] 0%Q).

(** ** evaluatePartition, engpar.cpp:54-129 *)
(** my_vals of one part, engpar.cpp:62-88 *)
Definition my_vals (g : graph) (gw : option (arr Z)) (fuel : nat) : option (list Q) :=
  dis <- countDisconnected g fuel ;; s0 <- makeSides g 0 fuel ;;
  wv <- getWeight g gw None false fuel ;; wg <- getWeight g gw None true fuel ;;
  per <- mapM (fun t => w <- getWeight g gw (Some t) false fuel ;; s <- makeSides g t fuel ;; Some [w; inject_Z (c_total s)]) (seq 0 (ntypes g)) ;;
  Some ([inject_Z dis; inject_Z (Z.of_nat (csize s0)); wv; wg] ++ concat per).
(** MPI_Reduce, element by element *)
Definition reduce (op : list Q -> Q) (n : nat) (vals : list (list Q)) : list Q := map (fun i => op (map (fun v => nth i v 0%Q) vals)) (seq 0 n).
(** the loop that fills avg, engpar.cpp:99-101: its bound is 5 + numEdgeTypes, the array has 4 + 2*numEdgeTypes cells *)
Definition fill_avg (nt peers : nat) (total : list Q) : option (arr Q) :=
  foldM (fun a i => t <- nth_error total i ;; aset a i (t / inject_Z (Z.of_nat peers))%Q) (seq 0 (5 + nt)) (anew (4 + nt * 2)).
(** the printed table: empty parts, disconnected <max,tot>, neighbours, local and total vertices <max,min,avg,imb>, and for
    each type <max,min,avg,imb> and cut <max,tot>; engpar.cpp:102-121 *)
Record row4 := mkRow { r_max : Q; r_min : Q; r_avg : Q; r_imb : option Q }.
Record report := mkRep { rp_empty : Z; rp_dis : Q * Q; rp_nb : row4; rp_vtx : row4; rp_tot : row4; rp_edges : list (row4 * (Q * Q)) }.
Definition get_row (mx mn : list Q) (avg : arr Q) (i : nat) : option row4 :=
  a <- nth_error mx i ;; b <- nth_error mn i ;; c <- aget avg i ;; Some (mkRow a b c (qdiv a c)).
Definition evaluatePartition (nt : nat) (vals : list (list Q)) : option report :=
  let n := 4 + nt * 2 in
  let mx := reduce all_max n vals in let mn := reduce all_min n vals in let tot := reduce all_sum n vals in
  let empty := zsum (map (fun v => if Qeq_bool (nth 3 v 0%Q) 0 then 1%Z else 0%Z) vals) in
  avg <- fill_avg nt (length vals) tot ;;
  m0 <- nth_error mx 0 ;; t0 <- nth_error tot 0 ;; nb <- get_row mx mn avg 1 ;; vt <- get_row mx mn avg 2 ;; tv <- get_row mx mn avg 3 ;;
  es <- mapM (fun i => r <- get_row mx mn avg (4 + i * 2) ;; cm <- nth_error mx (5 + i * 2) ;; ct <- nth_error tot (5 + i * 2) ;; Some (r, (cm, ct))) (seq 0 nt) ;;
  Some (mkRep empty (m0, t0) nb vt tv es).
End M.
