(** Selector::cancel for any list of completed dimensions, in machine doubles: engpar_selector.cpp:240-273, 436-490. The rational
    version of the same function is [SelectorModel.cancel]. Simplifications: the state kept per destination (peerEdges[i][dest],
    vtx_weight[dest]) is a function of the destination; a capacity that is missing or of another length than the list of dimensions
    (a dereferenced null or an access out of bounds in the code) is [None]; int is unbounded. *)
From Flocq Require Import Core BinarySingleNaN.
From Verif Require Import Base GraphModel Comm TagModel SelectorModel FloatModel.
Local Open Scope nat_scope.

Section Cancel.
(** [fv]: the double stored under a weight's name; [ord]: the order in which an unordered_set is traversed *)
Variables (fv : Z -> b64) (ord : list nat -> list nat) (g : graph) (gw : option (arr Z)) (fuel : nat).
(** Selector::weight, engpar_selector.cpp:266-273 *)
Definition set_weight_f (edges : list nat) : option b64 := foldM (fun w e => x <- eweight g e ;; Some (fadd w (fv x))) (ord edges) f0.
(** the test of one completed dimension, and the set if the vertex is kept (combineSets): engpar_selector.cpp:458-479, 436-440;
    [x]: the dimension, its capacity, the edges already counted for this destination; [vw]: vtx_weight[dest] *)
Definition cancel_dim_f (v : nat) (dest : Z) (vw : b64) (x : (option nat * b64) * list nat) : option (bool * list nat) :=
  match fst (fst x) with
  | Some t =>
      tmp <- temp_interior g fuel v dest t (snd x) ;; a <- set_weight_f (snd x) ;; b <- set_weight_f tmp ;;
      Some (negb (flt (snd (fst x)) (fadd a b)), fold_left sadd (ord tmp) (snd x))
  | None => w <- weight_of_f fv g gw v ;; Some (negb (flt (snd (fst x)) (fadd vw w)), snd x)
  end.
(** what is known per destination: the sets, one per dimension, and vtx_weight *)
Definition cstate := Z -> list (list nat) * b64.
(** the weight of a kept vertex, engpar_selector.cpp:476-477 *)
Definition cancel_weight_f (v : nat) (vw : b64) (d : option nat) : option b64 :=
  match d with Some _ => Some vw | None => w <- weight_of_f fv g gw v ;; Some (fadd vw w) end.
(** the body of the loop over the plan, engpar_selector.cpp:452-481; [m]: the vertex and plan->get(v) *)
Definition cancel_step_f (dims : list (option nat)) (cap : Z -> list b64) (st : cstate * list (nat * Z)) (m : nat * Z) : option (cstate * list (nat * Z)) :=
  let '(s, keep) := st in let '(v, dest) := m in
  if length (cap dest) =? length dims then
    r <- mapM (cancel_dim_f v dest (snd (s dest))) (combine (combine dims (cap dest)) (fst (s dest))) ;;
    if forallb fst r then
      vw <- foldM (cancel_weight_f v) dims (snd (s dest)) ;;
      Some ((fun d => if Z.eqb d dest then (map snd r, vw) else s d), keep ++ [m])
    else Some (s, keep)
  else None.
(** the vertices that stay in the plan, engpar_selector.cpp:442-490 *)
Definition cancel_f (dims : list (option nat)) (cap : Z -> list b64) (plan : list (nat * Z)) : option (list (nat * Z)) :=
  r <- foldM (cancel_step_f dims cap) plan ((fun _ => (map (fun _ => []) dims, f0)), []) ;; Some (snd r).
End Cancel.

(** the weight requested for part [d] in one completed dimension: calculatePlanWeights and sendPlanWeight, engpar_selector.cpp:240-250,
    293-328 *)
Definition request_f (fv : Z -> b64) (ord : list nat -> list nat) (g : graph) (gw : option (arr Z)) (fuel : nat) (d : Z) (plan : list (nat * Z)) (dim : option nat) : option b64 :=
  match dim with
  | Some t => S <- foldM (fun s m => if Z.eqb (snd m) d then interior g fuel (fst m) d t s else Some s) plan [] ;; set_weight_f fv ord g S
  | None => foldM (fun w m => if Z.eqb (snd m) d then x <- weight_of_f fv g gw (fst m) ;; Some (fadd w x) else Some w) plan f0
  end.
