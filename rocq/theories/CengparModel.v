(** The C interface, interfaces/cengpar.cpp.  A C array is a block of cells ([arr]); reading past it is undefined (None). *)
From Coq Require Import QArith.
From Verif Require Import Base GraphModel.
Local Open Scope nat_scope.

(** std::vector<T> v(p, p + n): copies n cells, cengpar.cpp:73-75, 83-87 *)
Definition from_array {A} (a : arr A) (n : nat) : option (list A) := mapM (aget a) (seq 0 n).
(** cengpar_constructVerts, cengpar.cpp:70-76 *)
Definition c_constructVerts (me : Z) (isHg : bool) (verts weights : arr Z) (nverts : nat) : option graph :=
  v <- from_array verts nverts ;; w <- from_array weights nverts ;; constructVerts me isHg v w.
(** cengpar_constructEdges, cengpar.cpp:78-88; the edge type is the result *)
Definition c_constructEdges (g : graph) (edges : arr Z) (degs : arr nat) (weights pins : arr Z) (nedges npins : nat) : option (graph * nat) :=
  e <- from_array edges nedges ;; d <- from_array degs nedges ;; w <- from_array weights nedges ;; p <- from_array pins npins ;;
  constructEdges g e d p w.
(** cengpar_constructGhosts, cengpar.cpp:90-97: ghosts[verts[i]] = owners[i]; then the owners part of constructGhosts (the exchange of weights is C14) *)
Definition c_constructGhosts (g : graph) (verts owners : arr Z) (nghosts : nat) : option graph :=
  ghosts <- foldM (fun m i => v <- aget verts i ;; o <- aget owners i ;; Some (zset m v o)) (seq 0 nghosts) [] ;;
  constructGhosts_owners g ghosts.
(** cengpar_getPartition, cengpar.cpp:109-124: the map in the order of its iterator; the assertion on the size; verts[i] and parts[i] are written *)
Definition c_getPartition (ptn : list (Z * Z)) (nverts : nat) (verts parts : arr Z) : option (arr Z * arr Z) :=
  if length ptn =? nverts then
    foldM (fun '(vs, ps) (ie : nat * (Z * Z)) => vs' <- aset vs (fst ie) (fst (snd ie)) ;; ps' <- aset ps (fst ie) (snd (snd ie)) ;; Some (vs', ps'))
      (combine (seq 0 (length ptn)) ptn) (verts, parts)
  else None.

(** ** The input handles (void pointers): cengpar.cpp:27-44, 126-151 *)
(** priorities and tolerances of a DiffusiveInput (engpar_diffusive_input.h:20-31), countGhosts and limitEdgeCutGrowth; a SplitInput has none of them *)
Record diffusive := mkDiff { d_prio : list Z; d_tol : list Q; d_ghosts : bool; d_growth : Q }.
Inductive c_input := CDiff (d : diffusive) | CSplit.
(** DiffusiveInput::addPriority, engpar_diffusive_input.cpp; Input::addPriority does nothing (engpar_input.h:14); cengpar.cpp:132-135 *)
Definition c_addPriority (i : c_input) (t : Z) (tol : Q) : c_input :=
  match i with CDiff d => CDiff (mkDiff (d_prio d ++ [t]) (d_tol d ++ [tol]) (d_ghosts d) (d_growth d)) | CSplit => CSplit end.
(** cengpar_balanceGhosts, cengpar.cpp:142-145; Input::balanceGhosts does nothing (engpar_input.h:15) *)
Definition c_balanceGhosts (i : c_input) (enable : bool) : c_input :=
  match i with CDiff d => CDiff (mkDiff (d_prio d) (d_tol d) enable (d_growth d)) | CSplit => CSplit end.
(** cengpar_setCutGrowthFactor, cengpar.cpp:137-140: the void pointer is cast to DiffusiveInput, whatever it points to *)
Definition c_setCutGrowthFactor (i : c_input) (f : Q) : option c_input :=
  match i with CDiff d => Some (CDiff (mkDiff (d_prio d) (d_tol d) (d_ghosts d) f)) | CSplit => None end.
