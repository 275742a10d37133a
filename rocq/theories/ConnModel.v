(** countDisconnected, partition/engpar.cpp:9-52. *)
From Verif Require Import Base GraphModel TagModel.

(** the local variables of bfs: queue, size, and the tag it writes *)
Record bst := mkBst { b_queue : arr nat; b_qsize : nat; b_vis : arr Z }.
(** the body of the neighbour loop, engpar.cpp:18-25 *)
Definition bfs_other (g : graph) (s : bst) (other : nat) : option bst :=
  o <- owner g other ;;
  if negb (Z.eqb o (self g)) then Some s
  else
    x <- get_vtag g (b_vis s) other ;;
    if Z.eqb x 0 then
      q <- aset (b_queue s) (b_qsize s) other ;; tag <- set_vtag (b_vis s) other 1%Z ;;
      Some (mkBst q (b_qsize s + 1) tag)
    else Some s.
(** while (i<size), engpar.cpp:15-28; adjacent(u) has the default type 0 *)
Fixpoint bfs_loop (g : graph) (afuel fuel : nat) (i : nat) (s : bst) : option bst :=
  if b_qsize s <=? i then Some s
  else match fuel with
       | 0 => None
       | S f => u <- aget (b_queue s) i ;; ns <- adjacent g u 0 afuel ;;
                s' <- foldM (bfs_other g) ns s ;; bfs_loop g afuel f (i + 1) s'
       end.
(** engpar.cpp:9-14 *)
Definition bfs (g : graph) (fuel : nat) (v : nat) (visited : arr Z) : option (arr Z) :=
  q <- aset (anew (nlv g)) 0 v ;; tag <- set_vtag visited v 1%Z ;;
  s <- bfs_loop g fuel fuel 0 (mkBst q 1 tag) ;; Some (b_vis s).
(** countDisconnected, engpar.cpp:32-52 *)
Definition countDisconnected (g : graph) (fuel : nat) : option Z :=
  tag <- create_tag g None ;; vs <- all_verts g fuel ;;
  tag0 <- foldM (fun a v => set_vtag a v 0%Z) vs tag ;;
  '(dis, _) <- foldM (fun '(dis, tag) v =>
      x <- get_vtag g tag v ;;
      if Z.eqb x 0 then tag' <- bfs g fuel v tag ;; Some ((dis + 1)%Z, tag') else Some (dis, tag)) vs (0%Z, tag0) ;;
  Some (dis - 1)%Z.
