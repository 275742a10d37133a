(** getPartition, repartition and the coordinates of migrating vertices, agi/agiMigrate.cpp *)
From Verif Require Import Base GraphModel Comm TagModel MigrateModel.

(** Ngraph::getPartition, packing: agiMigrate.cpp:395-402 (state: graph and original owners) *)
Definition part_send (fuel : nat) (s : graph * arr Z) : option (list (Z * Z)) :=
  hs <- all_verts (fst s) fuel ;;
  mapM (fun h => v <- vgid (fst s) h ;; o <- originalOwner (fst s) (snd s) h ;; Some (o, v)) hs.
(** unpacking: agiMigrate.cpp:404-409; unordered_map::insert keeps an existing entry *)
Definition part_recv (s : graph * arr Z) (arrived : list (Z * Z)) : option (zmap Z) :=
  Some (fold_left (fun m sv => match zfind m (snd sv) with Some _ => m | None => zset m (snd sv) (fst sv) end) arrived []).
Definition getPartition (fuel : nat) (sts : list (graph * arr Z)) (Q : list (zmap Z) -> Prop) : Prop := phase (part_send fuel) part_recv sts Q.

(** Ngraph::setOriginalOwners(), agiVertex.cpp:82-96; None is the null pointer *)
Definition setOriginalOwners (g : graph) (oo : option (arr Z)) : option (arr Z) :=
  match oo with Some a => Some a | None => foldM (fun a i => aset a i (self g)) (seq 0 (nlv g)) (anew (nlv g)) end.
(** Ngraph::repartition, agiMigrate.cpp:417-428: one insertion per vertex, in iteration order, then migrate *)
Definition repart_plan (fuel : nat) (s : graph * option (arr Z) * list Z) : option mpart :=
  let '(g, oo, partition) := s in
  p0 <- plan_new g fuel ;; hs <- all_verts g fuel ;;
  p <- foldM (fun p ih => d <- nth_error partition (fst ih) ;; '(p', _) <- plan_insert g p (snd ih) d ;; Some p')
         (combine (seq 0 (length hs)) hs) p0 ;;
  oo' <- setOriginalOwners g oo ;; Some (mkMP g oo' p).
Definition repartition (fuel : nat) (sts : list (graph * option (arr Z) * list Z)) (Q : list (graph * arr Z) -> Prop) : Prop :=
  local (repart_plan fuel) sts (fun mps => migrate fuel mps Q).

(** coordinates: addCoords agiMigrate.cpp:106-117 (coord, agiVertex.cpp:47-58), sendCoord 178-183, recvCoord 184-190;
    cs holds the kept coordinates followed by the received ones, in arrival order, and setCoords stores cs[i] for vertex i *)
Definition coord_of {C} (g : graph) (crd : arr C) (h : nat) : option C := l <- vlid h ;; if l <? nlv g then aget crd l else None.
Definition kept_coords {C} (fuel : nat) (crd : arr C) (s : mpart) : option (list C) :=
  vs <- affected_verts s ;; hs <- all_verts (mp_g s) fuel ;;
  mapM (coord_of (mp_g s) crd) (filter (fun h => negb (existsb (Nat.eqb h) vs)) hs).
Definition coord_send {C} (s : mpart * arr C) : option (list (Z * C)) :=
  mapM (fun h => c <- coord_of (mp_g (fst s)) (snd s) h ;; d <- plan_get (mp_g (fst s)) (mp_plan (fst s)) h ;; Some (d, c)) (pl_sending (mp_plan (fst s))).
Definition new_coords {C} (kept : list C) (arrived : list (Z * C)) : list C := kept ++ map snd arrived.

(** One buffer per sender, unpacked in the order in which it was packed; senders may interleave in any way. *)
Definition fifo {M} (sent : list (list (Z * M))) (q : nat) (r : list (Z * M)) : Prop :=
  (forall s m, In (s, m) r -> exists i, i < length sent /\ s = Z.of_nat i) /\
  forall i ms, nth_error sent i = Some ms -> map snd (filter (fun x => Z.eqb (fst x) (Z.of_nat i)) r) = map snd (filter (fun x => Z.eqb (fst x) (Z.of_nat q)) ms).
