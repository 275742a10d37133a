(** Model of checkValidity (agi/agiValid.cpp:6-145) together with the global counters it compares against
    (agi/agiConstruct.cpp:100, 388-412).
    checkValidity is collective: it contains calls of PCU_Add_Long, and a part that finds an error returns at once.
    The model therefore runs all parts together, from one PCU_Add_Long to the next.
    Simplifications: error messages are omitted, lid_t/gid_t are unbounded, iterators that are not destroyed on the
    error paths (memory leaks) are not represented, and all parts are required to have the same number of edge types. *)
From Verif Require Import Base GraphModel GraphSpec.

(** what one part holds after construction: its graph, num_global_verts, and num_global_edges / num_global_pins per type
    (ngraph.h members, ngraph.h:128-134) *)
Record vpart := mkVpart { vp_g : graph; vp_gv : Z; vp_ge : list (Z * Z) }.

(** num_global_edges[t] and num_global_pins[t] as set by constructGhosts, agiConstruct.cpp:388-412 *)
Definition globals_of (gs : list graph) (hg : bool) (fuel t : nat) : option (Z * Z) :=
  if hg then global_counts gs t fuel
  else ns <- mapM (fun g => num_edges g t) gs ;;
       let s := zsum (map Z.of_nat ns) in Some (s, (2 * s)%Z).

(** the collective counters after every part has called constructVerts, constructEdges and constructGhosts:
    num_global_verts is PCU_Add_Long(num_local_verts), agiConstruct.cpp:100 *)
Definition with_globals (gs : list graph) (hg : bool) (nt fuel : nat) : option (list vpart) :=
  ge <- mapM (globals_of gs hg fuel) (seq 0 nt) ;;
  let gv := zsum (map (fun g => Z.of_nat (nlv g)) gs) in
  Some (map (fun g => mkVpart g gv ge) gs).

(** the short-circuiting "for each ... if (bad) return false" *)
Fixpoint forM {A} (f : A -> option bool) (l : list A) : option bool :=
  match l with
  | [] => Some true
  | a :: r => b <- f a ;; if b then forM f r else Some false
  end.

(** lines 7-17: the vertices iterated are as many as numLocalVtxs() *)
Definition count_verts (g : graph) (fuel : nat) : option nat := vs <- all_verts g fuel ;; Some (length vs).
Definition chk_count (fuel : nat) (p : vpart) : option bool :=
  i <- count_verts (vp_g p) fuel ;; Some (nlv (vp_g p) =? i).

(** lines 27-38: one vertex and type, degree(vtx,t) against the edges iterated *)
Definition chk_degree (g : graph) (fuel h t : nat) : option bool :=
  es <- vertex_edges g h t fuel ;; d <- vdegree g h t ;; Some (d =? length es).

(** lines 47-58: walk the pins of [edge] until the vertex [h] is met; NULL means it is not there.
    isEqual compares handles, agiVertex.cpp:160-162 *)
Fixpoint seek (g : graph) (h fuel : nat) (it : piter) : option bool :=
  match fuel with
  | 0 => None
  | S f => '(x, it') <- pit_step g it ;;
           if x =? 0 then Some false else if x =? h then Some true else seek g h f it'
  end.
Definition chk_pin (g : graph) (fuel h e : nat) : option bool := it <- pins_begin g e ;; seek g h fuel it.

(** lines 43-62: one vertex and type *)
Definition chk_incident (g : graph) (fuel h t : nat) : option bool :=
  es <- vertex_edges g h t fuel ;; forM (chk_pin g fuel h) es.

(** lines 19-63, given ig, the sum of the vertex counts *)
Definition chk_verts (fuel : nat) (ig : Z) (p : vpart) : option bool :=
  let g := vp_g p in
  if Z.eqb (vp_gv p) ig then
    vs <- all_verts g fuel ;;
    b <- forM (fun h => forM (chk_degree g fuel h) (seq 0 (ntypes g))) vs ;;
    if b then forM (fun h => forM (chk_incident g fuel h) (seq 0 (ntypes g))) vs else Some false
  else Some false.

(** lines 68-87: number of edges i, total degree l, and the counts j, k of the edges (and their pins) this part accounts for *)
Record tally := mkTally { ta_i : nat; ta_l : nat; ta_j : nat; ta_k : nat }.
Definition tally1 (g : graph) (s : tally) (e : nat) : option tally :=
  d <- edegree g e ;; res <- getResidence g e ;;
  if negb (existsb (fun o => Z.ltb o (self g)) res) || negb (hyper g)
  then Some (mkTally (ta_i s + 1) (ta_l s + d) (ta_j s + 1) (ta_k s + d))
  else Some (mkTally (ta_i s + 1) (ta_l s + d) (ta_j s) (ta_k s)).
Definition tally_of (g : graph) (fuel t : nat) : option tally :=
  es <- all_edges g t fuel ;; foldM (tally1 g) es (mkTally 0 0 0 0).

(** lines 89-93 *)
Definition chk_edges (fuel t : nat) (p : vpart) : option bool :=
  ta <- tally_of (vp_g p) fuel t ;; ne <- num_edges (vp_g p) t ;; Some (ta_i ta =? ne).
(** lines 95-104, given j summed over the parts *)
Definition chk_gedges (fuel t : nat) (j : Z) (p : vpart) : option bool :=
  ta <- tally_of (vp_g p) fuel t ;;
  ge <- nth_error (vp_ge p) t ;; ed <- gtype (vp_g p) t ;;
  Some (Z.eqb j (fst ge) && (ta_l ta =? e_npins ed)).
(** lines 113-123: one edge, degree against the pins iterated *)
Definition chk_pins (g : graph) (fuel e : nat) : option bool :=
  ps <- edge_pins g e fuel ;; d <- edegree g e ;; Some (d =? length ps).
(** lines 106-125, given k summed over the parts *)
Definition chk_gpins (fuel t : nat) (k : Z) (p : vpart) : option bool :=
  ge <- nth_error (vp_ge p) t ;;
  if Z.eqb k (snd ge) then es <- all_edges (vp_g p) t fuel ;; forM (chk_pins (vp_g p) fuel) es
  else Some false.

(** lines 128-142 *)
Definition chk_ghost (g : graph) (peers : Z) (h : nat) : option bool :=
  o <- owner g h ;; Some (negb (Z.eqb o (self g)) && negb (Z.leb peers o)).
Definition chk_ghosts (fuel : nat) (peers : Z) (p : vpart) : option bool :=
  hs <- all_ghosts (vp_g p) fuel ;; forM (chk_ghost (vp_g p) peers) hs.

(** How a run ends: every part returns an answer, or some parts have returned false while others wait in PCU_Add_Long
    (an allreduce over all parts, pcu/pcu.c:324-337). *)
Inductive verdict := Answers (bs : list bool) | Stuck.

(** the parts still running execute [f]; the others have already returned false *)
Definition each (f : vpart -> option bool) (alive : list bool) (ps : list vpart) : option (list bool) :=
  mapM (fun ap => if fst ap : bool then f (snd ap) else Some false) (combine alive ps).
(** a part reaches PCU_Add_Long while not all of them do *)
Definition broken (alive : list bool) : verdict := if existsb id alive then Stuck else Answers alive.
(** PCU_Add_Long of a value computed by every part *)
Definition add_long (f : vpart -> option nat) (ps : list vpart) : option Z :=
  xs <- mapM f ps ;; Some (zsum (map Z.of_nat xs)).

(** lines 65-126 followed by 127-144; [alive] tells which parts have not returned yet *)
Fixpoint chk_types (fuel : nat) (ps : list vpart) (ts : list nat) (alive : list bool) : option verdict :=
  match ts with
  | [] => al <- each (chk_ghosts fuel (Z.of_nat (length ps))) alive ps ;; Some (Answers al)
  | t :: r =>
      al1 <- each (chk_edges fuel t) alive ps ;;
      if forallb id al1 then
        j <- add_long (fun p => ta <- tally_of (vp_g p) fuel t ;; Some (ta_j ta)) ps ;;
        al2 <- each (chk_gedges fuel t j) al1 ps ;;
        if forallb id al2 then
          k <- add_long (fun p => ta <- tally_of (vp_g p) fuel t ;; Some (ta_k ta)) ps ;;
          al3 <- each (chk_gpins fuel t k) al2 ps ;;
          chk_types fuel ps r al3
        else Some (broken al2)
      else Some (broken al1)
  end.

(** checkValidity called by every part, agiValid.cpp:6-145 *)
Definition checkValidity (fuel : nat) (ps : list vpart) : option verdict :=
  match ps with
  | [] => None
  | p0 :: _ =>
      let nt := ntypes (vp_g p0) in
      if forallb (fun p => ntypes (vp_g p) =? nt) ps then
        al <- each (chk_count fuel) (repeat true (length ps)) ps ;;
        if forallb id al then
          ig <- add_long (fun p => count_verts (vp_g p) fuel) ps ;;
          al' <- each (chk_verts fuel ig) al ps ;;
          chk_types fuel ps (seq 0 nt) al'
        else Some (broken al)
      else None
  end.
