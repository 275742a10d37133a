(** Ngraph::migrate, agi/agiMigrate.cpp.  One record per part; communication phases through Comm.v.
    Simplifications: unordered_set iteration orders are list orders (the order in which a part packs its
    records is irrelevant because a phase delivers them in an arbitrary order, Comm.delivered); timers are
    omitted; coordinates are modelled separately (CoordModel.v). *)
From Verif Require Import Base GraphModel Comm TagModel.

(** Comm phase: every part packs records, then consumes the records that arrived, in any order.  The
    predicate says: no step is undefined, whatever the arrival order, and the result satisfies Q. *)
Definition phase {A M B} (send : A -> option (list (Z * M))) (recv : A -> list (Z * M) -> option B) (st : list A) (Q : list B -> Prop) : Prop :=
  exists sent, mapM send st = Some sent /\ dests_ok sent /\
    forall rcv, delivered sent rcv -> exists st', par2 (fun _ a r => recv a r) 0 st rcv = Some st' /\ Q st'.
(** a local step on every part *)
Definition local {A B} (f : A -> option B) (st : list A) (Q : list B -> Prop) : Prop := exists st', mapM f st = Some st' /\ Q st'.

(** One part: the graph, original_owners, the plan (Ngraph members and the argument of migrate) *)
Record mpart := mkMP { mp_g : graph; mp_oo : arr Z; mp_plan : mplan }.

(** Ngraph::originalOwner, agiVertex.cpp:72-80 *)
Definition originalOwner (g : graph) (oo : arr Z) (h : nat) : option Z :=
  l <- vlid h ;; if nlv g + ngv g <=? l then Some (-1)%Z else aget oo l.

(** cleanup, agiMigrate.cpp:14-25 *)
Definition mig_cleanup (fuel : nat) (s : mpart) : option mpart :=
  p0 <- plan_new (mp_g s) fuel ;;
  p <- foldM (fun p h => d <- plan_get (mp_g s) (mp_plan s) h ;;
                 if Z.eqb d (self (mp_g s)) then Some p
                 else '(p', _) <- plan_insert (mp_g s) p h d ;; Some p')
         (pl_sending (mp_plan s)) p0 ;;
  Some (mkMP (mp_g s) (mp_oo s) p).

(** updateGhostOwners, packing: agiMigrate.cpp:28-45; adjacent(v) has the default type 0 (ngraph.h) *)
Definition upd_send (fuel : nat) (s : mpart) : option (list (Z * (Z * Z))) :=
  let g := mp_g s in
  ls <- mapM (fun h => gid <- vgid g h ;; d <- plan_get g (mp_plan s) h ;; ns <- adjacent g h 0 fuel ;;
                ms <- mapM (fun o => w <- owner g o ;; Some (w, (gid, d))) ns ;;
                Some (filter (fun m => negb (Z.eqb (fst m) (self g))) ms))
          (pl_sending (mp_plan s)) ;;
  Some (concat ls).
Definition with_owners (g : graph) (vm : zmap nat) (ow : arr Z) : graph :=
  mkGraph (hyper g) (nlv g) (ngv g) (lunmap g) (lwgts g) (gunmap g) vm (types g) ow (self g).
(** updateGhostOwners, unpacking: agiMigrate.cpp:46-55; vtx_mapping[gid] default-inserts 0 *)
Definition upd_one (g : graph) (m : Z * (Z * Z)) : option graph :=
  let '(gid, own) := snd m in
  let '(l, vm) := match zfind (vmap g) gid with Some l => (l, vmap g) | None => (0, zset (vmap g) gid 0) end in
  if nlv g <=? l then ow <- aset (owners g) (l - nlv g) own ;; Some (with_owners g vm ow)
  else Some (with_owners g vm (owners g)).
Definition upd_recv (s : mpart) (arrived : list (Z * (Z * Z))) : option mpart :=
  g <- foldM upd_one arrived (mp_g s) ;; Some (mkMP g (mp_oo s) (mp_plan s)).

(** getAffected, vertices: agiMigrate.cpp:66-72 *)
Definition affected_verts (s : mpart) : option (list nat) :=
  ds <- mapM (fun h => d <- plan_get (mp_g s) (mp_plan s) h ;; Some (h, d)) (pl_sending (mp_plan s)) ;;
  Some (map fst (filter (fun p => negb (Z.eqb (snd p) (self (mp_g s)))) ds)).
(** the edge(gitr) seen at each step of a neighbour iteration: agiMigrate.cpp:81-86, agiIterate.cpp:91-114 *)
Definition adj_estep (g : graph) (it : giter) : option (nat * giter) :=
  '(x, it') <- adj_step g it ;; Some (if x =? 0 then 0 else gi_edge it', it').
Definition adjacent_edges (g : graph) (h t fuel : nat) := it <- adj_begin g h t ;; drain (adj_estep g) fuel it.
(** getAffected, edges: agiMigrate.cpp:75-90.  adjacent( *itr) has the default type 0 whatever t is, so
    affectedEdges[t] is the same set of type-0 edges for every t. *)
Definition affected_edges (fuel : nat) (s : mpart) : option (list nat) :=
  vs <- affected_verts s ;;
  ls <- mapM (fun h => adjacent_edges (mp_g s) h 0 fuel) vs ;;
  Some (nodup Nat.eq_dec (concat ls)).

(** addVertices, agiMigrate.cpp:93-105: (gid, (weight, original owner)) *)
Definition kept_verts (fuel : nat) (s : mpart) : option (list (Z * (Z * Z))) :=
  vs <- affected_verts s ;; hs <- all_verts (mp_g s) fuel ;;
  mapM (fun h => gid <- vgid (mp_g s) h ;; w <- vweight (mp_g s) h ;; o <- originalOwner (mp_g s) (mp_oo s) h ;; Some (gid, (w, o)))
       (filter (fun h => negb (existsb (Nat.eqb h) vs)) hs).

(** an edge as it is stored or sent: id, weight, degree, pin ids, pin owners *)
Record medge := mkME { me_id : Z; me_w : Z; me_deg : nat; me_pins : list Z; me_own : list Z }.
Definition read_pins (g : graph) (e fuel : nat) : option (list nat) := edge_pins g e fuel.
(** addEdges, agiMigrate.cpp:119-154 *)
Definition keep_edge (fuel : nat) (s : mpart) (e : nat) : option (list medge) :=
  let g := mp_g s in
  ps <- read_pins g e fuel ;; hs <- mapM (plan_has g (mp_plan s)) ps ;;
  if existsb (fun b => b) hs then Some []
  else gid <- egid g e ;; w <- eweight g e ;; d <- edegree g e ;; vs <- mapM (vgid g) ps ;; os <- mapM (owner g) ps ;;
       Some [mkME gid w d vs os].
Definition kept_edges (fuel : nat) (s : mpart) (t : nat) : option (list medge) :=
  es <- all_edges (mp_g s) t fuel ;; ls <- mapM (keep_edge fuel s) es ;; Some (concat ls).
(** ghost_owners[pin] = owner for the pins owned elsewhere: agiMigrate.cpp:145-149, 279-283 *)
Definition note_owners (me : Z) (m : zmap Z) (e : medge) : zmap Z :=
  fold_left (fun m po => if Z.eqb (snd po) me then m else zset m (fst po) (snd po)) (combine (me_pins e) (me_own e)) m.

(** the local data of migrate, agiMigrate.cpp:297-324 *)
Record mwork := mkMW { w_part : mpart; w_verts : list (Z * (Z * Z)); w_edges : list (list medge); w_gown : zmap Z }.
Definition mig_setup (fuel nt : nat) (s : mpart) : option mwork :=
  vs <- kept_verts fuel s ;; es <- mapM (kept_edges fuel s) (seq 0 nt) ;;
  Some (mkMW s vs es (fold_left (note_owners (self (mp_g s))) (concat es) [])).

(** sendVertex / recvVertex, agiMigrate.cpp:156-177, 327-337 *)
Definition vert_send (w : mwork) : option (list (Z * (Z * (Z * Z)))) :=
  let s := w_part w in
  mapM (fun h => gid <- vgid (mp_g s) h ;; x <- vweight (mp_g s) h ;; o <- originalOwner (mp_g s) (mp_oo s) h ;;
          d <- plan_get (mp_g s) (mp_plan s) h ;; Some (d, (gid, (x, o)))) (pl_sending (mp_plan s)).
Definition vert_recv (w : mwork) (arrived : list (Z * (Z * (Z * Z)))) : option mwork :=
  Some (mkMW (w_part w) (w_verts w ++ map snd arrived) (w_edges w) (w_gown w)).

(** sendEdges, agiMigrate.cpp:191-249: the record and the set of destinations *)
Definition pack_edge (s : mpart) (e : nat) : option (medge * list Z) :=
  let g := mp_g s in
  w <- eweight g e ;;
  if hyper g then
    id <- egid g e ;; d <- edegree g e ;; it <- pins_begin g e ;; ps <- iter_n (pit_step g) d it ;;
    os <- mapM (fun h => o <- owner g h ;; b <- plan_has g (mp_plan s) h ;; if b then plan_get g (mp_plan s) h else Some o) ps ;;
    vs <- mapM (vgid g) ps ;; Some (mkME id w d vs os, nodup Z.eq_dec os)
  else
    id <- elid g e ;; u <- u_of g e ;; ug <- vgid g u ;; v <- v_of g e ;; o <- owner g v ;; b <- plan_has g (mp_plan s) v ;;
    o' <- (if b then plan_get g (mp_plan s) v else Some o) ;; vg <- vgid g v ;;
    bu <- plan_has g (mp_plan s) u ;; if negb bu then None (* assert(plan->has(source)) *)
    else du <- plan_get g (mp_plan s) u ;; Some (mkME (Z.of_nat id) w 2 [ug; vg] [du; o'], [du]).
Definition edge_send (fuel : nat) (w : mwork) : option (list (Z * medge)) :=
  aff <- affected_edges fuel (w_part w) ;;
  ls <- mapM (fun e => '(m, dests) <- pack_edge (w_part w) e ;; Some (map (fun d => (d, m)) dests)) aff ;;
  Some (concat ls).
(** recvEdges, agiMigrate.cpp:251-288; addedEdges holds the ids of the edges collected so far *)
Definition recv_one (hy : bool) (me : Z) (acc : list medge * zmap Z) (m : Z * medge) : list medge * zmap Z :=
  let e := snd m in
  if hy && existsb (fun x => Z.eqb (me_id x) (me_id e)) (fst acc) then acc
  else (fst acc ++ [e], note_owners me (snd acc) e).
Definition edge_recv (t : nat) (w : mwork) (arrived : list (Z * medge)) : option mwork :=
  es <- nth_error (w_edges w) t ;;
  let '(es', m) := fold_left (recv_one (hyper (mp_g (w_part w))) (self (mp_g (w_part w)))) arrived (es, w_gown w) in
  Some (mkMW (w_part w) (w_verts w) (upd (w_edges w) t es') m).

(** construction of the migrated graph, agiMigrate.cpp:362-373 *)
Definition mig_build (w : mwork) : option (graph * arr Z) :=
  let g := mp_g (w_part w) in let vs := w_verts w in
  g0 <- constructVerts_arr (self g) (hyper g) (length vs) (map fst vs) (Some (map (fun v => fst (snd v)) vs)) ;;
  g1 <- foldM (fun g es => '(g', _) <- constructEdges_arr g (length es) (map me_id es) (map me_deg es) (concat (map me_pins es)) (Some (map me_w es)) ;; Some g')
          (w_edges w) g0 ;;
  g2 <- constructGhosts_owners g1 (w_gown w) ;;
  Some (g2, ainit (map (fun v => snd (snd v)) vs)).

(** the loop over edge types, agiMigrate.cpp:352-358 *)
Fixpoint edge_phases (fuel : nat) (ts : list nat) (ws : list mwork) (Q : list mwork -> Prop) : Prop :=
  match ts with
  | [] => Q ws
  | t :: r => phase (edge_send fuel) (edge_recv t) ws (fun ws' => edge_phases fuel r ws' Q)
  end.
(** Ngraph::migrate, agiMigrate.cpp:289-386; nt = PCU_Max_Int(num_types) *)
Definition max_types (sts : list mpart) : nat := fold_right Nat.max 0 (map (fun s => ntypes (mp_g s)) sts).
Definition migrate (fuel : nat) (sts : list mpart) (Q : list (graph * arr Z) -> Prop) : Prop :=
  let nt := max_types sts in
  local (mig_cleanup fuel) sts (fun sts0 =>
  phase (upd_send fuel) upd_recv sts0 (fun sts1 =>
  local (mig_setup fuel nt) sts1 (fun ws =>
  phase vert_send vert_recv ws (fun ws1 =>
  edge_phases fuel (seq 0 nt) ws1 (fun ws2 =>
  local mig_build ws2 Q))))).

(** The same run with one particular arrival order (by sender rank, records of a sender in packing order),
    as a function; used to exhibit concrete executions. *)
Definition arrive {M} (sent : list (list (Z * M))) : list (list (Z * M)) := map (fun q => addressed q sent) (seq 0 (length sent)).
Definition dests_okb {M} (sent : list (list (Z * M))) : bool :=
  forallb (forallb (fun m => Z.leb 0 (fst m) && Z.ltb (fst m) (Z.of_nat (length sent)))) sent.
Definition run_phase {A M B} (send : A -> option (list (Z * M))) (recv : A -> list (Z * M) -> option B) (st : list A) : option (list B) :=
  sent <- mapM send st ;; if dests_okb sent then par2 (fun _ a r => recv a r) 0 st (arrive sent) else None.
Definition run_migrate (fuel : nat) (sts : list mpart) : option (list (graph * arr Z)) :=
  let nt := max_types sts in
  s0 <- mapM (mig_cleanup fuel) sts ;;
  s1 <- run_phase (upd_send fuel) upd_recv s0 ;;
  ws <- mapM (mig_setup fuel nt) s1 ;;
  ws1 <- run_phase vert_send vert_recv ws ;;
  ws2 <- foldM (fun ws t => run_phase (edge_send fuel) (edge_recv t) ws) (seq 0 nt) ws1 ;;
  mapM mig_build ws2.
