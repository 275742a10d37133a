(** Building the N-graph of a distributed mesh: interfaces/apfGraph.cpp and interfaces/dofGraph.cpp.
    Simplifications: of the mesh (the apf library, not part of the repository) a part sees the entities of the primary dimension in iteration
    order with their global number and whether it owns them, and the entities of a secondary dimension with their global number, whether they
    are owned or shared, the parts they reside on and the adjacent primary entities; getAdjacent and getDownward from primary entities are the
    rows of [md_down].  The numbers themselves come from apf::numberOwnedDimension, makeGlobal and synchronize and are given.  Coordinates
    and logging are left out.  gid_t, lid_t unbounded; weights exact integers.  A map read with an absent
    key (operator[] would insert 0), an assertion that fails and a store out of range are [None]. *)
From Verif Require Import Base GraphModel Comm TagModel MigrateModel.

(** an entity of a secondary dimension on one part, apfGraph.cpp:247-271, 305-336: number, isOwned, getResidence, isShared, getAdjacent *)
Record ment := mkEnt { en_gid : Z; en_owned : bool; en_res : list Z; en_shared : bool; en_adj : list nat }.
(** one dimension: its entities and, for each primary entity, the adjacent ones (positions), apfGraph.cpp:212-213 *)
Record mdim := mkDim { md_ents : list ment; md_down : list (list nat) }.
(** the mesh on one part *)
Record pmesh := mkMesh { pm_prim : list (Z * bool); pm_dims : list mdim }.
(** hyperedges of one type: entities with the weight given to setEdge, and the rows of the primary entities *)
Record hdim := mkH { h_ents : list (ment * Z); h_down : list (list nat) }.

(** the members of the graph under construction *)
Record ast := mkA { a_me : Z; a_m : pmesh; a_n : nat; a_lun : arr Z; a_lw : arr Z; a_vm : zmap nat; a_gh : list Z; a_own : list Z; a_types : list etd }.

(** checkDims, apfGraph.cpp:98-121: the exception thrown, or 0 *)
Definition checkDims (peers dim primary second : Z) : Z :=
  if ((dim <? primary) || (primary <? 0) || (dim <? second) || (second <? 0))%Z then 1%Z
  else if (primary =? second)%Z then 2%Z
  else if (negb (primary =? dim) && (1 <? peers))%Z then 3%Z else 0%Z.
(** setupPrimary, apfGraph.cpp:121-160: the loop at 147-159 *)
Record vst := mkV { v_lid : nat; v_lun : arr Z; v_lw : arr Z; v_vm : zmap nat }.
Definition prim1 (s : vst) (x : Z * bool) : option vst :=
  if snd x then
    lw <- aset (v_lw s) (v_lid s) 1%Z ;; lu <- aset (v_lun s) (v_lid s) (fst x) ;;
    Some (mkV (v_lid s + 1) lu lw (zset (v_vm s) (fst x) (v_lid s)))
  else Some s.
Definition countOwned (m : pmesh) : nat := length (filter snd (pm_prim m)).
Definition setupPrimary (x : Z * pmesh) : option ast :=
  let n := countOwned (snd x) in
  s <- foldM prim1 (pm_prim (snd x)) (mkV 0 (anew n) (ainit (repeat 0%Z n)) []) ;;
  Some (mkA (fst x) (snd x) n (v_lun s) (v_lw s) (v_vm s) [] [] []).

(** setupSecondary, apfGraph.cpp:163-189 and setEdge, agiEdge.cpp:163-168 *)
Record sst := mkS { s_lid : nat; s_un : arr Z; s_wg : arr Z; s_em : zmap nat }.
Definition setEdge1 (s : sst) (x : ment * Z) : option sst :=
  u <- aset (s_un s) (s_lid s) (en_gid (fst x)) ;; w <- aset (s_wg s) (s_lid s) (snd x) ;;
  Some (mkS (s_lid s + 1) u w (zset (s_em s) (en_gid (fst x)) (s_lid s))).
Definition setupSecondary (h : hdim) : option sst :=
  let k := length (h_ents h) in foldM setEdge1 (h_ents h) (mkS 0 (anew k) (anew k) []).

(** connectToEdges, apfGraph.cpp:193-229; dofGraph.cpp:88-126 *)
Definition row_lids (em : zmap nat) (h : hdim) (row : list nat) : option (list nat) :=
  mapM (fun k => e <- nth_error (h_ents h) k ;; zfind em (en_gid (fst e))) row.
Definition edges1 (vm em : zmap nat) (h : hdim) (s : arr nat * list nat) (x : (Z * bool) * list nat) : option (arr nat * list nat) :=
  if snd (fst x) then
    lid <- zfind vm (fst (fst x)) ;; r <- row_lids em h (snd x) ;;
    d <- aset (fst s) (lid + 1) (length (snd s ++ r)) ;; Some (d, snd s ++ r)
  else Some s.
Definition connectToEdges (a : ast) (em : zmap nat) (h : hdim) : option (arr nat * list nat) :=
  d0 <- aset (anew (a_n a + 1)) 0 0 ;; foldM (edges1 (a_vm a) em h) (combine (pm_prim (a_m a)) (h_down h)) (d0, []).

(** the adjacent primary entities that are owned, apfGraph.cpp:254-258, 318-327 *)
Definition owned_adj (m : pmesh) (e : ment) : option (list Z) :=
  l <- mapM (nth_error (pm_prim m)) (en_adj e) ;; Some (map fst (filter snd l)).
(** the copies elsewhere, apfGraph.cpp:266-269, 332-335 *)
Definition others (me : Z) (e : ment) : list Z := filter (fun q => negb (Z.eqb q me)) (en_res e).

(** connectToPins up to the first PCU_Comm_Send, apfGraph.cpp:237-272; dofGraph.cpp:129-167, which also starts with zeros and asserts that a
    count has not been set yet ([chk]) *)
Definition count1 (chk : bool) (me : Z) (m : pmesh) (em : zmap nat) (s : arr nat * list (Z * (Z * nat))) (x : ment * Z) : option (arr nat * list (Z * (Z * nat))) :=
  let e := fst x in
  lid <- zfind em (en_gid e) ;; vs <- owned_adj m e ;;
  _ <- (if chk then c <- aget (fst s) (lid + 1) ;; if c =? 0 then Some tt else None else Some tt) ;;
  p <- aset (fst s) (lid + 1) (length vs) ;;
  Some (p, snd s ++ (if en_shared e then map (fun q => (q, (en_gid e, length vs))) (others me e) else [])).
Definition count_start (chk : bool) (k : nat) : option (arr nat) := if chk then Some (ainit (repeat 0 (k + 1))) else aset (anew (k + 1)) 0 0.
Definition count_local (chk : bool) (a : ast) (em : zmap nat) (h : hdim) : option (arr nat * list (Z * (Z * nat))) :=
  p0 <- count_start chk (length (h_ents h)) ;; foldM (count1 chk (a_me a) (a_m a) em) (h_ents h) (p0, []).
(** the first receive loop, apfGraph.cpp:274-283 *)
Definition count_recv (em : zmap nat) (pdl : arr nat) (arrived : list (Z * (Z * nat))) : option (arr nat) :=
  foldM (fun p r => lid <- zfind em (fst (snd r)) ;; x <- aget p (lid + 1) ;; aset p (lid + 1) (x + snd (snd r))) arrived pdl.
(** for (i=2;i<=nle;i++) pdl[i]+=pdl[i-1], apfGraph.cpp:285-287 *)
Definition offsets (k : nat) (pdl : arr nat) : option (arr nat) :=
  foldM (fun p i => x <- aget p i ;; y <- aget p (i - 1) ;; aset p i (x + y)) (seq 2 (k - 1)) pdl.

(** the second loop over the hyperedges, apfGraph.cpp:299-338 *)
Definition fill_pin (me : Z) (vm : zmap nat) (e : ment) (lid : nat) (s : (arr nat * arr nat) * list (Z * (Z * Z))) (v : Z) : option ((arr nat * arr nat) * list (Z * (Z * Z))) :=
  lv <- zfind vm v ;; pl <- push_row (fst s) lid lv ;; Some (pl, snd s ++ map (fun q => (q, (en_gid e, v))) (others me e)).
Definition fill1 (me : Z) (m : pmesh) (vm em : zmap nat) (s : (arr nat * arr nat) * list (Z * (Z * Z))) (x : ment * Z) : option ((arr nat * arr nat) * list (Z * (Z * Z))) :=
  lid <- zfind em (en_gid (fst x)) ;; vs <- owned_adj m (fst x) ;; foldM (fill_pin me vm (fst x) lid) vs s.

(** a part between the phases of one type *)
Record wst := mkW { w_a : ast; w_h : hdim; w_s : sst; w_deg : arr nat; w_el : list nat; w_pdl : arr nat; w_out : list (Z * (Z * nat)) }.
Record fst2 := mkF2 { f_w : wst; f_pdl : arr nat; f_npins : nat; f_fill : arr nat * arr nat; f_outp : list (Z * (Z * Z)) }.
Definition setup (chk : bool) (get : pmesh -> option hdim) (a : ast) : option wst :=
  h <- get (a_m a) ;; s <- setupSecondary h ;; ce <- connectToEdges a (s_em s) h ;; cl <- count_local chk a (s_em s) h ;;
  Some (mkW a h s (fst ce) (snd ce) (fst cl) (snd cl)).
(** apfGraph.cpp:274-338 *)
Definition after_counts (w : wst) (arrived : list (Z * (Z * nat))) : option fst2 :=
  let k := length (h_ents (w_h w)) in let em := s_em (w_s w) in let a := w_a w in
  p <- count_recv em (w_pdl w) arrived ;; pdl <- offsets k p ;; np <- aget pdl k ;;
  f <- foldM (fill1 (a_me a) (a_m a) (a_vm a) em) (h_ents (w_h w)) ((anew np, firstn k pdl), []) ;;
  Some (mkF2 w pdl np (fst f) (snd f)).
(** the second receive loop, apfGraph.cpp:341-364: a vertex not met before becomes a ghost owned by the sender *)
Record rst := mkR { r_vm : zmap nat; r_gh : list Z; r_own : list Z; r_fill : arr nat * arr nat }.
Definition recv_pin (n : nat) (em : zmap nat) (s : rst) (r : Z * (Z * Z)) : option rst :=
  lid <- zfind em (fst (snd r)) ;;
  match zfind (r_vm s) (snd (snd r)) with
  | None => let lv := n + length (r_gh s) in
      pl <- push_row (r_fill s) lid lv ;;
      Some (mkR (zset (r_vm s) (snd (snd r)) lv) (r_gh s ++ [snd (snd r)]) (r_own s ++ [fst r]) pl)
  | Some lv => pl <- push_row (r_fill s) lid lv ;; Some (mkR (r_vm s) (r_gh s) (r_own s) pl)
  end.
(** apfGraph.cpp:341-370: receive, then assert that every hyperedge got the expected number of pins *)
Definition after_pins (f : fst2) (arrived : list (Z * (Z * Z))) : option ast :=
  let w := f_w f in let a := w_a w in let s := w_s w in let k := length (h_ents (w_h w)) in
  r <- foldM (recv_pin (a_n a) (s_em s)) arrived (mkR (a_vm a) (a_gh a) (a_own a) (f_fill f)) ;;
  _ <- foldM (fun _ i => x <- aget (snd (r_fill r)) i ;; y <- aget (f_pdl f) (i + 1) ;; if x =? y then Some tt else None) (seq 0 k) tt ;;
  Some (mkA (a_me a) (a_m a) (a_n a) (a_lun a) (a_lw a) (r_vm r) (r_gh r) (r_own r)
    (a_types a ++ [mkEtd k (f_npins f) (s_em s) (s_un s) (s_wg s) (w_deg w) (ainit (w_el w)) (f_pdl f) (fst (r_fill r))])).
(** setupSecondary, connectToEdges, connectToPins for one edge type, apfGraph.cpp:58-60, 79-81 *)
Definition mesh_type (chk : bool) (get : pmesh -> option hdim) (sts : list ast) (Q : list ast -> Prop) : Prop :=
  local (setup chk get) sts (fun ws =>
  phase (fun w => Some (w_out w)) after_counts ws (fun fs =>
  phase (fun f => Some (f_outp f)) after_pins fs Q)).
Fixpoint mesh_types (chk : bool) (gets : list (pmesh -> option hdim)) (sts : list ast) (Q : list ast -> Prop) : Prop :=
  match gets with [] => Q sts | get :: r => mesh_type chk get sts (fun sts' => mesh_types chk r sts' Q) end.

(** constructGhostVerts, apfGraph.cpp:378-385 *)
Definition finish (a : ast) : option graph :=
  Some (mkGraph true (a_n a) (length (a_gh a)) (a_lun a) (a_lw a) (ainit (a_gh a)) (a_vm a) (a_types a) (ainit (a_own a)) (a_me a)).
(** createDoubleGhostTag(weightTagAPF), apfGraph.cpp:374-376, 387-389 *)
Definition ghost_weights (fuel : nat) (gs : list graph) (Q : list (graph * arr Z) -> Prop) : Prop :=
  phase (fun g => ghost_requests g fuel) (fun g r => ans <- ghost_answers g (vweight g) r ;; Some (g, ans)) gs (fun gas =>
  phase (fun ga : graph * list (Z * (Z * Z)) => Some (snd ga)) (fun ga r => tag <- ghost_install (fst ga) r ;; Some (fst ga, tag)) gas Q).
Definition ranked (ms : list pmesh) : list (Z * pmesh) := combine (map Z.of_nat (seq 0 (length ms))) ms.
(** the constructors, apfGraph.cpp:47-84; a mesh without owned primary entities is rejected with an exception, 122-126 (here [False]) *)
Definition mesh_graph (chk : bool) (gets : list (pmesh -> option hdim)) (fuel : nat) (ms : list pmesh) (Q : list (graph * arr Z) -> Prop) : Prop :=
  nsum (map countOwned ms) <> 0 /\
  local setupPrimary (ranked ms) (fun sts => mesh_types chk gets sts (fun sts' =>
  local finish sts' (fun gs => if 1 <? length ms then ghost_weights fuel gs Q else Q (map (fun g => (g, [])) gs)))).
(** createAPFGraph with one or several secondary dimensions, here the positions [ts] in [pm_dims] *)
Definition apf_dim (t : nat) (m : pmesh) : option hdim := d <- nth_error (pm_dims m) t ;; Some (mkH (map (fun e => (e, 1%Z)) (md_ents d)) (md_down d)).
Definition apfGraph (ts : list nat) := mesh_graph false (map apf_dim ts).
(** num_global_edges[type], apfGraph.cpp:166-167 *)
Definition owned_ents (m : pmesh) (t : nat) : nat := match nth_error (pm_dims m) t with Some d => length (filter en_owned (md_ents d)) | None => 0 end.
Definition apf_global_edges (ms : list pmesh) (t : nat) : nat := nsum (map (fun m => owned_ents m t) ms).
(** num_global_pins[type] = PCU_Add_Long(edgs.size()), apfGraph.cpp:228 *)
Definition apf_global_pins (gs : list graph) (t : nat) : nat := nsum (map (fun g => match gtype g t with Some ed => length (e_list ed) | None => 0 end) gs).

(** dofGraph: hasDOFs and numDOFs, dofGraph.cpp:282-328 *)
Definition hasDOFs (order : Z) (d : nat) : bool := match d with 0 => true | 1 => (2 <=? order)%Z | 2 => (4 <=? order)%Z | _ => false end.
Definition numDOFs (order : Z) (d : nat) : Z := if hasDOFs order d then match d with 0 => 1%Z | 1 => (order - 1)%Z | 2 => (order - 3)%Z | _ => 0%Z end else 0%Z.
(** the counting loop of setupHyperedges, dofGraph.cpp:40-52: num_global_edges and offset_global_edges[d+1].  PCU_Add_Long adds the values of
    all the parts, also when they are the same sum already *)
Definition dof_count (order : Z) (ms : list pmesh) (s : nat * list nat) (d : nat) : nat * list nat :=
  if hasDOFs order d then
    let global_count := nsum (map (fun m => owned_ents m d) ms) in
    let n := fst s + nsum (map (fun _ : pmesh => global_count) ms) in (n, upd (snd s) (d + 1) n)
  else s.
Definition dof_counts (order : Z) (dim : nat) (ms : list pmesh) : nat * list nat := fold_left (dof_count order ms) (seq 0 dim) (0, repeat 0 (dim + 1)).
(** dofGraph.cpp:70-83: the entities of all dimensions that hold degrees of freedom, renumbered; connectToEdges 105-117: the rows *)
Definition shift (k : Z) (e : ment) : ment := mkEnt (en_gid e + k) (en_owned e) (en_res e) (en_shared e) (en_adj e).
Definition dof_add (order : Z) (offs : list nat) (h : hdim) (x : nat * mdim) : hdim :=
  let d := fst x in
  if hasDOFs order d then
    mkH (h_ents h ++ map (fun e => (shift (Z.of_nat (nth (d + 1) offs 0)) e, numDOFs order d)) (md_ents (snd x)))
        (map (fun ab => fst ab ++ map (fun k => length (h_ents h) + k) (snd ab)) (combine (h_down h) (md_down (snd x))))
  else h.
Definition dof_dim (order : Z) (offs : list nat) (m : pmesh) : option hdim :=
  Some (fold_left (dof_add order offs) (combine (seq 0 (length (pm_dims m))) (pm_dims m)) (mkH [] (map (fun _ => []) (pm_prim m)))).
(** createSerendipityGraph, dofGraph.cpp:11-34; [pm_dims] has the dimensions below that of the mesh *)
Definition dofGraph (order : Z) (dim : nat) (fuel : nat) (ms : list pmesh) := mesh_graph true [dof_dim order (snd (dof_counts order dim ms))] fuel ms.
