(** Vertex-cut partitioning: zoltan/ZoltanCallbacks.cpp, zoltan/ZoltanCutVertex.cpp and binGraph::migrate (interfaces/binGraph.cpp:55-141).
    Zoltan itself is not modelled: it allocates the arrays with the sizes reported by the size queries, and answers with an arbitrary export list
    (export_lids, export_to_part).  [None] is undefined behaviour, a failed assertion or the read of an entry that was never written.
    Simplifications: int and lid_t are unbounded except in the memcpy of binGraph.cpp:128, where the size of lid_t is the point; delete of
    an array allocated with new[] (binGraph.cpp:80) is ignored. *)
From Verif Require Import Base GraphModel Comm TagModel MigrateModel ZoltanModel BinModel.
From Coq Require Import QArith.
Local Open Scope nat_scope.

(** num_obj and obj_list, ZoltanCallbacks.cpp:6-24 *)
Definition num_obj (g : graph) : option nat := num_edges g 0.
Definition obj_list (g : graph) : option (arr Z * arr nat) :=
  n <- num_obj g ;;
  foldM (fun (s : arr Z * arr nat) i => li <- aset (snd s) i i ;; gi <- aset (fst s) i (zid (Z.of_nat i)) ;; Some (gi, li)) (seq 0 n) (anew n, anew n).
(** hg_size, ZoltanCallbacks.cpp:26-32: number of lists and of pins, compressed edge format *)
Definition hg_size (g : graph) : option (nat * nat) := m <- num_obj g ;; Some (nlv g, m).
(** vtxedge_GID, vtxedge_ptr, pin_GID and the loop counter i of hg_data *)
Record cuthg := mkCH { ch_gid : arr Z; ch_ptr : arr nat; ch_pin : arr Z; ch_i : nat }.
(** one round of the loop of hg_data, ZoltanCallbacks.cpp:41-54 *)
Definition hg_data1 (g : graph) (np : nat) (s : cuthg) (h : nat) : option cuthg :=
  let i := ch_i s in
  x <- vgid g h ;; gi <- aset (ch_gid s) i (zid x) ;; d <- vdegree g h 0 ;;
  ptr <- (if i <? nlv g then o <- aget (ch_ptr s) i ;; aset (ch_ptr s) (i + 1) (o + d) else Some (ch_ptr s)) ;;
  pin <- foldM (fun (a : arr Z) j => o <- aget ptr i ;; a' <- aset a (o + j) (zid (Z.of_nat (o + j))) ;; hi <- aget ptr (i + 1) ;;
                  if (o + j <? np) && (o + j <? hi) then Some a' else None) (seq 0 d) (ch_pin s) ;;
  Some (mkCH gi ptr pin (i + 1)).
(** hg_data, ZoltanCallbacks.cpp:34-56; [slack] is the number of entries that Zoltan allocates for vtxedge_ptr beyond the announced number of lists *)
Definition hg_data (slack : nat) (g : graph) (fuel : nat) : option cuthg :=
  '(nl, np) <- hg_size g ;; ptr <- aset (anew (nl + slack)) 0 0 ;; hs <- all_verts g fuel ;;
  foldM (hg_data1 g np) hs (mkCH (anew nl) ptr (anew np) 0).
(** how Zoltan reads the pins of list i (compressed edge format): up to the next offset, and up to the reported number of pins for the last list *)
Definition zoltan_net (nl np : nat) (s : cuthg) (i : nat) : option (list Z) :=
  lo <- aget (ch_ptr s) i ;; hi <- (if i + 1 =? nl then Some np else aget (ch_ptr s) (i + 1)) ;;
  if lo <=? hi then mapM (aget (ch_pin s)) (seq lo (hi - lo)) else None.

(** 1.0/degree *)
Inductive ewgt := EW (q : Q) | EInf.
Definition inv_degree (d : nat) : ewgt := if d =? 0 then EInf else EW (1 / inject_Z (Z.of_nat d)).
(** hg_ew_size and hg_ew, ZoltanCallbacks.cpp:58-75: the index i is never increased *)
Definition hg_ew (g : graph) (fuel : nat) : option (arr Z * arr nat * arr ewgt) :=
  let n := nlv g in hs <- all_verts g fuel ;;
  foldM (fun (s : arr Z * arr nat * arr ewgt) h => let '(gi, li, w) := s in
           x <- vgid g h ;; gi' <- aset gi 0 (zid x) ;; li' <- aset li 0 0 ;; d <- vdegree g h 0 ;; w' <- aset w 0 (inv_degree d) ;; Some (gi', li', w'))
    hs (anew n, anew n, anew n).

(** ZoltanCutVertex::createPtn, ZoltanCutVertex.cpp:69-74: ptn[export_lids[i]] = export_to_part[i]; the map as the list of its entries *)
Fixpoint ptn_set (m : list (nat * Z)) (l : nat) (p : Z) : list (nat * Z) :=
  match m with [] => [(l, p)] | (k, q) :: m' => if k =? l then (k, p) :: m' else (k, q) :: ptn_set m' l p end.
Definition createPtn (exports : list (nat * Z)) : list (nat * Z) := fold_left (fun m x => ptn_set m (fst x) (snd x)) exports [].

(** one process before binGraph::migrate: its graph, num_global_verts, and the map in the order in which it is traversed *)
Record bpart := mkBP { b_g : graph; b_N : nat; b_map : list (nat * Z) }.
(** binGraph.cpp:58-64: the two PACKs of one edge go to the same process and stay together (PCU keeps the order of one sender), so they are one record.
    local_unmap is indexed by the number of the target also when that is a ghost *)
Definition vc_send (s : bpart) : option (list (Z * (Z * Z))) :=
  let g := b_g s in
  mapM (fun e => ed <- gtype g 0 ;; u <- u_lid g (fst e) 0 ;; a <- aget (lunmap g) u ;; x <- aget (e_list ed) (fst e) ;; b <- aget (lunmap g) x ;;
          Some (snd e, (a, b))) (b_map s).
(** an id used as an index *)
Definition as_id (x : Z) : option nat := if (x <? 0)%Z then None else Some (Z.to_nat x).
(** ranks, binGraph.cpp:83-88 *)
Definition vc_ranks (N : nat) (me : Z) (ids : list nat) : option (list Z) :=
  foldM (fun l v => if v <? length l then Some (upd l v me) else None) ids (repeat (-1)%Z N).
(** binGraph.cpp:66-90 with create_dist_csr (binGraph.cpp:280-323, 349-350) without ghosts; N is the sum of num_global_verts over the processes.
    createDoubleGhostTag sends and stores nothing when there is no ghost; for a process that has ghosts it is not modelled ([None]).
    Edge weights are those from before (binGraph.cpp never sets them here). *)
Definition vc_build (N : nat) (s : bpart) (arrived : list (Z * (Z * Z))) : option graph :=
  let g := b_g s in let me := self g in
  ids <- mapM as_id (flat_map (fun r => [fst (snd r); snd (snd r)]) arrived) ;;
  let m := length ids / 2 in
  ranks <- vc_ranks N me ids ;;
  let n := length (filter (Z.eqb me) ranks) in
  '(vm, lu, cur, el) <- foldM (relabel1 ranks me) (seq 0 (2 * m)) ([], anew n, 0, ainit ids) ;;
  tc <- count_sources n m el ;;
  deg <- offsets n tc ;;
  tmp <- fill_edges n m el deg ;;
  if ngv g =? 0 then
    let ow := match gtype g 0 with Some ed => e_wgts ed | None => [] end in
    Some (mkGraph false n 0 lu (ainit (repeat 1%Z n)) [] vm [mkEtd m (2 * m) [] [] ow deg tmp [] []] [] me)
  else None.

(** the result: the graph (its ghosts are the copies of its vertices elsewhere), degree_list and edge_list of SPLIT_TYPE, ghost_weights *)
Record vcut := mkVC { vc_g : graph; vc_deg : arr nat; vc_edges : arr nat; vc_gw : arr Z }.
(** binGraph.cpp:94-98 *)
Definition split_send (P : nat) (g : graph) : option (list (Z * Z)) :=
  ls <- mapM (fun i => v <- aget (lunmap g) i ;; Some (map (fun j => (((self g + Z.of_nat j) mod Z.of_nat P)%Z, v)) (seq 1 (P - 1)))) (seq 0 (nlv g)) ;; Some (concat ls).
(** binGraph.cpp:100-115: dups and owns in order of arrival, and the counts *)
Definition split_recv (g : graph) (arrived : list (Z * Z)) : option (list (Z * Z) * arr nat) :=
  foldM (fun (s : list (Z * Z) * arr nat) (r : Z * Z) => let '(dups, deg) := s in
           match zfind (vmap g) (snd r) with
           | None => Some s
           | Some l => c <- aget deg (l + 1) ;; deg' <- aset deg (l + 1) (c + 1) ;; Some (dups ++ [(snd r, fst r)], deg')
           end) arrived ([], ainit (repeat 0 (nlv g + 1))).
(** binGraph.cpp:117-118 *)
Definition prefix_sums (n : nat) (deg : arr nat) : option (arr nat) :=
  foldM (fun (d : arr nat) i => a <- aget d (i - 1) ;; b <- aget d i ;; aset d i (b + a)) (seq 1 n) deg.
(** binGraph.cpp:126-127: n*sizeof(int64_t) bytes of an array of n+1 lid_t are copied into an array of n int64_t.
    With 64-bit lid_t these are its first n entries.  With 32-bit lid_t entry i of the copy consists of entries 2i and 2i+1 (little endian) *)
Definition copy_counts (wide : bool) (n : nat) (deg : arr nat) : option (arr nat) :=
  if wide then xs <- mapM (aget deg) (seq 0 n) ;; Some (ainit xs)
  else xs <- mapM (fun i => a <- aget deg (2 * i) ;; b <- aget deg (2 * i + 1) ;; Some (N.to_nat (N.of_nat a + N.of_nat b * 4294967296)%N)) (seq 0 n) ;; Some (ainit xs).
(** binGraph.cpp:117-139; vtx_mapping[] of an id that was found before *)
Definition split_build (wide : bool) (g : graph) (arrived : list (Z * Z)) : option vcut :=
  let n := nlv g in
  '(dups, cnt) <- split_recv g arrived ;;
  deg <- prefix_sums n cnt ;;
  tot <- aget deg n ;;
  if tot =? length dups then
    tc <- copy_counts wide n deg ;;
    '(el, _, gu, ow) <- foldM (fun (s : arr nat * arr nat * arr Z * arr Z) i => let '(el, tc, gu, ow) := s in
        d <- nth_error dups i ;; l <- zfind (vmap g) (fst d) ;; '(el', tc') <- push_row (el, tc) l (n + i) ;;
        gu' <- aset gu i (fst d) ;; ow' <- aset ow i (snd d) ;; Some (el', tc', gu', ow'))
      (seq 0 (length dups)) (anew (length dups), tc, anew (length dups), anew (length dups)) ;;
    Some (mkVC (mkGraph (hyper g) n (length dups) (lunmap g) (lwgts g) gu (vmap g) (types g) ow (self g)) deg el [])
  else None.
(** binGraph::migrate on all processes: for every order in which messages arrive nothing is undefined and [Q] holds of the result;
    [wide]: lid_t has 64 bits *)
Definition vc_migrate (wide : bool) (st : list bpart) (Q : list vcut -> Prop) : Prop :=
  phase vc_send (vc_build (nsum (map b_N st))) st (fun gs =>
  phase (split_send (length st)) (split_build wide) gs Q).
(** num_global_verts after the call, binGraph.cpp:72 *)
Definition vc_global (st : list bpart) : nat := nsum (map b_N st).

(** the copies of a vertex: edges(vtx,SPLIT_TYPE) gives edge_list[degree_list[l] .. degree_list[l+1]), agiVertex.cpp:146-151; v(edge) its end *)
Definition split_ends (s : vcut) (h : nat) : option (list nat) :=
  l <- vlid h ;; lo <- aget (vc_deg s) l ;; hi <- aget (vc_deg s) (l + 1) ;; xs <- mapM (aget (vc_edges s)) (seq lo (hi - lo)) ;; Some (map S xs).
(** Ngraph::weight(GraphVertex* ) with ghost_weights, agiVertex.cpp:20-33 *)
Definition vc_weight (s : vcut) (h : nat) : option Z :=
  l <- vlid h ;; let n := nlv (vc_g s) in if n <=? l then aget (vc_gw s) (l - n) else aget (lwgts (vc_g s)) l.
