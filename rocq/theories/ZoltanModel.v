(** The queries Zoltan makes and the plan made from its answer: partition/Multilevel/engpar_zoltan.cpp.
    Zoltan itself is not modelled: it allocates the arrays with the sizes reported by the size queries, reads them after the
    query, and answers with an arbitrary export list.
    Simplifications: lid_t and int are unbounded; weights are exact (the code rounds double to float); ngid, nlid and the
    number of weights are 1, as set at engpar_zoltan.cpp:46, 83-84.  [None] is undefined behaviour (also reading an uninitialised entry). *)
From Verif Require Import Base GraphModel TagModel.

(** ZOLTAN_ID_TYPE is unsigned int: a gid_t (64 bits) is reduced when it is stored, engpar_zoltan.cpp:113, 145, 154, 179 *)
Definition zid (x : Z) : Z := (x mod 4294967296)%Z.

(** numVertices and getVertices, engpar_zoltan.cpp:98-118 *)
Record zobj := mkZO { zo_gids : arr Z; zo_lids : arr nat; zo_wgts : arr Z }.
Definition numVertices (g : graph) : nat := nlv g.
Definition getVertices1 (g : graph) (s : zobj) (h : nat) : option zobj :=
  l <- vlid h ;; li <- aset (zo_lids s) l l ;; x <- vgid g h ;; gi <- aset (zo_gids s) l (zid x) ;;
  w <- vweight g h ;; wg <- aset (zo_wgts s) l w ;; Some (mkZO gi li wg).
Definition getVertices (g : graph) (fuel : nat) : option zobj :=
  hs <- all_verts g fuel ;; let n := numVertices g in foldM (getVertices1 g) hs (mkZO (anew n) (anew n) (anew n)).

(** numHyperedges, engpar_zoltan.cpp:121-128: the numbers of vertices and of pins *)
Definition numHyperedges (g : graph) : option (nat * nat) := ed <- gtype g 0 ;; Some (nlv g, e_npins ed).
(** getHyperedges, engpar_zoltan.cpp:131-153 *)
Record zhg := mkZH { zh_vtx : arr Z; zh_off : arr nat; zh_edg : arr Z; zh_idx : nat }.
Definition put_edge (g : graph) (s : arr Z * nat) (e : nat) : option (arr Z * nat) :=
  x <- egid g e ;; a <- aset (fst s) (snd s) (zid x) ;; Some (a, snd s + 1).
Definition getHyperedges1 (g : graph) (fuel : nat) (s : zhg) (h : nat) : option zhg :=
  l <- vlid h ;; x <- vgid g h ;; vt <- aset (zh_vtx s) l (zid x) ;;
  off <- (if l <? nlv g - 1 then o <- aget (zh_off s) l ;; d <- vdegree g h 0 ;; aset (zh_off s) (l + 1) (o + d) else Some (zh_off s)) ;;
  es <- vertex_edges g h 0 fuel ;; r <- foldM (put_edge g) es (zh_edg s, zh_idx s) ;; Some (mkZH vt off (fst r) (snd r)).
Definition getHyperedges (g : graph) (fuel : nat) : option zhg :=
  '(nv, np) <- numHyperedges g ;; hs <- all_verts g fuel ;; off <- aset (anew nv) 0 0 ;;
  foldM (getHyperedges1 g fuel) hs (mkZH (anew nv) off (anew np) 0).
(** how Zoltan reads the edges of vertex i in the compressed vertex format (Zoltan User's Guide, ZOLTAN_HG_CS_FN): up to the next offset, and up to
    the reported number of pins for the last vertex *)
Definition zoltan_row (nv np : nat) (s : zhg) (i : nat) : option (list Z) :=
  lo <- aget (zh_off s) i ;; hi <- (if i + 1 =? nv then Some np else aget (zh_off s) (i + 1)) ;;
  if lo <=? hi then mapM (aget (zh_edg s)) (seq lo (hi - lo)) else None.

(** numHyperedgeWeights and getHyperedgeWeights, engpar_zoltan.cpp:156-178 *)
Definition getHyperedgeWeights1 (g : graph) (s : zobj) (h : nat) : option zobj :=
  l <- elid g h ;; li <- aset (zo_lids s) l l ;; x <- egid g h ;; gi <- aset (zo_gids s) l (zid x) ;;
  w <- eweight g h ;; wg <- aset (zo_wgts s) l w ;; Some (mkZO gi li wg).
Definition getHyperedgeWeights (g : graph) (fuel : nat) : option zobj :=
  n <- num_edges g 0 ;; hs <- all_edges g 0 fuel ;; foldM (getHyperedgeWeights1 g) hs (mkZO (anew n) (anew n) (anew n)).

(** numEdges, engpar_zoltan.cpp:183-189 *)
Definition numEdges (g : graph) (lid : nat) : option nat := vdegree g (getVertex lid) 0.
(** getEdges, engpar_zoltan.cpp:192-212 *)
Record zgr := mkZG { zg_nbr : arr Z; zg_own : arr Z; zg_wgt : arr Z; zg_idx : nat }.
Definition getEdges1 (g : graph) (s : zgr) (e : nat) : option zgr :=
  v <- v_of g e ;; x <- vgid g v ;; nb <- aset (zg_nbr s) (zg_idx s) (zid x) ;; o <- owner g v ;; ow <- aset (zg_own s) (zg_idx s) o ;;
  w <- eweight g e ;; wg <- aset (zg_wgt s) (zg_idx s) w ;; Some (mkZG nb ow wg (zg_idx s + 1)).
Definition getEdges (g : graph) (lid fuel : nat) : option zgr :=
  n <- numEdges g lid ;; es <- vertex_edges g (getVertex lid) 0 fuel ;; foldM (getEdges1 g) es (mkZG (anew n) (anew n) (anew n) 0).

(** the plan, engpar_zoltan.cpp:67-73; [exports] are the pairs (export_lids[i], export_procs[i]) *)
Definition zoltan_plan (g : graph) (fuel : nat) (exports : list (nat * Z)) : option mplan :=
  p0 <- plan_new g fuel ;; foldM (fun p x => '(p', _) <- plan_insert g p (getVertex (fst x)) (snd x) ;; Some p') exports p0.
