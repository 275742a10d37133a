(** Model of the binary edge-list reader, interfaces/binGraph.cpp:29-52 and 145-354.
    Simplifications.  The file is the list of its 8-byte records (two int32 ids); trailing bytes that do not make a record
    are dropped by the division at line 151.  Ids are natural numbers: a negative id is used as an index of [ranks] at
    line 230 or 296, which is undefined.  The int64 buffers read_edges and sendbuf hold pairs of ids; read_edges is modelled
    as the list of pairs its loops of step 2 visit.  int32 overflow of counts is not modelled.  MPI_Allreduce and
    MPI_Alltoall(v) are the functions the MPI standard gives.  Ghost weights (line 350, a ghost tag) belong to TagModel. *)
From Verif Require Import Base GraphModel.

(** the records read by process r of P, lines 152-161 and 166 *)
Definition slice_start (M P r : nat) : nat := r * (M / P).
Definition slice_end (M P r : nat) : nat := if r =? P - 1 then M else (r + 1) * (M / P).
Definition read_slice (file : list (nat * nat)) (P r : nat) : list (nat * nat) :=
  let M := length file in
  firstn (slice_end M P r - slice_start M P r) (skipn (slice_start M P r) file).

(** the largest id read by one process, lines 172-176 *)
Definition local_max (es : list (nat * nat)) : nat :=
  fold_left (fun m x => if m <? x then x else m) (flat_map (fun e => [fst e; snd e]) es) 0.
(** num_global_verts, lines 177-179 *)
Definition num_global (slices : list (list (nat * nat))) : nat := fold_right Nat.max 0 (map local_max slices) + 1.

(** binGraph::vert_block_ranks, lines 199-206 *)
Definition vert_block_ranks (N P : nat) : list Z := map (fun i => Z.of_nat (i / (N / P + 1))) (seq 0 N).
(** binGraph::read_ranks, lines 184-197, on the numbers in the lines of the file; too few lines are reported as None *)
Definition read_ranks (lines : list Z) (N : nat) : option (list Z) :=
  if N <=? length lines then Some (firstn N lines) else None.

(** ranks[vert] used as the number of a process, lines 231 and 254 *)
Definition task_of (ranks : list Z) (v : nat) : option nat :=
  t <- nth_error ranks v ;; if (t <? 0)%Z then None else Some (Z.to_nat t).

(** scounts, lines 219-233 *)
Definition send_counts (ranks : list Z) (P : nat) (es : list (nat * nat)) : option (arr nat) :=
  foldM (fun (sc : arr nat) (e : nat * nat) => t <- task_of ranks (fst e) ;; c <- aget sc t ;; aset sc t (c + 2))
    es (ainit (repeat 0 P)).
(** sdispls and rdispls, lines 238-242 *)
Definition displs (P : nat) (counts : arr nat) : option (arr nat) :=
  foldM (fun (d : arr nat) i => a <- aget d (i - 1) ;; c <- aget counts (i - 1) ;; aset d i (a + c))
    (seq 1 (P - 1)) (ainit (repeat 0 P)).
(** total_send and total_recv, lines 244-245 *)
Definition total (P : nat) (d counts : arr nat) : option nat :=
  a <- aget d (P - 1) ;; c <- aget counts (P - 1) ;; Some (a + c).
(** sendbuf[sdispls_cpy[task]++] = vert, lines 250-258; [push_row] is GraphModel's  a[c[u]++] = x *)
Definition pack_edge (ranks : list Z) (s : arr nat * arr nat) (e : nat * nat) : option (arr nat * arr nat) :=
  t <- task_of ranks (fst e) ;; s' <- push_row s t (fst e) ;; push_row s' t (snd e).
(** what one process gives to MPI_Alltoallv *)
Record outbox := mkOut { o_counts : arr nat; o_displs : arr nat; o_buf : arr nat }.
Definition make_outbox (ranks : list Z) (P : nat) (es : list (nat * nat)) : option outbox :=
  sc <- send_counts ranks P es ;;
  sd <- displs P sc ;;
  tot <- total P sd sc ;;
  '(buf, _) <- foldM (pack_edge ranks) es (anew tot, sd) ;;
  Some (mkOut sc sd buf).

(** MPI_Alltoall of the counts and MPI_Alltoallv seen from process r, lines 235-236 and 260-262: block s of the result is
    sendbuf_s[sdispls_s[r] .. sdispls_s[r]+scounts_s[r]), placed at rdispls[s] *)
Definition recv_block (r : nat) (rd : arr nat) (el : arr nat) (so : nat * outbox) : option (arr nat) :=
  let '(s, o) := so in
  c <- aget (o_counts o) r ;; d <- aget (o_displs o) r ;; base <- aget rd s ;;
  foldM (fun (a : arr nat) k => x <- aget (o_buf o) (d + k) ;; aset a (base + k) x) (seq 0 c) el.
Definition exchange (outs : list outbox) (r : nat) : option (arr nat) :=
  let P := length outs in
  cs <- mapM (fun o => aget (o_counts o) r) outs ;;
  rd <- displs P (ainit cs) ;;
  tot <- total P rd (ainit cs) ;;
  foldM (recv_block r rd) (combine (seq 0 P) outs) (anew tot).

(** the relabelling loop of create_dist_csr, lines 292-304: vtx_mapping, local_unmap, cur_label, edge_list *)
Definition relabel1 (ranks : list Z) (me : Z) (s : zmap nat * arr Z * nat * arr nat) (i : nat)
  : option (zmap nat * arr Z * nat * arr nat) :=
  let '(vm, lu, cur, el) := s in
  out <- aget el i ;;
  rk <- nth_error ranks out ;;
  if negb (Z.eqb rk me) then Some s
  else match zfind vm (Z.of_nat out) with
       | None => lu' <- aset lu cur (Z.of_nat out) ;; el' <- aset el i cur ;;
                 Some (zset vm (Z.of_nat out) cur, lu', cur + 1, el')
       | Some l => el' <- aset el i l ;; Some (vm, lu, cur, el')
       end.

(** temp_counts, lines 310-313 *)
Definition count_sources (n m : nat) (el : arr nat) : option (arr nat) :=
  foldM (fun (tc : arr nat) k => u <- aget el (2 * k) ;; c <- aget tc u ;; aset tc u (c + 1))
    (seq 0 m) (ainit (repeat 0 n)).
(** degree_list[t], lines 307-309 and 314-315 *)
Definition offsets (n : nat) (tc : arr nat) : option (arr nat) :=
  foldM (fun (d : arr nat) i => a <- aget d i ;; c <- aget tc i ;; aset d (i + 1) (a + c)) (seq 0 n) (ainit (repeat 0 (n + 1))).
(** tmp_edges, lines 305 and 316-319 *)
Definition fill_edges (n m : nat) (el deg : arr nat) : option (arr nat) :=
  '(tmp, _) <- foldM (fun (s : arr nat * arr nat) k => u <- aget el (2 * k) ;; x <- aget el (2 * k + 1) ;; push_row s u x)
                 (seq 0 m) (anew m, firstn n deg) ;;
  Some tmp.

(** the ghost pass, lines 326-338: vtx_mapping, edge_list, cur_label, nonlocal_vids *)
Definition ghost1 (n : nat) (s : zmap nat * arr nat * nat * list nat) (i : nat) : option (zmap nat * arr nat * nat * list nat) :=
  let '(vm, el, cur, nv) := s in
  out <- aget el i ;;
  match zfind vm (Z.of_nat out) with
  | None => el' <- aset el i cur ;; Some (zset vm (Z.of_nat out) cur, el', cur + 1, nv ++ [out])
  | Some l => if n <=? l then el' <- aset el i l ;; Some (vm, el', cur, nv) else Some s
  end.

(** binGraph::create_dist_csr with createGhost, lines 280-347, and setEdgeWeights with no weights, line 51; the edge_unmap,
    edge_mapping and pin arrays are never allocated by this reader *)
Definition create_dist_csr (ranks : list Z) (me : Z) (m : nat) (el0 : arr nat) : option graph :=
  let n := length (filter (Z.eqb me) ranks) in
  '(vm, lu, cur, el) <- foldM (relabel1 ranks me) (seq 0 (2 * m)) ([], anew n, 0, el0) ;;
  tc <- count_sources n m el ;;
  deg <- offsets n tc ;;
  tmp <- fill_edges n m el deg ;;
  '(vm', el', cur', nv) <- foldM (ghost1 n) (seq 0 m) (vm, tmp, n, []) ;;
  ow <- foldM (fun (a : arr Z) i => v <- nth_error nv i ;; o <- nth_error ranks v ;; aset a i o) (seq 0 (length nv)) (anew (cur' - n)) ;;
  gu <- foldM (fun (a : arr Z) i => v <- nth_error nv i ;; aset a i (Z.of_nat v)) (seq 0 (length nv)) (anew (cur' - n)) ;;
  Some (mkGraph false n (cur' - n) lu (ainit (repeat 1%Z n)) gu vm'
         [mkEtd m (2 * m) [] [] (ainit (repeat 1%Z m)) deg el' [] []] ow me).

(** the table of owners, lines 40-44 *)
Definition ranks_of (part : option (list Z)) (N P : nat) : option (list Z) :=
  match part with None => Some (vert_block_ranks N P) | Some lines => read_ranks lines N end.

(** binGraph::binGraph on P processes, lines 29-52: num_local_edges = total_recv / 2 (line 247) *)
Definition create_bin (file : list (nat * nat)) (P : nat) (part : option (list Z)) : option (list graph) :=
  let slices := map (read_slice file P) (seq 0 P) in
  ranks <- ranks_of part (num_global slices) P ;;
  outs <- mapM (make_outbox ranks P) slices ;;
  mapM (fun r => el <- exchange outs r ;; create_dist_csr ranks (Z.of_nat r) (length el / 2) el) (seq 0 P).
