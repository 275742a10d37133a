(** Machine integers in the N-graph's access functions.  GraphModel.v and SecondAdjModel.v compute with unbounded
    numbers; here the same functions are given with the C++ types they really use.
    [w] is the number of bits of lid_t (LOCAL_ID_TYPE, agi/CMakeLists.txt:5-20: int32_t or int64_t), [wi] the number of bits of
    int (and of unsigned).  A signed computation whose result does not fit is undefined behaviour and gives [None].
    Simplifications: pointers (uintptr_t) are unbounded; the arrays read are those of the graph record, whose cells are
    shown to fit in IntProps.v; num_types and etype are at most 7 and are not checked; the arithmetic inside the construction calls
    and of gid_t (64 bits) is not modelled here. *)
From Verif Require Import Base GraphModel SecondAdjModel.

(** one past the largest value of a signed type of w bits *)
Definition lim (w : nat) : nat := 2 ^ (w - 1).
(** the result of a signed computation on w bits (C++ [expr.pre]/4: undefined when it does not fit) *)
Definition chk (w n : nat) : option nat := if n <? lim w then Some n else None.
(** lid_t lid = (uintptr_t) p: the low w bits, agiEdge.cpp:94; [None] stands for a negative local id, whose type index
    lid%num_types or whose search in u(lid_t,etype) is undefined *)
Definition narrow (w p : nat) : option nat := let m := p mod (2 ^ w) in if m <? lim w then Some m else None.

(** PNgraph::getVertex, agiVertex.cpp:14-16 *)
Definition getVertex_w (w l : nat) : option nat := chk w (l + 1).
(** PNgraph::getEdge, agiEdge.cpp:12-14: the product and the sums are computed in lid_t *)
Definition getEdge_w (w nt l t : nat) : option nat := a <- chk w (nt * l) ;; b <- chk w (a + t) ;; chk w (b + 1).

(** Ngraph::owner, agiVertex.cpp:60-70: num_local_verts+num_ghost_verts is a lid_t *)
Definition owner_w (w : nat) (g : graph) (h : nat) : option Z := _ <- chk w (nlv g + ngv g) ;; owner g h.

(** Ngraph::u(lid_t,etype), agiEdge.cpp:76-92: bound_high+bound_low is a lid_t *)
Fixpoint u_search_w (w : nat) (deg : arr nat) (e : nat) (fuel lo hi : nat) : option nat :=
  match fuel with
  | 0 => None
  | S f =>
      s <- chk w (hi + lo) ;;
      let idx := s / 2 in
      a <- aget deg idx ;;
      if a <=? e then
        b <- aget deg (idx + 1) ;;
        if e <? b then Some idx else u_search_w w deg e f idx hi
      else u_search_w w deg e f lo idx
  end.
(** as [u_lid] *)
Definition u_lid_w (w : nat) (g : graph) (e t : nat) : option nat :=
  ed <- gtype g t ;; u_search_w w (e_deg ed) e (nlv g + 2) 0 (nlv g).
(** Ngraph::u(GraphEdge* ), agiEdge.cpp:93-99: unlike its neighbours it decodes the handle in lid_t, not in uintptr_t *)
Definition u_of_w (w : nat) (g : graph) (h : nat) : option nat :=
  match h with
  | 0 => None
  | S p => k <- narrow w p ;; '(t, id) <- edec (ntypes g) (S k) ;; l <- u_lid_w w g id t ;; chk w (l + 1)
  end.
(** Ngraph::v(GraphEdge* ), agiEdge.cpp:101-112: edge_list[type][id]+1 is a lid_t *)
Definition v_of_w (w : nat) (g : graph) (h : nat) : option nat :=
  if hyper g then Some 0
  else if h =? 0 then Some 0
  else '(t, id) <- edec (ntypes g) h ;; ed <- gtype g t ;; x <- aget (e_list ed) id ;; chk w (x + 1).

(** Ngraph::iterate(VertexIterator*& ), agiIterate.cpp:25-34 *)
Definition vit_step_w (w : nat) (g : graph) (i : nat) : option (nat * nat) :=
  n <- chk w (nlv g + 1) ;; if i =? n then Some (0, 0) else i' <- chk w (i + 1) ;; Some (i, i').
(** Ngraph::iterate(GhostIterator*& ), agiIterate.cpp:35-44 *)
Definition git_step_w (w : nat) (g : graph) (i : nat) : option (nat * nat) :=
  m <- chk w (nlv g + ngv g) ;; n <- chk w (m + 1) ;; if i =? n then Some (0, 0) else i' <- chk w (i + 1) ;; Some (i, i').
(** Ngraph::beginGhosts, agiIterate.cpp:11-13 *)
Definition git_begin_w (w : nat) (g : graph) : option nat := chk w (nlv g + 1).
(** Ngraph::iterate(EdgeIterator*& ), agiIterate.cpp:60-72: loc, end and the step are uintptr_t (EdgeIterator.h:17-21), but
    num_types*edge_list[t][index]+t+1 is a lid_t *)
Definition eit_step_w (w : nat) (g : graph) (it : eiter) : option (nat * eiter) :=
  if ei_end it <=? ei_loc it then Some (0, it)
  else
    let it' := mkEiter (ei_loc it + ei_nt it) (ei_end it) (ei_nt it) (ei_hyper it) in
    if hyper g && negb (ei_hyper it) then
      '(t, id) <- edec (ntypes g) (ei_loc it) ;;
      ed <- gtype g t ;; e <- aget (e_list ed) id ;;
      h <- getEdge_w w (ntypes g) e t ;; Some (h, it')
    else Some (ei_loc it, it').
(** Ngraph::pins, agiEdge.cpp:126-136 *)
Definition pins_begin_w (w : nat) (g : graph) (h : nat) : option piter :=
  '(t, id) <- edec (ntypes g) h ;; ed <- gtype g t ;;
  if hyper g then
    a <- aget (e_pdeg ed) id ;; b <- aget (e_pdeg ed) (id + 1) ;; Some (PHyper t a b)
  else
    u <- u_of_w w g h ;; x <- aget (e_list ed) id ;; x' <- chk w (x + 1) ;; Some (PTrad u x').
(** Ngraph::iterate(PinIterator*& ), agiIterate.cpp:73-90: *e+1 is a lid_t *)
Definition pit_step_w (w : nat) (g : graph) (it : piter) : option (nat * piter) :=
  match it with
  | PHyper t loc fin =>
      if loc =? fin then Some (0, it)
      else ed <- gtype g t ;; x <- aget (e_pins ed) loc ;; x' <- chk w (x + 1) ;; Some (x', PHyper t (loc + 1) fin)
  | PTrad loc fin =>
      let fin' := if loc =? fin then 0 else fin in
      Some (loc, PTrad fin' fin')
  end.
(** Ngraph::iterate(GraphIterator*& ), agiIterate.cpp:91-110: itr->count is a lid_t (GraphIterator.h:15) *)
Definition adj_step_w (w : nat) (g : graph) (it : giter) : option (nat * giter) :=
  if hyper g then
    d <- edegree g (gi_edge it) ;;
    if d <=? gi_count it then
      '(e, eit') <- eit_step_w w g (gi_eit it) ;;
      if e =? 0 then Some (0, mkGiter (gi_count it) eit' None (gi_edge it))
      else
        p <- pins_begin_w w g e ;;
        '(x, p') <- pit_step_w w g p ;;
        c <- chk w 1 ;;
        Some (x, mkGiter c eit' (Some p') e)
    else
      p <- gi_pit it ;;
      '(x, p') <- pit_step_w w g p ;;
      c <- chk w (gi_count it + 1) ;;
      Some (x, mkGiter c (gi_eit it) (Some p') (gi_edge it))
  else
    '(e, eit') <- eit_step_w w g (gi_eit it) ;;
    x <- v_of_w w g e ;;
    Some (x, mkGiter (gi_count it) eit' (gi_pit it) e).

(** the loops  while ((x = iterate(itr)))  over the five iterators, as in GraphModel.v *)
Definition all_verts_w (w : nat) (g : graph) (fuel : nat) := drain (vit_step_w w g) fuel vit_begin.
Definition all_ghosts_w (w : nat) (g : graph) (fuel : nat) := b <- git_begin_w w g ;; drain (git_step_w w g) fuel b.
Definition all_edges_w (w : nat) (g : graph) (t fuel : nat) := it <- eit_begin g t ;; drain (eit_step_w w g) fuel it.
Definition vertex_edges_w (w : nat) (g : graph) (h t fuel : nat) := it <- eit_vertex g h t ;; drain (eit_step_w w g) fuel it.
Definition edge_pins_w (w : nat) (g : graph) (h fuel : nat) := it <- pins_begin_w w g h ;; drain (pit_step_w w g) fuel it.
Definition adjacent_w (w : nat) (g : graph) (h t fuel : nat) := it <- adj_begin g h t ;; drain (adj_step_w w g) fuel it.

(** Ngraph::setEdgeWeights(wgt_t,etype), agiEdge.cpp:138-142: the loop counter is an int, so that ++i overflows when the number of
    edges does not fit in an int *)
Definition setEdgeWeights_const_w (wi : nat) (g : graph) (x : Z) (t : nat) : option graph :=
  ne <- num_edges g t ;; _ <- chk wi ne ;; setEdgeWeights_const g x t.
(** Ngraph::changeOwners, agiVertex.cpp:164-167: the loop counter is an int *)
Definition changeOwners_w (wi : nat) (g : graph) (newRanks : list Z) : option graph :=
  _ <- chk wi (ngv g) ;; changeOwners g newRanks.

(** ** second adjacencies: agiConstruct.cpp:618-737 *)
(** first pass: [int id], [int count] (count is incremented once per neighbour, even under compress), offsets in lid_t.  An offset
    that does not fit is [None] also under compress, where the code adds a size_t and narrows: the array size passed to new is then
    negative or too small *)
Definition sa_offsets_w (w wi : nat) (n : nat) (row : nat -> option (list nat)) (compress : bool) (hs : list nat) : option (arr nat) :=
  o0 <- aset (anew (n + 1)) 0 0 ;;
  '(off, _) <- foldM (fun '(off, id) h =>
      others <- row h ;;
      c <- chk wi (length others) ;;
      prev <- aget off (id - 1) ;;
      s <- chk w (prev + if compress then length (uniq_adj h others) else c) ;;
      off' <- aset off id s ;;
      id' <- chk wi (id + 1) ;;
      Some (off', id')) hs (o0, 1) ;;
  Some off.
(** second pass: [int id] *)
Definition sa_lists_w (wi : nat) (tot : nat) (row : nat -> option (list nat)) (lid : nat -> option nat) (ord : nat -> list nat -> list nat)
    (compress : bool) (hs : list nat) : option (arr nat) :=
  '(ls, _) <- foldM (fun st h =>
      others <- row h ;;
      foldM (fun '(ls, id) x => l <- lid x ;; ls' <- aset ls id l ;; id' <- chk wi (id + 1) ;; Some (ls', id'))
        (if compress then ord h (uniq_adj h others) else others) st) hs (anew tot, 0) ;;
  Some ls.
Definition sa_make_w (w wi : nat) (n : nat) (row : nat -> option (list nat)) (lid : nat -> option nat) (ord : nat -> list nat -> list nat)
    (compress : bool) (hs : list nat) : option sadj :=
  off <- sa_offsets_w w wi n row compress hs ;; tot <- aget off n ;; ls <- sa_lists_w wi tot row lid ord compress hs ;; Some (mkSA off ls).

(** as [vev_row], agiConstruct.cpp:634, 656 *)
Definition vev_row_w (w : nat) (g : graph) (fuel : nat) (h : nat) : option (list nat) := adjacent_w w g h 0 fuel.
(** Ngraph::create_vev_adjacency(t,compress), agiConstruct.cpp:618-669 *)
Definition create_vev_w (w wi : nat) (g : graph) (tb : satab) (ord : nat -> list nat -> list nat) (t : nat) (compress : bool) (fuel : nat) : option satab :=
  hs <- all_verts_w w g fuel ;; s <- sa_make_w w wi (nlv g) (vev_row_w w g fuel) vlid ord compress hs ;;
  if t <? length tb then Some (upd tb t (Some s)) else None.
(** as [eve_row], agiConstruct.cpp:684-695 *)
Definition eve_row_w (w : nat) (g : graph) (fuel : nat) (h : nat) : option (list nat) :=
  vs <- edge_pins_w w g h fuel ;;
  rows <- mapM (fun v => o <- owner_w w g v ;; if Z.eqb o (self g) then vertex_edges_w w g v 0 fuel else Some []) vs ;;
  Some (concat rows).
(** Ngraph::create_eve_adjacency(t,compress), agiConstruct.cpp:671-737 *)
Definition create_eve_w (w wi : nat) (g : graph) (tb : satab) (ord : nat -> list nat -> list nat) (t : nat) (compress : bool) (fuel : nat) : option satab :=
  ed <- gtype g t ;; hs <- all_edges_w w g t fuel ;; s <- sa_make_w w wi (e_num ed) (eve_row_w w g fuel) (elid g) ord compress hs ;;
  if t <? length tb then Some (upd tb t (Some s)) else None.

(** vev_begin, vev_end, agiVertex.cpp:169-178: [start] and start+1 are lid_t *)
Definition vev_begin_w (w : nat) (g : graph) (tb : satab) (h t : nat) : option nat :=
  l <- vlid h ;; s <- sa_get tb t ;; o <- aget (sa_off s) l ;; chk w (o * ntypes g + t + 1).
Definition vev_end_w (w : nat) (g : graph) (tb : satab) (h t : nat) : option nat :=
  l <- vlid h ;; s <- sa_get tb t ;; o <- aget (sa_off s) (l + 1) ;; chk w (o * ntypes g + ntypes g + t + 1).
(** eve_begin, eve_end, agiEdge.cpp:170-183 *)
Definition eve_begin_w (w : nat) (g : graph) (tb : satab) (h : nat) : option nat :=
  '(t, l) <- edec (ntypes g) h ;; s <- sa_get tb t ;; o <- aget (sa_off s) l ;; chk w (o * ntypes g + t + 1).
Definition eve_end_w (w : nat) (g : graph) (tb : satab) (h : nat) : option nat :=
  '(t, l) <- edec (ntypes g) h ;; s <- sa_get tb t ;; o <- aget (sa_off s) (l + 1) ;; chk w (o * ntypes g + ntypes g + t + 1).
(** the two iterate functions, agiIterate.cpp:45-58 and 115-128: the total is cast to unsigned, the entry's handle is a lid_t, and
    toPtr(id+1) takes a lid_t (agi_typeconvert.cpp:10-12) *)
Definition sa_iterate_w (w wi : nat) (nt : nat) (num : nat -> option nat) (enc : nat -> nat -> nat) (tb : satab) (p : nat) : option (nat * nat) :=
  '(t, id) <- edec nt p ;; s <- sa_get tb t ;; n <- num t ;; tot <- aget (sa_off s) n ;;
  r <- (if tot mod (2 ^ wi) <=? id then Some 0 else x <- aget (sa_list s) id ;; chk w (enc x t)) ;;
  p' <- narrow w (id * nt + nt + 1) ;;
  Some (r, p').
Definition vev_iterate_w (w wi : nat) (g : graph) : satab -> nat -> option (nat * nat) :=
  sa_iterate_w w wi (ntypes g) (fun _ => Some (nlv g)) (fun x _ => x + 1).
Definition eve_iterate_w (w wi : nat) (g : graph) : satab -> nat -> option (nat * nat) :=
  sa_iterate_w w wi (ntypes g) (fun t => ed <- gtype g t ;; Some (e_num ed)) (fun x t => x * ntypes g + t + 1).
(** the loop of test/NgraphTestSuite.cpp:434, 491 *)
Definition vev_visit_w (w wi : nat) (g : graph) (tb : satab) (h t fuel : nat) : option (list nat) :=
  b <- vev_begin_w w g tb h t ;; e <- vev_end_w w g tb h t ;; sa_loop (vev_iterate_w w wi g tb) fuel e b.
Definition eve_visit_w (w wi : nat) (g : graph) (tb : satab) (h fuel : nat) : option (list nat) :=
  b <- eve_begin_w w g tb h ;; e <- eve_end_w w g tb h ;; sa_loop (eve_iterate_w w wi g tb) fuel e b.
