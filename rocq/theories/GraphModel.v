(** Model of the per-part N-graph data structure: construction, access, iterators.
    Sources: agi/agiConstruct.cpp, agi/agiVertex.cpp, agi/agiEdge.cpp, agi/agiIterate.cpp,
    agi/Iterators/*.h, agi/agi_typeconvert.cpp, agi/ngraph.h.
    Simplifications: lid_t/gid_t are unbounded (nat / Z); weights are exact integers (Z) rather than
    doubles; pointers used as handles are the natural numbers they encode (0 = NULL); logging and
    deallocation are omitted; unordered_map is an association list. *)
From Verif Require Export Base.

(** The arrays kept for one edge type: ngraph.h (protected members num_local_edges, num_local_pins, edge_mapping,
    edge_unmap, edge_weights, degree_list, edge_list, pin_degree_list, pin_list), agiConstruct.cpp:11-34. *)
Record etd := mkEtd {
  e_num   : nat;        (* num_local_edges[t] *)
  e_npins : nat;        (* num_local_pins[t] *)
  e_map   : zmap nat;   (* edge_mapping[t] *)
  e_unmap : arr Z;      (* edge_unmap[t] *)
  e_wgts  : arr Z;      (* edge_weights[t] *)
  e_deg   : arr nat;    (* degree_list[t]: offsets into edge_list, one per local vertex, plus one *)
  e_list  : arr nat;    (* edge_list[t] *)
  e_pdeg  : arr nat;    (* pin_degree_list[t] *)
  e_pins  : arr nat     (* pin_list[t] *)
}.

(** The graph on one part: ngraph.h members, agiConstruct.cpp:11-43. [types] has length num_types. *)
Record graph := mkGraph {
  hyper  : bool;
  nlv    : nat;         (* num_local_verts *)
  ngv    : nat;         (* num_ghost_verts *)
  lunmap : arr Z;       (* local_unmap *)
  lwgts  : arr Z;       (* local_weights *)
  gunmap : arr Z;       (* ghost_unmap *)
  vmap   : zmap nat;    (* vtx_mapping *)
  types  : list etd;
  owners : arr Z;       (* owners of ghosts *)
  self   : Z            (* PCU_Comm_Self() *)
}.
Definition ntypes (g : graph) : nat := length (types g).

(** Ngraph::Ngraph, agiConstruct.cpp:10-43 *)
Definition empty_graph (me : Z) : graph := mkGraph false 0 0 [] [] [] [] [] [] me.

(** Ngraph::constructVerts (vector form), agiConstruct.cpp:70-104: the loop at 89-97 *)
Definition constructVerts (me : Z) (isHG : bool) (verts : list Z) (wgts : list Z) : option graph :=
  let n := length verts in
  '(lu, lw, vm) <- foldM (fun '(lu, lw, vm) i =>
      v <- nth_error verts i ;;
      lu' <- aset lu i v ;;
      w <- (if i <? length wgts then nth_error wgts i else Some 1%Z) ;;
      lw' <- aset lw i w ;;
      Some (lu', lw', zset vm v i))
    (seq 0 n) (anew n, anew n, []) ;;
  Some (mkGraph isHG n 0 lu lw [] vm [] [] me).

(** Ngraph::constructVerts (array form), agiConstruct.cpp:106-138: the loop at 125-133.
    [wgts = None] is the NULL pointer. *)
Definition constructVerts_arr (me : Z) (isHG : bool) (num_verts : nat) (verts : list Z)
    (wgts : option (list Z)) : option graph :=
  '(lu, lw, vm) <- foldM (fun '(lu, lw, vm) i =>
      v <- nth_error verts i ;;
      lu' <- aset lu i v ;;
      w <- (match wgts with Some ws => nth_error ws i | None => Some 1%Z end) ;;
      lw' <- aset lw i w ;;
      Some (lu', lw', zset vm v i))
    (seq 0 num_verts) (anew num_verts, anew num_verts, []) ;;
  Some (mkGraph isHG num_verts 0 lu lw [] vm [] [] me).

(** State of the pin loop of constructEdges, agiConstruct.cpp:172-197 *)
Record pst := mkPst {
  p_deg : arr nat;      (* degree_list[t] before the prefix sum *)
  p_pins : arr nat;     (* pin_list[t] *)
  p_vm : zmap nat;      (* vtx_mapping *)
  p_ng : nat            (* num_ghost_verts *)
}.

(** one pin, agiConstruct.cpp:173-196 (array form 289-310) *)
Definition pin1 (hg : bool) (n : nat) (pv : list Z) (s : pst) (j : nat) : option pst :=
  v <- nth_error pv j ;;
  match zfind (p_vm s) v with
  | Some l =>
      if l <? n then
        (* locally owned: count it when j is even, or when in hypergraph mode *)
        deg' <- (if Nat.even j then d <- aget (p_deg s) (l + 1) ;; aset (p_deg s) (l + 1) (d + 1)
                 else if hg then d <- aget (p_deg s) (l + 1) ;; aset (p_deg s) (l + 1) (d + 1)
                 else Some (p_deg s)) ;;
        pins' <- aset (p_pins s) j l ;;
        Some (mkPst deg' pins' (p_vm s) (p_ng s))
      else
        pins' <- aset (p_pins s) j l ;;
        Some (mkPst (p_deg s) pins' (p_vm s) (p_ng s))
  | None =>
      (* a new ghost *)
      pins' <- aset (p_pins s) j (n + p_ng s) ;;
      Some (mkPst (p_deg s) pins' (zset (p_vm s) v (n + p_ng s)) (p_ng s + 1))
  end.

(** one edge of the first loop, agiConstruct.cpp:166-198 (array form 283-312) *)
Definition edge1 (hg : bool) (n : nat) (ids : list Z) (degs : list nat) (pv : list Z)
    (s : zmap nat * arr Z * arr nat * pst) (i : nat) : option (zmap nat * arr Z * arr nat * pst) :=
  let '(em, eu, pd, q) := s in
  gid <- nth_error ids i ;;
  eu' <- aset eu i gid ;;
  p <- aget pd i ;;
  d <- nth_error degs i ;;
  pd' <- aset pd (i + 1) (p + d) ;;
  q' <- foldM (pin1 hg n pv) (seq p d) q ;;
  Some (zset em gid i, eu', pd', q').

(** offsets from degrees, agiConstruct.cpp:203-205 (array form 315-317) *)
Definition prefix_sums (n : nat) (deg : arr nat) : option (arr nat) :=
  foldM (fun a i => x <- aget a i ;; y <- aget a (i - 1) ;; aset a i (x + y)) (seq 1 n) deg.

(** grow ghost_unmap, agiConstruct.cpp:211-221 (array form 321-331) *)
Definition grow_ghosts (gu : arr Z) (ng newg : nat) : option (arr Z) :=
  if 0 <? newg then
    match gu with
    | [] => Some (anew ng)
    | _ => if ng - newg <=? length gu then Some (firstn (ng - newg) gu ++ anew newg) else None
    end
  else Some gu.

(** edge_list[t][temp_counts[u]++] = x, agiConstruct.cpp:233 and 242 *)
Definition push_row (s : arr nat * arr nat) (u x : nat) : option (arr nat * arr nat) :=
  let '(el, tc) := s in
  k <- aget tc u ;; tc' <- aset tc u (k + 1) ;; el' <- aset el k x ;; Some (el', tc').

(** ghost_unmap[u-num_local_verts] = pins_to_verts[j] when u is a ghost, agiConstruct.cpp:227-229, 238-240 *)
Definition note_ghost (n : nat) (pv : list Z) (gu : arr Z) (u j : nat) : option (arr Z) :=
  if n <=? u then v <- nth_error pv j ;; aset gu (u - n) v else Some gu.

(** second loop body, hypergraph mode, agiConstruct.cpp:226-234 *)
Definition pin2_hyper (n : nat) (pv : list Z) (pins : arr nat) (i : nat)
    (s : arr nat * arr nat * arr Z) (j : nat) : option (arr nat * arr nat * arr Z) :=
  let '(el, tc, gu) := s in
  u <- aget pins j ;;
  gu' <- note_ghost n pv gu u j ;;
  if u <? n then '(el', tc') <- push_row (el, tc) u i ;; Some (el', tc', gu')
  else Some (el, tc, gu').

(** second loop body, traditional mode, agiConstruct.cpp:226-229 and 235-243; it consumes pins j and j+1 *)
Definition pin2_trad (n : nat) (pv : list Z) (pins : arr nat)
    (s : arr nat * arr nat * arr Z) (j : nat) : option (arr nat * arr nat * arr Z) :=
  let '(el, tc, gu) := s in
  u <- aget pins j ;;
  gu' <- note_ghost n pv gu u j ;;
  v <- aget pins (j + 1) ;;
  gu'' <- note_ghost n pv gu' v (j + 1) ;;
  if u <? n then '(el', tc') <- push_row (el, tc) u v ;; Some (el', tc', gu'')
  else Some (el, tc, gu'').

(** one edge of the second loop, agiConstruct.cpp:224-246: in traditional mode j advances by two
    (++j in the body and j++ in the loop header) while j < pin_degree_list[t][i+1] *)
Definition edge2 (hg : bool) (n : nat) (pv : list Z) (pins pd : arr nat)
    (s : arr nat * arr nat * arr Z) (i : nat) : option (arr nat * arr nat * arr Z) :=
  p <- aget pd i ;;
  q <- aget pd (i + 1) ;;
  if hg then foldM (pin2_hyper n pv pins i) (seq p (q - p)) s
  else foldM (pin2_trad n pv pins) (map (fun k => p + 2 * k) (seq 0 ((q - p + 1) / 2))) s.

(** weights, vector form: agiConstruct.cpp:250-256 *)
Definition edge_wgts_vec (n : nat) (ew : list Z) : option (arr Z) :=
  match ew with
  | [] => Some (ainit (repeat 1%Z n))
  | _ => foldM (fun a i => w <- nth_error ew i ;; aset a i w) (seq 0 (length ew)) (anew n)
  end.

(** weights, array form: agiConstruct.cpp:355-361 *)
Definition edge_wgts_arr (n : nat) (ew : option (list Z)) : option (arr Z) :=
  match ew with
  | None => Some (ainit (repeat 1%Z n))
  | Some l => foldM (fun a i => w <- nth_error l i ;; aset a i w) (seq 0 n) (anew n)
  end.

(** The body shared by the two overloads of constructEdges: agiConstruct.cpp:144-256 and 266-361 contain
    the same statements; they differ in how the number of edges, of pins and the weights are obtained.
    addEdgeType asserts num_types != MAX_TYPES = 7 (ngraph.h:551). *)
Definition construct_core (g : graph) (nedges npins : nat) (ids : list Z) (degs : list nat)
    (pv : list Z) (ws : option (arr Z)) : option (graph * nat) :=
  if ntypes g =? 7 then None else
  let n := nlv g in
  pd0 <- aset (anew (nedges + 1)) 0 0 ;;
  '(em, eu, pd, q) <- foldM (edge1 (hyper g) n ids degs pv) (seq 0 nedges)
       ([], anew nedges, pd0,
        mkPst (ainit (repeat 0 (n + 1))) (anew npins) (vmap g) (ngv g)) ;;
  let ne := if hyper g then nedges else npins / 2 in
  deg <- prefix_sums n (p_deg q) ;;
  tot <- aget deg n ;;
  gu <- grow_ghosts (gunmap g) (p_ng q) (p_ng q - ngv g) ;;
  '(el, tc, gu') <- foldM (edge2 (hyper g) n pv (p_pins q) pd) (seq 0 nedges)
       (anew tot, firstn n deg, gu) ;;
  w <- ws ;;
  let ed := mkEtd ne npins em eu w deg el pd (p_pins q) in
  Some (mkGraph (hyper g) n (p_ng q) (lunmap g) (lwgts g) gu' (p_vm q) (types g ++ [ed])
          (owners g) (self g), ntypes g).

(** Ngraph::constructEdges (vector form), agiConstruct.cpp:140-262.
    pin_degree_list has degs.size()+1 cells there; the callers' contract degs.size()=edge_ids.size() is
    checked here so that the shared body may use edge_ids.size()+1. *)
Definition constructEdges (g : graph) (ids : list Z) (degs : list nat) (pv : list Z) (ew : list Z)
  : option (graph * nat) :=
  if length degs =? length ids then
    construct_core g (length ids) (length pv) ids degs pv (edge_wgts_vec (length ids) ew)
  else None.

(** Ngraph::constructEdges (array form), agiConstruct.cpp:263-367; num_local_pins is the sum of degs (274-276) *)
Definition constructEdges_arr (g : graph) (num_edges : nat) (ids : list Z) (degs : list nat) (pv : list Z)
    (ew : option (list Z)) : option (graph * nat) :=
  if num_edges <=? length degs then
    construct_core g num_edges (nsum (firstn num_edges degs)) ids degs pv (edge_wgts_arr num_edges ew)
  else None.

(** owners part of Ngraph::constructGhosts (map form), agiConstruct.cpp:380-385.
    owns[...] default-inserts part 0 for an unknown id. *)
Definition constructGhosts_owners (g : graph) (owns : zmap Z) : option graph :=
  ow <- foldM (fun a v => gid <- aget (gunmap g) v ;;
                 aset a v (match zfind owns gid with Some p => p | None => 0%Z end))
       (seq 0 (ngv g)) (anew (ngv g)) ;;
  Some (mkGraph (hyper g) (nlv g) (ngv g) (lunmap g) (lwgts g) (gunmap g) (vmap g) (types g) ow (self g)).

(** owners part of Ngraph::constructGhosts (array form), agiConstruct.cpp:430-439.
    vtx_mapping[v] default-inserts local id 0 for an unknown id. *)
Definition constructGhosts_owners_arr (g : graph) (num_ghosts : nat) (ids : list Z) (owns : list Z) : option graph :=
  '(ow, vm) <- foldM (fun '(a, vm) i =>
       v <- nth_error ids i ;;
       let '(l, vm') := match zfind vm v with Some l => (l, vm) | None => (0, zset vm v 0) end in
       if l <? nlv g then Some (a, vm')
       else o <- nth_error owns i ;; a' <- aset a (l - nlv g) o ;; Some (a', vm'))
     (seq 0 num_ghosts) (anew (ngv g), vmap g) ;;
  Some (mkGraph (hyper g) (nlv g) (ngv g) (lunmap g) (lwgts g) (gunmap g) vm (types g) ow (self g)).

(** NULL arrays left behind by removeEdges: any access to them is out of range. *)
Definition null_etd : etd := mkEtd 0 0 [] [] [] [] [] [] [].

(** Ngraph::removeEdges, agiConstruct.cpp:478-505 *)
Definition removeEdges (g : graph) (t : nat) : option graph :=
  if t <? ntypes g then
    let ts := if t =? ntypes g - 1 then firstn (ntypes g - 1) (types g) else upd (types g) t null_etd in
    Some (mkGraph (hyper g) (nlv g) (ngv g) (lunmap g) (lwgts g) (gunmap g) (vmap g) ts (owners g) (self g))
  else None.

(* ------------------------------------------------------------------ *)
(** * Handles *)

(** PNgraph::getVertex, agiVertex.cpp:14-16 *)
Definition getVertex (l : nat) : nat := l + 1.
(** Ngraph::localID(GraphVertex* ), agiVertex.cpp:126-129; fromPtr, agi_typeconvert.cpp:13-22.
    A NULL handle (index -1) is reported as None. *)
Definition vlid (h : nat) : option nat := match h with 0 => None | S l => Some l end.
(** PNgraph::getEdge, agiEdge.cpp:12-14 *)
Definition getEdge (nt l t : nat) : nat := nt * l + t + 1.
(** decoding used throughout agiEdge.cpp, e.g. 57-59, 63-66: (type, local id) *)
Definition edec (nt h : nat) : option (nat * nat) :=
  match h with 0 => None | S id => if nt =? 0 then None else Some (id mod nt, id / nt) end.

Definition gtype (g : graph) (t : nat) : option etd := nth_error (types g) t.

(** Ngraph::globalID(GraphVertex* ), agiVertex.cpp:130-135 *)
Definition vgid (g : graph) (h : nat) : option Z :=
  l <- vlid h ;;
  if nlv g <=? l then aget (gunmap g) (l - nlv g) else aget (lunmap g) l.

(** Ngraph::findGID, agiIterate.cpp:14-17: dereferences find()->second, undefined when absent *)
Definition findGID (g : graph) (v : Z) : option nat := l <- zfind (vmap g) v ;; Some (l + 1).

(** Ngraph::owner, agiVertex.cpp:60-70. NULL (index -1) counts as a local index there. *)
Definition owner (g : graph) (h : nat) : option Z :=
  match vlid h with
  | None => Some (self g)
  | Some l => if nlv g + ngv g <=? l then Some (-1)%Z
              else if l <? nlv g then Some (self g)
              else aget (owners g) (l - nlv g)
  end.

(** Ngraph::weight(GraphVertex* ) for a local vertex, agiVertex.cpp:18-28 (ghost weights are a ghost tag, see TagModel) *)
Definition vweight (g : graph) (h : nat) : option Z :=
  l <- vlid h ;; if l <? nlv g then aget (lwgts g) l else None.

(** Ngraph::degree(GraphVertex*,etype), agiVertex.cpp:141-144 *)
Definition vdegree (g : graph) (h t : nat) : option nat :=
  l <- vlid h ;; ed <- gtype g t ;;
  a <- aget (e_deg ed) (l + 1) ;; b <- aget (e_deg ed) l ;; Some (a - b).

(** Ngraph::weight(GraphEdge* ), agiEdge.cpp:56-61 *)
Definition eweight (g : graph) (h : nat) : option Z :=
  '(t, id) <- edec (ntypes g) h ;; ed <- gtype g t ;; aget (e_wgts ed) id.

(** Ngraph::localID(GraphEdge* ), agiEdge.cpp:63-66 *)
Definition elid (g : graph) (h : nat) : option nat := '(_, id) <- edec (ntypes g) h ;; Some id.

(** Ngraph::globalID(GraphEdge* ), agiEdge.cpp:68-74 *)
Definition egid (g : graph) (h : nat) : option Z :=
  '(t, id) <- edec (ntypes g) h ;;
  if hyper g then ed <- gtype g t ;; aget (e_unmap ed) id else Some (Z.of_nat id).

(** Ngraph::u(lid_t,etype): binary search, agiEdge.cpp:76-92. The loop is not bounded in the code;
    [None] stands for an out-of-range read or for running out of fuel. *)
Fixpoint u_search (deg : arr nat) (e : nat) (fuel lo hi : nat) : option nat :=
  match fuel with
  | 0 => None
  | S f =>
      let idx := (hi + lo) / 2 in
      a <- aget deg idx ;;
      if a <=? e then
        b <- aget deg (idx + 1) ;;
        if e <? b then Some idx else u_search deg e f idx hi
      else u_search deg e f lo idx
  end.
(** the fuel nlv+2 is shown sufficient in GraphProofs.v *)
Definition u_lid (g : graph) (e t : nat) : option nat :=
  ed <- gtype g t ;; u_search (e_deg ed) e (nlv g + 2) 0 (nlv g).
(** Ngraph::u(GraphEdge* ), agiEdge.cpp:93-99 *)
Definition u_of (g : graph) (h : nat) : option nat :=
  '(t, id) <- edec (ntypes g) h ;; l <- u_lid g id t ;; Some (l + 1).
(** Ngraph::v(GraphEdge* ), agiEdge.cpp:101-112: NULL in hypergraph mode and for the NULL edge *)
Definition v_of (g : graph) (h : nat) : option nat :=
  if hyper g then Some 0
  else if h =? 0 then Some 0
  else '(t, id) <- edec (ntypes g) h ;; ed <- gtype g t ;; x <- aget (e_list ed) id ;; Some (x + 1).

(** Ngraph::degree(GraphEdge* ), agiEdge.cpp:114-124 *)
Definition edegree (g : graph) (h : nat) : option nat :=
  if negb (hyper g) then Some 2
  else if h =? 0 then Some 0
  else '(t, id) <- edec (ntypes g) h ;; ed <- gtype g t ;;
       a <- aget (e_pdeg ed) (id + 1) ;; b <- aget (e_pdeg ed) id ;; Some (a - b).

(* ------------------------------------------------------------------ *)
(** * Iterators *)

(** VertexIterator: begin() and iterate, agiIterate.cpp:8-10, 25-34. The C++ comparison is index==nlv+1. *)
Definition vit_begin : nat := 1.
Definition vit_step (g : graph) (i : nat) : option (nat * nat) :=
  if i =? nlv g + 1 then Some (0, 0) else Some (i, i + 1).
(** GhostIterator: agiIterate.cpp:11-13, 35-44 *)
Definition git_begin (g : graph) : nat := nlv g + 1.
Definition git_step (g : graph) (i : nat) : option (nat * nat) :=
  if i =? nlv g + ngv g + 1 then Some (0, 0) else Some (i, i + 1).

(** EdgeIterator, Iterators/EdgeIterator.h:11-25 *)
Record eiter := mkEiter { ei_loc : nat; ei_end : nat; ei_nt : nat; ei_hyper : bool }.
Definition mk_eiter (t nt l deg : nat) (hy : bool) : eiter :=
  mkEiter (1 + t + nt * l) (1 + t + nt * (l + deg)) nt hy.
(** num_local_edges[t]: an array of MAX_TYPES = 7 counters that starts at zero, agiConstruct.cpp:20-25 *)
Definition num_edges (g : graph) (t : nat) : option nat :=
  match gtype g t with Some ed => Some (e_num ed) | None => if t <? 7 then Some 0 else None end.
(** Ngraph::begin(etype), agiIterate.cpp:19-23 (HyperEdgeIterator.h:14-16 starts at 0) *)
Definition eit_begin (g : graph) (t : nat) : option eiter :=
  ne <- num_edges g t ;; Some (mk_eiter t (ntypes g) 0 ne (hyper g)).
(** Ngraph::edges(vtx,type), agiVertex.cpp:146-151 *)
Definition eit_vertex (g : graph) (h t : nat) : option eiter :=
  l <- vlid h ;; ed <- gtype g t ;; off <- aget (e_deg ed) l ;;
  d <- vdegree g h t ;; Some (mk_eiter t (ntypes g) off d false).
(** Ngraph::iterate(EdgeIterator*& ), agiIterate.cpp:60-72 *)
Definition eit_step (g : graph) (it : eiter) : option (nat * eiter) :=
  if ei_end it <=? ei_loc it then Some (0, it)
  else
    let it' := mkEiter (ei_loc it + ei_nt it) (ei_end it) (ei_nt it) (ei_hyper it) in
    if hyper g && negb (ei_hyper it) then
      '(t, id) <- edec (ntypes g) (ei_loc it) ;;
      ed <- gtype g t ;; e <- aget (e_list ed) id ;;
      Some (ntypes g * e + t + 1, it')
    else Some (ei_loc it, it').

(** PinIterator, Iterators/PinIterator.h:11-17. In hypergraph mode loc/end point into pin_list[type]; in
    traditional mode they hold the two vertex handles themselves. *)
Inductive piter :=
| PHyper (t loc fin : nat)
| PTrad (loc fin : nat).
(** Ngraph::pins, agiEdge.cpp:126-136 *)
Definition pins_begin (g : graph) (h : nat) : option piter :=
  '(t, id) <- edec (ntypes g) h ;; ed <- gtype g t ;;
  if hyper g then
    a <- aget (e_pdeg ed) id ;; b <- aget (e_pdeg ed) (id + 1) ;; Some (PHyper t a b)
  else
    u <- u_of g h ;; x <- aget (e_list ed) id ;; Some (PTrad u (x + 1)).
(** Ngraph::iterate(PinIterator*& ), agiIterate.cpp:73-90 *)
Definition pit_step (g : graph) (it : piter) : option (nat * piter) :=
  match it with
  | PHyper t loc fin =>
      if loc =? fin then Some (0, it)
      else ed <- gtype g t ;; x <- aget (e_pins ed) loc ;; Some (x + 1, PHyper t (loc + 1) fin)
  | PTrad loc fin =>
      let fin' := if loc =? fin then 0 else fin in
      Some (loc, PTrad fin' fin')
  end.

(** GraphIterator, Iterators/GraphIterator.h:13-29; Ngraph::adjacent, agiVertex.cpp:153-158 *)
Record giter := mkGiter { gi_count : nat; gi_eit : eiter; gi_pit : option piter; gi_edge : nat }.
Definition adj_begin (g : graph) (h t : nat) : option giter :=
  it <- eit_vertex g h t ;; Some (mkGiter 0 it None 0).
(** Ngraph::iterate(GraphIterator*& ), agiIterate.cpp:91-110 *)
Definition adj_step (g : graph) (it : giter) : option (nat * giter) :=
  if hyper g then
    d <- edegree g (gi_edge it) ;;
    if d <=? gi_count it then
      '(e, eit') <- eit_step g (gi_eit it) ;;
      if e =? 0 then Some (0, mkGiter (gi_count it) eit' None (gi_edge it))
      else
        p <- pins_begin g e ;;
        '(x, p') <- pit_step g p ;;
        Some (x, mkGiter 1 eit' (Some p') e)
    else
      p <- gi_pit it ;;
      '(x, p') <- pit_step g p ;;
      Some (x, mkGiter (gi_count it + 1) (gi_eit it) (Some p') (gi_edge it))
  else
    '(e, eit') <- eit_step g (gi_eit it) ;;
    x <- v_of g e ;;
    Some (x, mkGiter (gi_count it) eit' (gi_pit it) e).

(** Draining an iterator as in  while ((x = iterate(itr))) ... *)
Definition all_verts (g : graph) (fuel : nat) := drain (vit_step g) fuel vit_begin.
Definition all_ghosts (g : graph) (fuel : nat) := drain (git_step g) fuel (git_begin g).
Definition all_edges (g : graph) (t fuel : nat) := it <- eit_begin g t ;; drain (eit_step g) fuel it.
Definition vertex_edges (g : graph) (h t fuel : nat) := it <- eit_vertex g h t ;; drain (eit_step g) fuel it.
Definition edge_pins (g : graph) (h fuel : nat) := it <- pins_begin g h ;; drain (pit_step g) fuel it.
Definition adjacent (g : graph) (h t fuel : nat) := it <- adj_begin g h t ;; drain (adj_step g) fuel it.

(** the for (i<deg) vtx=iterate(pitr) loops of getResidence/isResidentOn: exactly n calls, NULLs included *)
Fixpoint iter_n {S} (step : S -> option (nat * S)) (n : nat) (s : S) : option (list nat) :=
  match n with
  | 0 => Some []
  | S k => '(h, s') <- step s ;; r <- iter_n step k s' ;; Some (h :: r)
  end.

(** Ngraph::getResidence, agiEdge.cpp:16-26: the owners of the pins, as a list (the C++ set is its set of elements) *)
Definition getResidence (g : graph) (h : nat) : option (list Z) :=
  it <- pins_begin g h ;; d <- edegree g h ;;
  vs <- iter_n (pit_step g) d it ;; mapM (owner g) vs.

(** Ngraph::isResidentOn, agiEdge.cpp:27-40 *)
Fixpoint resident_loop (g : graph) (peer : Z) (n : nat) (it : piter) : option bool :=
  match n with
  | 0 => Some false
  | S k => '(h, it') <- pit_step g it ;; o <- owner g h ;;
           if Z.eqb o peer then Some true else resident_loop g peer k it'
  end.
Definition isResidentOn (g : graph) (h : nat) (peer : Z) : option bool :=
  it <- pins_begin g h ;; d <- edegree g h ;; resident_loop g peer d it.

(** Ngraph::isCut, agiEdge.cpp:41-54; part = -1 encodes "no owner seen yet" *)
Fixpoint cut_loop (g : graph) (fuel : nat) (part : Z) (it : piter) : option bool :=
  match fuel with
  | 0 => None
  | S f =>
      '(h, it') <- pit_step g it ;;
      if h =? 0 then Some false
      else o <- owner g h ;;
           if Z.eqb part (-1) then cut_loop g f o it'
           else if Z.eqb part o then cut_loop g f part it' else Some true
  end.
Definition isCut (g : graph) (h fuel : nat) : option bool :=
  it <- pins_begin g h ;; cut_loop g fuel (-1)%Z it.

(** Ngraph::setEdgeWeights(wgt,t), agiEdge.cpp:138-142 *)
Definition setEdgeWeights_const (g : graph) (w : Z) (t : nat) : option graph :=
  ed <- gtype g t ;;
  ws <- foldM (fun a i => aset a i w) (seq 0 (e_num ed)) (e_wgts ed) ;;
  Some (mkGraph (hyper g) (nlv g) (ngv g) (lunmap g) (lwgts g) (gunmap g) (vmap g)
     (upd (types g) t (mkEtd (e_num ed) (e_npins ed) (e_map ed) (e_unmap ed) ws (e_deg ed) (e_list ed) (e_pdeg ed) (e_pins ed)))
     (owners g) (self g)).

(** edge_weights[t] != NULL: the arrays of a type are allocated together by constructEdges (agiConstruct.cpp:158-163, 250) and
    reset to NULL together by removeEdges (478-505); degree_list[t] always has at least one cell when allocated. *)
Definition allocated (ed : etd) : bool := negb (length (e_deg ed) =? 0).
(** Ngraph::setEdgeWeights(vector,t), agiEdge.cpp:143-154: assert(!edge_weights[t]), then fill. *)
Definition setEdgeWeights_vec (g : graph) (ws : list Z) (t : nat) : option graph :=
  ed <- gtype g t ;;
  if allocated ed then None
  else
    w <- (match ws with
          | [] => Some (ainit (repeat 1%Z (e_num ed)))
          | _ => if length ws =? e_num ed then Some (ainit ws) else None
          end) ;;
    Some (mkGraph (hyper g) (nlv g) (ngv g) (lunmap g) (lwgts g) (gunmap g) (vmap g)
     (upd (types g) t (mkEtd (e_num ed) (e_npins ed) (e_map ed) (e_unmap ed) w (e_deg ed) (e_list ed) (e_pdeg ed) (e_pins ed)))
     (owners g) (self g)).

(** Ngraph::changeOwners, agiVertex.cpp:164-167 *)
Definition changeOwners (g : graph) (newRanks : list Z) : option graph :=
  ow <- foldM (fun a i => o <- aget a i ;;
                 (if (o <? 0)%Z then None else r <- nth_error newRanks (Z.to_nat o) ;; aset a i r))
       (seq 0 (ngv g)) (owners g) ;;
  Some (mkGraph (hyper g) (nlv g) (ngv g) (lunmap g) (lwgts g) (gunmap g) (vmap g) (types g) ow (self g)).

(** The locally owned share of edges and pins computed in constructGhosts for a hypergraph, agiConstruct.cpp:388-407
    (array form 442-461): an edge is given up when some residence part is below this part. *)
Definition owned_counts (g : graph) (t fuel : nat) : option (Z * Z) :=
  ed <- gtype g t ;;
  es <- all_edges g t fuel ;;
  foldM (fun '(ne, np) e =>
      res <- getResidence g e ;;
      if existsb (fun p => Z.ltb p (self g)) res
      then d <- edegree g e ;; Some ((ne - 1)%Z, (np - Z.of_nat d)%Z)
      else Some (ne, np)) es (Z.of_nat (e_num ed), Z.of_nat (e_npins ed)).
(** num_global_edges / num_global_pins: PCU_Add_Long over all parts, agiConstruct.cpp:408-409 *)
Definition global_counts (gs : list graph) (t fuel : nat) : option (Z * Z) :=
  l <- mapM (fun g => owned_counts g t fuel) gs ;;
  Some (zsum (map fst l), zsum (map snd l)).
