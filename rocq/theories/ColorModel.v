(** Colouring with Kokkos: partition/Coloring/engpar_kokkosColoring.cpp.
    Simplifications: lid_t and int are unbounded.  A parallel loop is a set of threads whose atomic actions happen in any order.
    Kokkos::UnorderedMap<pair,void> is a set of pairs whose insertions are atomic and succeed (its requested capacity is [numAdj], see the
    theorem C59_capacity) and whose slots hold the keys in any order; parallel_scan computes inclusive prefix sums; views are created
    zero-initialised; KokkosGraph::graph_color is represented by what it promises ([colored]).  [None]/[False] is undefined behaviour. *)
From Verif Require Import Base GraphModel SecondAdjModel.

(** hostToDevice, engpar_kokkosColoring.cpp:10-15: as many entries are read as the view has *)
Definition toDevice (n : nat) (h : arr nat) : option (list nat) := mapM (aget h) (seq 0 n).
(** the pairs met by the double loop of vertex v, engpar_kokkosColoring.cpp:42-47, 53-59 *)
Definition row_pairs (deg el : list nat) (v : nat) : option (list (nat * nat)) :=
  lo <- nth_error deg v ;; hi <- nth_error deg (v + 1) ;; es <- mapM (nth_error el) (seq lo (hi - lo)) ;;
  Some (flat_map (fun a => map (fun b => (a, b)) (filter (fun b => negb (a =? b)) es)) es).
(** the set of pairs, engpar_kokkosColoring.cpp:51 *)
Definition pmem (m : list (nat * nat)) (k : nat * nat) : bool := existsb (fun x => (fst x =? fst k) && (snd x =? snd k)) m.
Definition inserted (ops : list (nat * nat)) : list (nat * nat) := fold_left (fun m k => if pmem m k then m else m ++ [k]) ops [].
(** atomic_fetch_add( &l(i), 1), engpar_kokkosColoring.cpp:67, 85 *)
Definition bump (l : list nat) (i : nat) : option (list nat) := x <- nth_error l i ;; Some (upd l i (x + 1)).
(** the parallel_scan over deg(1..N), engpar_kokkosColoring.cpp:70-75 *)
Fixpoint sums (acc : nat) (l : list nat) : list nat := match l with [] => [] | x :: r => (acc + x) :: sums (acc + x) r end.
Definition scan (l : list nat) : list nat := match l with [] => [] | x :: r => x :: sums 0 r end.
(** the threads of the last loop, engpar_kokkosColoring.cpp:81-88: one per slot, with two actions, the atomic_fetch_add and the store *)
Inductive pc := Start | Fetched (idx : nat) | Finished.
Record fstate := mkF { f_cnt : list nat; f_out : arr nat; f_pc : list pc }.
Definition fill_step (off : list nat) (slots : list (nat * nat)) (s : fstate) (i : nat) : option fstate :=
  match nth_error slots i, nth_error (f_pc s) i with
  | Some (a, b), Some Start => idx <- nth_error (f_cnt s) a ;; c <- bump (f_cnt s) a ;; Some (mkF c (f_out s) (upd (f_pc s) i (Fetched idx)))
  | Some (a, b), Some (Fetched idx) => e <- nth_error off a ;; o <- aset (f_out s) (e + idx) b ;; Some (mkF (f_cnt s) o (upd (f_pc s) i Finished))
  | _, _ => Some s
  end.
Definition fill_init (n tot k : nat) : fstate := mkF (repeat 0 n) (ainit (repeat 0 tot)) (repeat Start k).
(** parallel_create_eve, engpar_kokkosColoring.cpp:26-92.  [ops] is the order of the insertions, [slots] the table, [order] the order of the
    atomic additions, [sch] the schedule of the last loop; [Q] is about the arrays eve_offsets[t] and eve_lists[t] left behind *)
Definition parallel_create_eve (g : graph) (t : nat) (Q : sadj -> Prop) : Prop :=
  hyper g = true /\ exists ed deg el pss, gtype g t = Some ed /\ toDevice (nlv g + 1) (e_deg ed) = Some deg /\ toDevice (e_npins ed) (e_list ed) = Some el /\
  mapM (row_pairs deg el) (seq 0 (nlv g)) = Some pss /\
  forall ops slots order, Permutation ops (concat pss) -> Permutation slots (inserted ops) -> Permutation order slots ->
  exists cnt tot, foldM (fun d k => bump d (fst k + 1)) order (repeat 0 (e_num ed + 1)) = Some cnt /\ nth_error (scan cnt) (e_num ed) = Some tot /\
  forall sch, exists s, foldM (fill_step (scan cnt) slots) sch (fill_init (e_num ed) tot (length slots)) = Some s /\
    (Forall (eq Finished) (f_pc s) -> Q (mkSA (ainit (scan cnt)) (f_out s))).

(** row i of an adjacency in compressed form *)
Definition csr_row (s : sadj) (i : nat) : option (list nat) :=
  lo <- aget (sa_off s) i ;; hi <- aget (sa_off s) (i + 1) ;; if lo <=? hi then mapM (aget (sa_list s)) (seq lo (hi - lo)) else None.
(** what graph_color promises, engpar_kokkosColoring.cpp:141-144: for a symmetric adjacency of n entities, different colours for neighbours;
    entries that are not below n are skipped *)
Definition colored (n : nat) (s : sadj) (c : list nat) : Prop := length c = n /\
  ((forall i j r, i < n -> j < n -> csr_row s i = Some r -> In j r -> exists r', csr_row s j = Some r' /\ In i r') ->
   forall i j r, i < n -> j < n -> i <> j -> csr_row s i = Some r -> In j r -> nth_error c i <> nth_error c j).
(** EnGPar_KokkosColoring, engpar_kokkosColoring.cpp:95-150, for edges and for vertices; [Q] is about the array of colours *)
Definition color_edges (g : graph) (t : nat) (Q : list nat -> Prop) : Prop :=
  exists ed, gtype g t = Some ed /\ parallel_create_eve g t (fun s => forall c, colored (e_num ed) s c -> Q c).
Definition color_verts (g : graph) (tb : satab) (ord : nat -> list nat -> list nat) (t fuel : nat) (Q : list nat -> Prop) : Prop :=
  exists tb' s, create_vev g tb ord t true fuel = Some tb' /\ sa_get tb' t = Some s /\ forall c, colored (nlv g) s c -> Q c.
