(** Specification vocabulary for writeVTK: what a viewer reads from the files. *)
From Verif Require Import Base GraphModel GraphSpec MetricsProofs VtkModel.
From Coq Require Import QArith.
Local Open Scope nat_scope.

(** the vertex belongs to the part *)
Definition here (verts : list Z) (v : Z) : bool := if in_dec Z.eq_dec v verts then true else false.
(** the incidences of the edges of a part with its own vertices: (position of the edge, vertex) *)
Definition local_incidences (verts : list Z) (es : list edge_input) : list (nat * Z) :=
  flat_map (fun x => map (pair (fst x)) (filter (here verts) (snd (snd x)))) (combine (seq 0 (length es)) es).
(** points with equal coordinates *)
Definition same_point (p q : point) : Prop :=
  match p, q with Pt x y z, Pt x' y' z' => (x == x' /\ y == y' /\ z == z')%Q | NaN, NaN => True | _, _ => False end.
(** the point with the coordinates c, and the mean of several coordinates (not a number for none) *)
Definition point_at (xyz : Z -> Q * Q * Q) (c : Z) : point := let '(x, y, z) := xyz c in Pt x y z.
Definition mean (xyz : Z -> Q * Q * Q) (cs : list Z) : point :=
  match cs with
  | [] => NaN
  | _ => let n := inject_Z (Z.of_nat (length cs)) in
         Pt (qsum (map (fun c => fst (fst (xyz c))) cs) / n) (qsum (map (fun c => snd (fst (xyz c))) cs) / n) (qsum (map (fun c => snd (xyz c)) cs) / n)
  end.
(** the tag has a value for every vertex (every edge) of the part when it is to be shown *)
Definition tag_filled (hg : bool) (nv ne : nat) (tag : option (arr Z)) (t : etype) : Prop :=
  match tag, t with
  | Some a, VtxType => length a = nv /\ forall k, k < nv -> aget a k <> None
  | Some a, EdgeType 0 => hg = true -> length a = ne /\ forall k, k < ne -> aget a k <> None
  | _, _ => True
  end.
(** the values shown for a tag: its own at the vertices (or edges) it belongs to, -1 at the other points; None: no array *)
Definition shown_tag (hg : bool) (nv ne : nat) (tag : option (arr Z)) (t : etype) : option (list (option Z)) :=
  match tag, t with
  | Some a, VtxType => Some (a ++ repeat (Some (-1)%Z) (if hg then ne else 0))
  | Some a, EdgeType k => if hg then Some (repeat (Some (-1)%Z) nv ++ match k with 0 => a | S _ => repeat (Some (-1)%Z) ne end) else None
  | _, _ => None
  end.
(** the arrays of a piece with nv vertices and ne edges: the part of every point, for hypergraphs 0 at vertices and 1 at edges, and the tag *)
Definition data_right (me : Z) (hg : bool) (nv ne : nat) (tag : option (arr Z)) (t : etype) (d : list (aname * list Z)) : Prop :=
  let n := if hg then ne else 0 in
  exists tg, d = (APart, repeat me (nv + n)) :: (if hg then [(AVorE, repeat 0%Z nv ++ repeat 1%Z n)] else []) ++ tg /\
    match shown_tag hg nv ne tag t with None => tg = [] | Some vals => exists l, tg = [(ATag, l)] /\ map Some l = vals end.

(** the lines of a file: consecutive pairs of the connectivity, closed by the offsets 2, 4, ..., all of type 3 (VTK_LINE) *)
Definition lines_of (f : vtu) (cells : list (nat * nat)) : Prop :=
  f_conn f = flat_map (fun c => [fst c; snd c]) cells /\ f_ncells f = length cells /\
  f_offsets f = map (fun i => 2 * (i + 1)) (seq 0 (length cells)) /\ f_types f = repeat 3 (length cells).
(** The file of a part of a hypergraph: one point per vertex, at its coordinates, then one per edge, at the mean of the coordinates of all its pins;
    one line per incidence of an edge with a vertex of the part, from the point of the edge to the point of the vertex. *)
Definition hyper_file (xyz : Z -> Q * Q * Q) (crd : Z -> Z) (me : Z) (verts : list Z) (es : list edge_input) (tag : option (arr Z)) (t : etype) (f : vtu) : Prop :=
  f_npoints f = length verts + length es /\
  Forall2 same_point (f_points f) (map (fun v => point_at xyz (crd v)) verts ++ map (fun e => mean xyz (map crd (snd e))) es) /\
  (exists cells, lines_of f cells /\ Forall2 (fun c x => fst c = length verts + fst x /\ nth_error verts (snd c) = Some (snd x)) cells (local_incidences verts es)) /\
  data_right me true (length verts) (length es) tag t (f_data f).
(** The file of a part of a traditional graph: one point per vertex; one line per stored arc, between the local numbers of its ends (ghosts are
    numbered after the vertices of the part). *)
Definition trad_file (xyz : Z -> Q * Q * Q) (crd : Z -> Z) (me : Z) (verts ghosts : list Z) (arcs : list (Z * Z)) (tag : option (arr Z)) (t : etype) (f : vtu) : Prop :=
  f_npoints f = length verts /\
  f_points f = map (fun v => point_at xyz (crd v)) verts /\
  (exists cells, lines_of f cells /\ Forall2 (fun c a => nth_error verts (fst c) = Some (fst a) /\ nth_error (verts ++ ghosts) (snd c) = Some (snd a)) cells arcs) /\
  data_right me false (length verts) 0 tag t (f_data f).
(** what an unstructured-grid reader needs: arrays as long as announced, indices of points that exist *)
Definition readable (f : vtu) : Prop :=
  length (f_points f) = f_npoints f /\ length (f_offsets f) = f_ncells f /\ length (f_types f) = f_ncells f /\ length (f_conn f) = 2 * f_ncells f /\
  (forall i, In i (f_conn f) -> i < f_npoints f) /\ forall a, In a (f_data f) -> length (snd a) = f_npoints f.
