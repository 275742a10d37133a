(** Specification vocabulary for the N-graph properties.  Nothing here refers to the arrays of the model.
    A graph is described by what the user passes in: the vertex ids, their weights, and for each edge type a list
    of (edge id, pin ids) with weights. *)
From Verif Require Export Base GraphModel.

Definition edge_input := (Z * list Z)%type.           (* (global id, global ids of the pins) *)
Definition type_input := (list edge_input * list Z)%type.  (* edges, weights ([] = none given) *)

Definition pins_of (es : list edge_input) : list (list Z) := map snd es.

(** The sequence of API calls: constructVerts, then constructEdges once per type. *)
Definition call_constructEdges (g : graph) (ty : type_input) : option graph :=
  '(g', _) <- constructEdges g (map fst (fst ty)) (map (@length Z) (pins_of (fst ty)))
                (concat (pins_of (fst ty))) (snd ty) ;; Some g'.
Definition build_graph (me : Z) (hg : bool) (verts vws : list Z) (tys : list type_input) : option graph :=
  g <- constructVerts me hg verts vws ;; foldM call_constructEdges tys g.

(** What the documentation asks of the caller: distinct vertex ids, one weight per edge (or none), two pins per edge
    in a traditional graph, at most seven edge types. *)
Definition valid_input (hg : bool) (verts vws : list Z) (tys : list type_input) : Prop :=
  NoDup verts /\ length vws <= length verts /\ length tys <= 7 /\
  forall es ws, In (es, ws) tys ->
    (ws = [] \/ length ws = length es) /\
    (hg = false -> forall e, In e es -> length (snd e) = 2).

(** Edge numbers incident to [v], each as often as [v] is a pin of it, in increasing order. *)
Definition incident (v : Z) (es : list edge_input) : list nat :=
  flat_map (fun p => repeat (fst p) (count_occ Z.eq_dec (snd (snd p)) v)) (combine (seq 0 (length es)) es).

(** Destinations of the edges [u;w] with source u = v, in input order. *)
Definition out_dests (v : Z) (es : list edge_input) : list Z :=
  flat_map (fun e => match snd e with u :: w :: _ => if Z.eqb u v then [w] else [] | _ => [] end) es.

(** every edge of a traditional graph starts at a vertex of this part *)
Definition local_sources (verts : list Z) (es : list edge_input) : Prop :=
  forall e u w, In e es -> snd e = [u; w] -> In u verts.

(** the ids mentioned in pins that are not local, in order of first appearance over all types *)
Fixpoint first_occ (seen l : list Z) : list Z :=
  match l with
  | [] => []
  | v :: r => if existsb (Z.eqb v) seen then first_occ seen r else v :: first_occ (v :: seen) r
  end.
Definition all_pins (tys : list type_input) : list Z := flat_map (fun ty => concat (pins_of (fst ty))) tys.
Definition ghosts_of (verts : list Z) (tys : list type_input) : list Z := first_occ verts (all_pins tys).

(** The complete construction protocol: vertices, edge types, then the owners of the ghosts. *)
Definition build_part (me : Z) (hg : bool) (verts vws : list Z) (tys : list type_input) (owns : zmap Z) : option graph :=
  g <- build_graph me hg verts vws tys ;; constructGhosts_owners g owns.

(** [g] is a graph obtained by the construction calls on valid input, with or without the final constructGhosts. *)
Definition constructed (me : Z) (hg : bool) (verts vws : list Z) (tys : list type_input) (g : graph) : Prop :=
  valid_input hg verts vws tys /\
  (build_graph me hg verts vws tys = Some g \/ exists owns, build_part me hg verts vws tys owns = Some g).

(** The part a vertex belongs to, according to the caller. *)
Definition part_of (me : Z) (verts : list Z) (owns : zmap Z) (v : Z) : Z :=
  if in_dec Z.eq_dec v verts then me else match zfind owns v with Some p => p | None => 0%Z end.

(** Global ids of the two ends of the i-th stored edge of a traditional graph, as the API reports them. *)
Definition edge_ends (g : graph) (t i : nat) : option (Z * Z) :=
  let h := getEdge (ntypes g) i t in
  u <- u_of g h ;; v <- v_of g h ;; a <- vgid g u ;; b <- vgid g v ;; Some (a, b).
