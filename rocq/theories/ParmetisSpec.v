(** Specification for C48: the weighted distributed graph ParMETIS should be given. *)
From Verif Require Import Base GraphModel GraphSpec CsrProofs GraphTop2 ParmetisModel.

(** weights as the caller gave them: 1 where none was given *)
Definition full_vws (verts vws : list Z) : list Z := vws ++ repeat 1%Z (length verts - length vws).
Definition full_ews (es : list edge_input) (ws : list Z) : list Z := match ws with [] => repeat 1%Z (length es) | _ => ws end.

(** [parts] is a distribution over its ranks of the hypergraph whose type-[t] edges, with their weights, are [WH]:
    every pin is owned by one part which has it as a vertex, rank r has exactly the edges with a pin it owns, and the
    right owners for the other pins *)
Definition distributed (own : Z -> nat) (WH : list (edge_input * Z)) (t : nat) (parts : list part_input) : Prop :=
  (forall e x v, In (e, x) WH -> In v (snd e) -> exists p, nth_error parts (own v) = Some p /\ In v (pi_verts p)) /\
  forall r p, nth_error parts r = Some p ->
    valid_input true (pi_verts p) (pi_vws p) (pi_tys p) /\
    (forall v, In v (pi_verts p) -> own v = r) /\
    exists es ws, nth_error (pi_tys p) t = Some (es, ws) /\
      Permutation (combine es (full_ews es ws)) (filter (fun ex => existsb (fun v => Nat.eqb (own v) r) (snd (fst ex))) WH) /\
      (forall e v, In e es -> In v (snd e) -> own v <> r -> zfind (pi_owns p) v = Some (Z.of_nat (own v))).

(** enough fuel for the loops *)
Definition enough (p : part_input) (fuel : nat) : Prop :=
  length (pi_verts p) < fuel /\ S (length (all_pins (pi_tys p))) * S (length (all_pins (pi_tys p))) < fuel.

(** the new number of a vertex: its position among the vertices of all parts, part after part *)
Definition all_vertices (parts : list part_input) : list Z := concat (map pi_verts parts).
Definition number (parts : list part_input) (v : Z) : Z := Z.of_nat (idx (all_vertices parts) v).
(** the first number of each part, and the total *)
Definition first_numbers (parts : list part_input) : list Z :=
  map (fun r => Z.of_nat (length (concat (map pi_verts (firstn r parts))))) (seq 0 (length parts + 1)).

(** two vertices are linked when an edge has both as pins; the weight of the link sums the weights of those edges, as
    often as the pair occurs (once per edge when the pins of an edge are distinct) *)
Definition linked (WH : list (edge_input * Z)) (v w : Z) : Prop :=
  v <> w /\ exists e x, In (e, x) WH /\ In v (snd e) /\ In w (snd e).
Definition link_weight (WH : list (edge_input * Z)) (v w : Z) : Z :=
  zsum (map (fun ex => (Z.of_nat (count_occ Z.eq_dec (snd (fst ex)) v) * (Z.of_nat (count_occ Z.eq_dec (snd (fst ex)) w) * snd ex))%Z) WH).

(** the arrays hold these rows, one after the other, each a list of (neighbour, weight) *)
Definition row_starts (rows : list (list (Z * Z))) : list Z := map (fun k => Z.of_nat (length (concat (firstn k rows)))) (seq 0 (length rows + 1)).
Definition is_csr (rows : list (list (Z * Z))) (c : csr) : Prop :=
  c_xadj c = ainit (row_starts rows) /\ c_adjncy c = ainit (map fst (concat rows)) /\ c_ewgts c = ainit (map snd (concat rows)).
(** the right row for v *)
Definition right_row (nm : Z -> Z) (lk : Z -> Z -> Prop) (lw : Z -> Z -> Z) (v : Z) (row : list (Z * Z)) : Prop :=
  exists l, NoDup l /\ (forall w, In w l <-> lk v w) /\ row = map (fun w => (nm w, lw v w)) l.

(** the matrix described by the arrays of all parts: an entry (a, b, x) *)
Definition entry (dist : list Z) (csrs : list csr) (a b x : Z) : Prop :=
  exists r c d i j lo hi, nth_error csrs r = Some c /\ nth_error dist r = Some d /\ a = (d + Z.of_nat i)%Z /\
    aget (c_xadj c) i = Some lo /\ aget (c_xadj c) (i + 1) = Some hi /\ (lo <= Z.of_nat j < hi)%Z /\
    aget (c_adjncy c) j = Some b /\ aget (c_ewgts c) j = Some x.

(** every part of the communicator starts with its graph and its own rank *)
Definition starting (gs : list graph) : list pmpart := map (fun rg => mkPM (snd rg) (Z.of_nat (fst rg))) (combine (seq 0 (length gs)) gs).
