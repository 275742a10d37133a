(** What vertex-cut migration should do (C65), in terms of edges given as pairs of global ids. *)
From Verif Require Import Base GraphModel GraphSpec VcutModel.

(** one process before the call: its edges by local number, the part chosen for each, and the number of vertices it believes the whole graph has *)
Record cut_in := mkCI { ci_arcs : list (Z * Z); ci_map : list (nat * Z); ci_N : nat }.
(** process r holds a graph without ghosts with these edges *)
Definition holds (r : nat) (i : cut_in) (s : bpart) : Prop :=
  self (b_g s) = Z.of_nat r /\ hyper (b_g s) = false /\ ngv (b_g s) = 0 /\ gunmap (b_g s) = [] /\ b_N s = ci_N i /\ b_map s = ci_map i /\
  forall k a, nth_error (ci_arcs i) k = Some a -> edge_ends (b_g s) 0 k = Some a.
(** the edges that process i gives to part q, and all edges given to part q *)
Definition moved (q : nat) (i : cut_in) : list (Z * Z) :=
  flat_map (fun e => if Z.eqb (snd e) (Z.of_nat q) then match nth_error (ci_arcs i) (fst e) with Some a => [a] | None => [] end else []) (ci_map i).
Definition assigned (q : nat) (ins : list cut_in) : list (Z * Z) := flat_map (moved q) ins.
(** the call is sensible: the map names edges and parts that exist, and the ids are below the number of vertices *)
Definition cut_ok (ins : list cut_in) : Prop :=
  forall i, In i ins -> (forall e, In e (ci_map i) -> fst e < length (ci_arcs i) /\ (0 <= snd e < Z.of_nat (length ins))%Z) /\
    (forall a, In a (ci_arcs i) -> (0 <= fst a < Z.of_nat (nsum (map ci_N ins)) /\ 0 <= snd a < Z.of_nat (nsum (map ci_N ins)))%Z).
(** v is an end of an edge of A *)
Definition touches (A : list (Z * Z)) (v : Z) : Prop := exists a, In a A /\ (fst a = v \/ snd a = v).

(** part q after the call: it has exactly the edges given to it, the vertices at their ends with weight 1, the right neighbours, and for each vertex one
    copy for each other part that has the vertex too, owned by that part *)
Definition cut_part (ins : list cut_in) (q : nat) (s : vcut) : Prop :=
  let g := vc_g s in
  exists A, Permutation A (assigned q ins) /\ self g = Z.of_nat q /\ num_edges g 0 = Some (length A) /\
    (exists V, lunmap g = ainit V /\ NoDup V /\ nlv g = length V /\ forall v, In v V <-> touches A v) /\
    forall v, touches A v -> exists h, findGID g v = Some h /\ vgid g h = Some v /\ owner g h = Some (Z.of_nat q) /\ vweight g h = Some 1%Z /\
      (forall fuel, length A < fuel -> exists hs, adjacent g h 0 fuel = Some hs /\
         mapM (vgid g) hs = Some (map snd (filter (fun a => Z.eqb (fst a) v) A)) /\ forall x, In x hs -> owner g x = Some (Z.of_nat q)) /\
      exists cs ps, split_ends s h = Some cs /\ mapM (vgid g) cs = Some (map (fun _ => v) cs) /\ mapM (owner g) cs = Some ps /\ NoDup ps /\
        forall p, In p ps <-> exists r, p = Z.of_nat r /\ r < length ins /\ r <> q /\ touches (assigned r ins) v.
