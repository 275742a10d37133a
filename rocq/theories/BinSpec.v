(** Specification for C49 and C50: a file of directed edges and the owners of its vertices. *)
From Verif Require Import Base GraphModel GraphSpec CsrProofs.

Definition endpoints (es : list (nat * nat)) : list nat := flat_map (fun e => [fst e; snd e]) es.
(** the vertices are 0 .. num_ids-1 *)
Definition num_ids (file : list (nat * nat)) : nat := S (list_max (endpoints file)).

(** the process that owns a vertex: blocks of num_ids/P+1 ids without a partition file, else the number on its line *)
Definition home (file : list (nat * nat)) (P : nat) (part : option (list Z)) (v : nat) : option nat :=
  match part with
  | None => Some (v / (num_ids file / P + 1))
  | Some lines => match nth_error lines v with Some z => if (z <? 0)%Z then None else Some (Z.to_nat z) | None => None end
  end.
Definition own file P part v : nat := match home file P part v with Some p => p | None => P end.
(** every vertex has an owner among the processes *)
Definition well_owned file P part : Prop :=
  0 < P /\ forall v, v < num_ids file -> exists p, home file P part v = Some p /\ p < P.

(** the edges whose source process [r] owns, in file order *)
Definition own_edges file P part r := filter (fun e : nat * nat => own file P part (fst e) =? r) file.
(** the vertices of process [r] that its edges mention, in the order of first appearance *)
Definition met file P part r : list Z :=
  first_occ [] (map Z.of_nat (filter (fun v => own file P part v =? r) (endpoints (own_edges file P part r)))).
(** destinations of the edges leaving [v], in file order *)
Definition dests (file : list (nat * nat)) (v : nat) : list nat := map snd (filter (fun e => fst e =? v) file).

(** The vertex process [r] reports for the destination [d]: [d] itself, except when [d] is its own and the position k of
    [d] in [met] is not one of the ids in [met]; then vertex k. *)
Definition shown file P part r (d : nat) : nat :=
  if own file P part d =? r then
    let k := idx (met file P part r) (Z.of_nat d) in
    if existsb (Z.eqb (Z.of_nat k)) (met file P part r) then d else k
  else d.
