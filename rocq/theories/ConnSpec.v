(** What "connected components of the part" means, in terms of what the user passed in. *)
From Coq Require Export Relations.
From Verif Require Export GraphSpec.

(** two vertices of this part that are pins of a common edge *)
Definition joined (verts : list Z) (es : list edge_input) (a b : Z) : Prop :=
  In a verts /\ In b verts /\ exists e, In e es /\ In a (snd e) /\ In b (snd e).
(** ... and connected: by a chain of such edges *)
Definition linked (verts : list Z) (es : list edge_input) : Z -> Z -> Prop := clos_refl_sym_trans Z (joined verts es).
(** the vertices fall into k classes of the relation: k representatives, pairwise unrelated, that reach everything *)
Definition classes (vs : list Z) (R : Z -> Z -> Prop) (k : nat) : Prop :=
  exists reps, length reps = k /\ incl reps vs /\ (forall v, In v vs -> exists r, In r reps /\ R r v) /\
    forall i j r r', nth_error reps i = Some r -> nth_error reps j = Some r' -> R r r' -> i = j.
