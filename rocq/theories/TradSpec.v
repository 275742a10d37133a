(** Specification vocabulary for the migration of a traditional graph (two pins per edge, one edge type). *)
From Verif Require Import Base GraphModel GraphSpec Comm TagModel TagProps MigrateModel MigrateSpec.

(** An arc is a pair (source, destination); the edge call receives it as the two pins. *)
Definition arc := (Z * Z)%type.
Definition pin2 (a : arc) : list Z := [fst a; snd a].

(** A global traditional graph: vertex records (id, (weight, original owner)) and arcs between them, no self loops. *)
Definition twf (V : list (Z * (Z * Z))) (A : list arc) : Prop :=
  NoDup (map fst V) /\ forall a, In a A -> In (fst a) (map fst V) /\ In (snd a) (map fst V) /\ fst a <> snd a.

(** part r holds its share: the vertices whose home is r and every arc that starts at one of them; every edge
    weight is w0 (weights are attached to CSR positions, not to edges: C07) *)
Definition tholds (own : Z -> nat) (V : list (Z * (Z * Z))) (A : list arc) (w0 : Z) (r : nat) (p : pdesc) : Prop :=
  valid_input false (pd_verts p) (pd_vws p) (pd_tys p) /\ length (pd_oo p) = length (pd_verts p) /\
  Permutation (vrecs p) (filter (fun v => Nat.eqb (own (fst v)) r) V) /\
  exists es ws, pd_tys p = [(es, ws)] /\
    Permutation (map snd es) (map pin2 (filter (fun a => Nat.eqb (own (fst a)) r) A)) /\
    Forall (eq w0) (eweights (es, ws)).
(** the recorded owner of every ghost of the part is its home *)
Definition tghosts (own : Z -> nat) (p : pdesc) : Prop :=
  forall v, In v (ghosts_of (pd_verts p) (pd_tys p)) -> zfind (pd_owns p) v = Some (Z.of_nat (own v)).
Definition tshared (own : Z -> nat) (V : list (Z * (Z * Z))) (A : list arc) (w0 : Z) (ps : list pdesc) : Prop :=
  twf V A /\ (forall v, In v (map fst V) -> own v < length ps) /\ forall r p, nth_error ps r = Some p -> tholds own V A w0 r p.
Definition tdistributed own V A w0 (ps : list pdesc) : Prop := tshared own V A w0 ps /\ forall p, In p ps -> tghosts own p.

(** the arcs the code keeps: all except those between two vertices of one part of which only the destination moves *)
Definition survives (own own' : Z -> nat) (a : arc) : bool :=
  negb (Nat.eqb (own (fst a)) (own (snd a)) && Nat.eqb (own' (fst a)) (own (fst a)) && negb (Nat.eqb (own' (snd a)) (own (snd a)))).
Definition surviving (own own' : Z -> nat) (A : list arc) : list arc := filter (survives own own') A.
(** every arc across a part boundary is answered: the part of its source is the home of an out-neighbour of its destination *)
Definition symmetric_cut (own : Z -> nat) (A : list arc) : Prop :=
  forall a, In a A -> own (fst a) <> own (snd a) -> exists x, In (snd a, x) A /\ own x = own (fst a).
Definition tfuel (fuel : nat) (V : list (Z * (Z * Z))) (A : list arc) : Prop := length V < fuel /\ length A + 2 < fuel.
