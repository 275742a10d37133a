(** Weight diffusion: what is claimed of it (C58). *)
From Verif Require Import Base GraphModel GraphSpec Comm TagModel TagProps MetricsModel MetricsProps SdModel MigrateModel MigrateSpec WeightMigModel WeightMigProps WBalModel.
Local Open Scope nat_scope.

(** the weight given for the vertex at position l of a part, and the weight of the part *)
Definition given (p : part_in) (l : nat) : Z := nth l (vertex_weights (in_verts p) (in_vws p)) 0%Z.
Definition part_total (p : part_in) : Z := zsum (vertex_weights (in_verts p) (in_vws p)).
Definition all_total (ps : list part_in) : Z := sumf part_total ps.
(** the same part with other vertex weights *)
Definition reweigh (p : part_in) (ws : list Z) : part_in := mkPartIn (in_verts p) ws (in_tys p) (in_owns p).

(** A hypergraph distributed over the parts: every vertex on one part, ghosts attributed to the part that has them, every edge on exactly
    the parts that have one of its pins.  Vertex weights are not negative, edges of the type used for the sides weigh at least one. *)
Record diffusible (val : Z -> Q) (fuel t : nat) (ps : list part_in) : Prop := mkDf {
  df_own : owners_correct ps;
  df_once : NoDup (flat_map in_verts ps);
  df_valid : forall p, In p ps -> valid_input true (in_verts p) (in_vws p) (in_tys p);
  df_weights : forall p z, In p ps -> In z (in_vws p) -> (0 <= z)%Z;
  df_types : forall p, In p ps -> 0 < length (in_tys p) /\ t < length (in_tys p);
  df_edges : forall p k ty e, In p ps -> nth_error (in_tys p) k = Some ty -> In e (fst ty) ->
    (exists v, In v (snd e) /\ In v (in_verts p)) /\
    forall p' u, In p' ps -> In u (snd e) -> In u (in_verts p') -> exists ty' e', nth_error (in_tys p') k = Some ty' /\ In e' (fst ty') /\ forall v, In v (snd e') <-> In v (snd e);
  df_side : forall p ty e, In p ps -> nth_error (in_tys p) t = Some ty -> In e (erecs ty) -> (1 <= val (snd e))%Q;
  df_fuel : forall p, In p ps -> length (in_verts p) < fuel /\
    forall ty, In ty (in_tys p) -> length (fst ty) < fuel /\ 10 * nsum (map (fun e => length (snd e)) (fst ty)) < fuel }.
(** part r of the world was made by the construction calls from description r *)
Definition placed (ps : list part_in) (w : wworld) : Prop :=
  length w = length ps /\ forall r p s, nth_error ps r = Some p -> nth_error w r = Some s ->
    build_part (Z.of_nat r) true (in_verts p) (in_vws p) (in_tys p) (in_owns p) = Some (fst s).
(** the same parts, possibly with other vertex weights *)
Definition same_but_weights (ps ps' : list part_in) : Prop :=
  length ps' = length ps /\ forall r p p', nth_error ps r = Some p -> nth_error ps' r = Some p' -> exists ws, p' = reweigh p ws /\ length ws = length (in_verts p).

(** a list of transfers (from, to, amount): what goes from the vertices selected by A to those selected by B *)
Definition transfer := (Z * Z * Z)%type.
Definition carried (ts : list transfer) (A B : Z -> bool) : Z := sumf (fun t => if A (fst (fst t)) && B (snd (fst t)) then snd t else 0%Z) ts.
Definition any (_ : Z) : bool := true.
(** The transfers [ts] are what one step may do to the parts [ps], and [ps'] is the outcome: every transfer goes from a vertex of a part to a vertex of a
    lighter part; no vertex gives more than it has; between two parts at most step_factor times the difference of their weights is sent;
    sources lose what they send and everything a part receives goes to its last vertex. *)
Definition diffused (D : positive) (step : Q) (ps ps' : list part_in) (ts : list transfer) : Prop :=
  (forall a b x, In (a, b, x) ts -> (0 <= x)%Z /\ (exists k, x = (k * Zpos D)%Z) /\ exists p q, In p ps /\ In q ps /\ In a (in_verts p) /\ In b (in_verts q) /\ (part_total q < part_total p)%Z) /\
  (forall p l v, In p ps -> nth_error (in_verts p) l = Some v -> (carried ts (Z.eqb v) any <= given p l)%Z) /\
  (forall p q, In p ps -> In q ps -> (0 < carried ts (is_in (in_verts p)) (is_in (in_verts q)))%Z ->
     (units D (carried ts (is_in (in_verts p)) (is_in (in_verts q))) <= step * (units D (part_total p) - units D (part_total q)))%Q) /\
  (forall r p p' l v, nth_error ps r = Some p -> nth_error ps' r = Some p' -> nth_error (in_verts p) l = Some v ->
     given p' l = (given p l - carried ts (Z.eqb v) any + if Nat.eqb (S l) (length (in_verts p)) then carried ts any (is_in (in_verts p)) else 0)%Z).
(** the records of the flow: what part r knows about (a, b) grows by what went from a to b minus what went from b to a *)
Definition flow_follows (ps : list part_in) (ts : list transfer) (w w' : wworld) : Prop :=
  forall r p s s' a b, nth_error ps r = Some p -> nth_error w r = Some s -> nth_error w' r = Some s' -> In a (in_verts p) ->
    fl_get (snd s') a b = (fl_get (snd s) a b + carried ts (Z.eqb a) (Z.eqb b) - carried ts (Z.eqb b) (Z.eqb a))%Z.
