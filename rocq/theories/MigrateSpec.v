(** Specification vocabulary for migration: a global hypergraph and its distribution over parts. *)
From Verif Require Import Base GraphModel GraphSpec Comm TagModel TagProps MigrateModel.

(** What the user passed to the construction calls of one part (plus the original owners of its vertices). *)
Record pdesc := mkPD { pd_verts : list Z; pd_vws : list Z; pd_tys : list type_input; pd_owns : zmap Z; pd_oo : list Z }.

(** vertex records (id, (weight, original owner)) and edge records ((id, pins), weight); missing weights are 1 *)
Definition vweights (p : pdesc) : list Z := pd_vws p ++ repeat 1%Z (length (pd_verts p) - length (pd_vws p)).
Definition vrecs (p : pdesc) : list (Z * (Z * Z)) := combine (pd_verts p) (combine (vweights p) (pd_oo p)).
Definition eweights (ty : type_input) : list Z := match snd ty with [] => repeat 1%Z (length (fst ty)) | ws => ws end.
Definition erecs (ty : type_input) : list (edge_input * Z) := combine (fst ty) (eweights ty).

(** the edge has a pin whose home is part r *)
Definition touches (own : Z -> nat) (r : nat) (e : edge_input * Z) : bool := existsb (fun v => Nat.eqb (own v) r) (snd (fst e)).

(** part r holds exactly its share of the global hypergraph (V, T) when vertex v lives on part [own v] *)
Definition holds (own : Z -> nat) (V : list (Z * (Z * Z))) (T : list (list (edge_input * Z))) (r : nat) (p : pdesc) : Prop :=
  valid_input true (pd_verts p) (pd_vws p) (pd_tys p) /\ length (pd_oo p) = length (pd_verts p) /\
  Permutation (vrecs p) (filter (fun v => Nat.eqb (own (fst v)) r) V) /\
  length (pd_tys p) = length T /\
  (forall t ty E, nth_error (pd_tys p) t = Some ty -> nth_error T t = Some E -> Permutation (erecs ty) (filter (touches own r) E)) /\
  (forall v, In v (ghosts_of (pd_verts p) (pd_tys p)) -> zfind (pd_owns p) v = Some (Z.of_nat (own v))).
Definition wf_global (V : list (Z * (Z * Z))) (T : list (list (edge_input * Z))) : Prop :=
  NoDup (map fst V) /\
  forall E, In E T -> NoDup (map (fun e => fst (fst e)) E) /\ forall e v, In e E -> In v (snd (fst e)) -> In v (map fst V).
Definition distributed (own : Z -> nat) (V : list (Z * (Z * Z))) (T : list (list (edge_input * Z))) (ps : list pdesc) : Prop :=
  wf_global V T /\ (forall v, In v (map fst V) -> own v < length ps) /\
  forall r p, nth_error ps r = Some p -> holds own V T r p.

(** the graph object and original owners of part r come from the construction calls with input p *)
Definition built_from (hg : bool) (r : nat) (p : pdesc) (s : graph * arr Z) : Prop :=
  build_part (Z.of_nat r) hg (pd_verts p) (pd_vws p) (pd_tys p) (pd_owns p) = Some (fst s) /\ snd s = ainit (pd_oo p).

(** the plan of part r was made by a sequence of insert and clear calls ([plan_op], [do_op] from TagProps) *)
(** the destination finally planned for local vertex l: the last insertion for l since the last clear *)
Definition planned (calls : list plan_op) (l : nat) : option Z :=
  fold_left (fun acc o => match o with Ins k d => if k =? l then Some d else acc | Clr => None end) calls None.
Definition call_ok (g : graph) (n : nat) (o : plan_op) : Prop :=
  match o with Ins l d => l < nlv g /\ (0 <= d < Z.of_nat n)%Z | Clr => True end.
Definition made_plan (fuel : nat) (g : graph) (calls : list plan_op) (plan : mplan) : Prop :=
  exists p0, plan_new g fuel = Some p0 /\ foldM (do_op g) calls p0 = Some plan.

(** own' is the assignment of homes after the migration described by the plans *)
Definition moved_to (own' : Z -> nat) (ps : list pdesc) (calls : list (list plan_op)) : Prop :=
  forall r p cs l v, nth_error ps r = Some p -> nth_error calls r = Some cs -> nth_error (pd_verts p) l = Some v ->
    match planned cs l with Some d => d = Z.of_nat (own' v) | None => own' v = r end.

(** parts ready to migrate *)
Definition ready (hg : bool) (fuel : nat) (ps : list pdesc) (calls : list (list plan_op)) (sts : list mpart) : Prop :=
  length sts = length ps /\ length calls = length ps /\
  forall r p cs s, nth_error ps r = Some p -> nth_error calls r = Some cs -> nth_error sts r = Some s ->
    built_from hg r p (mp_g s, mp_oo s) /\ made_plan fuel (mp_g s) cs (mp_plan s) /\ (forall o, In o cs -> call_ok (mp_g s) (length ps) o).

(** enough fuel for the iterations on part p: more than the vertices, the edges and the neighbours of any vertex *)
Definition fuel_ok (fuel : nat) (p : pdesc) : Prop :=
  length (pd_verts p) < fuel /\
  forall ty, In ty (pd_tys p) -> length (fst ty) < fuel /\ (forall e, In e (fst ty) -> length (snd e) < fuel) /\
    forall v, length (flat_map (fun i => match nth_error (fst ty) i with Some e => snd e | None => [] end) (incident v (fst ty))) < fuel /\
              length (out_dests v (fst ty)) < fuel.

(** enough fuel for any distribution of the global hypergraph *)
Definition total_pins (E : list (edge_input * Z)) : nat := nsum (map (fun e => length (snd (fst e))) E).
Definition big_enough (fuel : nat) (V : list (Z * (Z * Z))) (T : list (list (edge_input * Z))) : Prop :=
  length V < fuel /\ forall E, In E T -> length E < fuel /\ total_pins E * total_pins E < fuel.

(** A policy chooses, from the graphs it sees, the plan calls of every part; it is sensible when it only plans
    local vertices and existing parts. *)
Definition policy := list (graph * arr Z) -> list (list plan_op).
Definition sensible (n : nat) (pol : policy) : Prop := forall sts, length sts = n ->
  length (pol sts) = n /\ forall r s cs o, nth_error sts r = Some s -> nth_error (pol sts) r = Some cs -> In o cs -> call_ok (fst s) n o.
(** new Migration(g), the plan calls *)
Definition plan_part (fuel : nat) (s : graph * arr Z) (cs : list plan_op) : option mpart :=
  p0 <- plan_new (fst s) fuel ;; p <- foldM (do_op (fst s)) cs p0 ;; Some (mkMP (fst s) (snd s) p).
(** a sequence of migrations, each planned by a policy from the state reached so far; Q holds at the end whatever the arrival orders *)
Fixpoint migrations (fuel : nat) (pols : list policy) (sts : list (graph * arr Z)) (Q : list (graph * arr Z) -> Prop) : Prop :=
  match pols with
  | [] => Q sts
  | pol :: r => exists mps, par2 (fun _ s cs => plan_part fuel s cs) 0 sts (pol sts) = Some mps /\ migrate fuel mps (fun sts' => migrations fuel r sts' Q)
  end.
