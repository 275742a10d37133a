(** Values of doubles as real numbers, for the theorems on floating-point weights. *)
From Coq Require Import Reals.
From Flocq Require Import Core BinarySingleNaN.
From Verif Require Import Base GraphModel Comm TagModel.
From Verif Require Import FloatModel.
Local Open Scope R_scope.

(** the value of a double, and whether it is one *)
Definition value (x : b64) : R := B2R x.
Definition fin (x : b64) : bool := is_finite x.
(** the unit roundoff 2^-53 *)
Definition u : R := / IZR (2 ^ 53).
Definition rsum (l : list R) : R := fold_right Rplus 0 l.

(** 2^1024: every finite double is below it *)
Definition top : R := bpow radix2 1024.
(** the values of a list of doubles, the sum of a list of integers *)
Definition vals (l : list b64) : list R := map value l.
Definition zsum (l : list Z) : Z := fold_right Z.add 0%Z l.
(** [x] is the whole number [n] *)
Definition whole (x : b64) (n : Z) : Prop := fin x = true /\ value x = IZR n.
(** finite and not negative *)
Definition ok (x : b64) : Prop := fin x = true /\ 0 <= value x.
(** what is granted in dimension [i] *)
Definition granted (acc : list (Z * list b64)) (i : nat) : R := rsum (map (fun m => match nth_error (snd m) i with Some x => value x | None => 0 end) acc).
(** a sublist: the order and the multiplicities are those of the plan *)
Inductive sub {A} : list A -> list A -> Prop := sub_nil : sub [] [] | sub_skip x a b : sub a b -> sub a (x :: b) | sub_take x a b : sub a b -> sub (x :: a) (x :: b).
(** a weight stored in the graph: of a vertex, of an edge or of a ghost *)
Definition stored_weight (g : graph) (gw : option (arr Z)) (x : Z) : Prop :=
  exists h, vweight g h = Some x \/ eweight g h = Some x \/ exists tag, gw = Some tag /\ get_vtag g tag h = Some x.
(** how many weights getWeight adds *)
Definition weight_count (g : graph) (dim : option nat) (countGhosts : bool) (fuel : nat) : option nat :=
  match dim with
  | None => vs <- all_verts g fuel ;; if countGhosts then gs <- all_ghosts g fuel ;; Some (length vs + length gs)%nat else Some (length vs)
  | Some t => es <- all_edges g t fuel ;; Some (length es)
  end.

