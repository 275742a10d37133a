(** What the vertices of a plan bring to a part: independent of how the code counts it. *)
From Flocq Require Import Core BinarySingleNaN.
From Verif Require Import Base GraphModel FloatModel.
(** [e] is an edge of type [t] of a vertex planned for part [d] that is not on [d] yet *)
Definition brought (g : graph) (fuel t : nat) (d : Z) (plan : list (nat * Z)) (e : nat) : Prop :=
  exists v es, In (v, d) plan /\ vertex_edges g v t fuel = Some es /\ In e es /\ isResidentOn g e d = Some false.
(** all those edges, each once *)
Definition brought_edges (g : graph) (fuel t : nat) (d : Z) (plan : list (nat * Z)) (S : list nat) : Prop := NoDup S /\ forall e, In e S <-> brought g fuel t d plan e.
(** the weights of the edges, of the vertices planned for [d] *)
Definition edge_weights (fv : Z -> b64) (g : graph) (S : list nat) (ws : list b64) : Prop := Forall2 (fun e w => exists n, eweight g e = Some n /\ w = fv n) S ws.
Definition vertex_weights (fv : Z -> b64) (g : graph) (gw : option (arr Z)) (d : Z) (plan : list (nat * Z)) (ws : list b64) : Prop :=
  Forall2 (fun m w => weight_of_f fv g gw (fst m) = Some w) (filter (fun m => Z.eqb (snd m) d) plan) ws.
(** the vertices are at most one of the dimensions *)
Definition vertices_once (dims : list (option nat)) : Prop := forall i j, nth_error dims i = Some None -> nth_error dims j = Some None -> i = j.
