(** Vocabulary of property C68: the protocol of PCU as its documentation states it. *)
From Verif Require Import Base PcuApiModel.
From Coq Require Import Sorted.

(** where a rank is: between phases; packing, with the calls to Pack so far; or receiving, with the
    current message (sender, size, bytes not yet unpacked) and the messages still to come *)
Inductive where_ := Between | Packing (packed : list (Z * nat))
                  | Receiving (current : option (Z * nat * nat)) (coming : list (Z * nat)).
Record user := mkUser { u_on : bool; u_ordered : bool; u_at : where_ }.
(** before any call *)
Definition user0 : user := mkUser false false Between.

Definition packed_to (to : Z) (l : list (Z * nat)) : list nat := map snd (filter (fun o => Z.eqb (fst o) to) l).
Definition goto (u : user) (w : where_) : user := mkUser (u_on u) (u_ordered u) w.

Section Protocol.
Variable n : nat.   (* ranks *)
(** [may u c u' x]: the documentation allows call c in situation u, with result x *)
Inductive may : user -> op -> user -> answer -> Prop :=
| may_init u : u_on u = false -> may u CInit (mkUser true true Between) Void
| may_free u : u_on u = true -> u_at u = Between -> may u CFree (mkUser false (u_ordered u) Between) Void
| may_order u b : u_on u = true -> u_at u = Between -> may u (COrder b) (mkUser true b Between) Void
| may_begin u : u_on u = true -> u_at u = Between -> may u CBegin (goto u (Packing [])) Void
| may_pack u l to k : u_on u = true -> u_at u = Packing l -> (0 <= to < Z.of_nat n)%Z ->
    may u (CPack to k) (goto u (Packing (l ++ [(to, k)]))) Void
| may_packed u l to : u_on u = true -> u_at u = Packing l -> (0 <= to < Z.of_nat n)%Z -> packed_to to l <> [] ->
    may u (CPacked to) u (Size (nsum (packed_to to l)))
| may_send u l arrivals coming : u_on u = true -> u_at u = Packing l ->
    (forall to, (Z.of_nat (nsum (packed_to to l)) <= 2147483647)%Z) ->
    Permutation coming arrivals ->
    (u_ordered u = false -> coming = arrivals) ->
    (u_ordered u = true -> StronglySorted (fun a b => (fst a <= fst b)%Z) coming) ->
    NoDup (map fst arrivals) ->
    may u (CSend arrivals) (goto u (Receiving None coming)) Void
| may_listen u cur f k rest : u_on u = true -> u_at u = Receiving cur ((f, k) :: rest) ->
    (forall s z l, cur = Some (s, z, l) -> l = 0) ->
    may u CListen (goto u (Receiving (Some (f, k, k)) rest)) (Bool true)
| may_end u cur : u_on u = true -> u_at u = Receiving cur [] -> (forall s z l, cur = Some (s, z, l) -> l = 0) ->
    may u CListen (goto u Between) (Bool false)
| may_unpacked u f z l rest : u_on u = true -> u_at u = Receiving (Some (f, z, l)) rest ->
    may u CUnpacked u (Bool (l =? 0))
| may_unpack u f z l rest k : u_on u = true -> u_at u = Receiving (Some (f, z, l)) rest -> k <= l ->
    may u (CUnpack k) (goto u (Receiving (Some (f, z, l - k)) rest)) Void
| may_sender u f z l rest : u_on u = true -> u_at u = Receiving (Some (f, z, l)) rest -> may u CSender u (Rank f)
| may_received u f z l rest : u_on u = true -> u_at u = Receiving (Some (f, z, l)) rest -> may u CReceived u (Size z).

(** a program that keeps to the protocol *)
Inductive proper : user -> list op -> user -> list answer -> Prop :=
| proper_nil u : proper u [] u []
| proper_cons u c u1 x l u2 xs : may u c u1 x -> proper u1 l u2 xs -> proper u (c :: l) u2 (x :: xs).

(** the message being unpacked *)
Definition current_of (u : user) : option (Z * nat * nat) :=
  match u_at u with Receiving cur _ => cur | _ => None end.
(** the calls that the library does not refuse although the protocol forbids them: the life cycle and
    the order switch in the middle of a phase, questions about a message when there is none, and, with
    ordering on (the default), Begin and Listen while a message is being unpacked *)
Definition unchecked (u : user) (c : op) : Prop :=
  u_on u = true /\
  match c with
  | CFree | COrder _ | CUnpacked | CSender | CReceived => True
  | CUnpack k => current_of u = None /\ (u_ordered u = true \/ k = 0)
  | CBegin | CListen => u_ordered u = true /\ current_of u <> None
  | _ => False
  end.
(** one message from each sender at most *)
Definition senders_distinct (c : op) : Prop :=
  match c with CSend arrivals => NoDup (map fst arrivals) | _ => True end.
End Protocol.

(* ------------------------------------------------------------------ *)
(** who initialised the running PCU, if it is running, when EnGPar_Finalize frees it exactly when
    EnGPar_Initialize had initialised it *)
Inductive who := App | EnGPar.
Definition own_step (w : option who) (o : lop) : option who :=
  match o, w with
  | AppInit, _ => Some App
  | AppFree, _ => None
  | EngInit, None => Some EnGPar
  | EngInit, Some _ => w
  | EngFinalize, Some EnGPar => None
  | EngFinalize, _ => w
  end.
Definition owned (h : list lop) : option who := fold_left own_step h None.
(** the application calls PCU_Comm_Init only while PCU is off, PCU_Comm_Free only on what it initialised *)
Definition sensible (h : list lop) : Prop :=
  forall h1 o h2, h = h1 ++ o :: h2 ->
  match o with AppInit => owned h1 = None | AppFree => owned h1 = Some App | _ => True end.
(** EnGPar never initialised PCU before the application did *)
Definition app_first (h : list lop) : Prop :=
  forall h1 h2 h3, h = h1 ++ EngInit :: h2 ++ AppInit :: h3 -> owned h1 <> None.
