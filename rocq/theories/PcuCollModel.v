(** Model of the PCU collectives: /repo/pcu/pcu_coll.c and their callers in /repo/pcu/pcu.c.

    A collective is, on every rank, a loop over a bit (pcu_coll.c:175-212); the pattern says
    for each value of the bit whether the rank sends, receives or idles and with which peer.
    Here the loop is unrolled into the list of steps that the rank performs; the steps of all
    ranks are then run by an asynchronous transition system ([cstep]) in which any rank may
    make the next move and a message may stay in flight arbitrarily long.

    Simplifications.  Ranks, sizes and bits are natural numbers (C: int, so < 2^31; 1<<ceil_log2
    overflows only beyond 2^30 ranks).  The buffers merged have type [A]; the size check at
    pcu_coll.c:156-158 (all ranks pass buffers of the same size) is a precondition. *)
From Verif Require Import Base.

(** pcu_coll.h:26-31 enum pcu_coll_send/recv/idle, with the peer and, for a receive, the merge
    that is installed: the user's operation (pcu_coll.c:449-454) or pcu_merge_assign (:456-461). *)
Inductive mkind := Merge | Assign.
Inductive cact := Idle | Send (q : nat) | Recv (q : nat) (k : mkind).

(** pcu_coll.c:18-23  while ((n >>= 1)) ++r; *)
Fixpoint floor_log2_loop (fuel n r : nat) : nat :=
  match fuel with
  | 0 => r
  | S f => let n' := Nat.shiftr n 1 in if n' =? 0 then r else floor_log2_loop f n' (S r)
  end.
Definition floor_log2 (n : nat) : nat := floor_log2_loop n n 0.
(** pcu_coll.c:25-30 *)
Definition ceil_log2 (n : nat) : nat :=
  let r := floor_log2 n in if Nat.shiftl 1 r <? n then S r else r.

(** pcu_coll.h:33-40 struct pcu_pattern; [size rank bit] are explicit arguments here. *)
Record pattern := { p_begin : nat -> nat -> nat;
                    p_end : nat -> nat -> nat -> bool;
                    p_act : nat -> nat -> nat -> cact;
                    p_shift : nat -> nat }.

(** pcu_coll.c:188-212 (pcu_begin_coll, pcu_progress_coll) = for (bit = begin; !end(bit);
    bit = shift(bit)) step(bit), as explained at :169-186. *)
Fixpoint coll_loop (fuel : nat) (p : pattern) (n r bit : nat) : option (list cact) :=
  if p_end p n r bit then Some []
  else match fuel with
       | 0 => None
       | S f => rest <- coll_loop f p n r (p_shift p bit) ;; Some (p_act p n r bit :: rest)
       end.
Definition coll (p : pattern) (n r : nat) : option (list cact) :=
  coll_loop (n + 2) p n r (p_begin p n r).

(** pcu_coll.c:218-257 *)
Definition reduce_end (n r bit : nat) : bool :=
  if r =? 0 then n <=? bit else negb (Nat.land (Nat.shiftr bit 1) r =? 0).
Definition reduce_act (n r bit : nat) : cact :=
  let peer := Nat.lxor r bit in
  if n <=? peer then Idle
  else if negb (Nat.land bit r =? 0) then Send peer else Recv peer Merge.
Definition reduce : pattern :=
  {| p_begin := fun _ _ => 1; p_end := reduce_end; p_act := reduce_act;
     p_shift := fun bit => Nat.shiftl bit 1 |}.

(** pcu_coll.c:263-304 *)
Fixpoint low_bit_loop (fuel bit r : nat) : option nat :=
  if negb (Nat.land bit r =? 0) then Some bit
  else match fuel with 0 => None | S f => low_bit_loop f (Nat.shiftl bit 1) r end.
Definition bcast_begin (n r : nat) : nat :=
  if r =? 0 then Nat.shiftl 1 (ceil_log2 n)
  else match low_bit_loop r 1 r with Some b => b | None => 0 end.
Definition bcast_act (n r bit : nat) : cact :=
  let peer := Nat.lxor r bit in
  if n <=? peer then Idle
  else if negb (Nat.land bit r =? 0) then Recv peer Assign else Send peer.
Definition bcast : pattern :=
  {| p_begin := bcast_begin; p_end := fun _ _ bit => bit =? 0; p_act := bcast_act;
     p_shift := fun bit => Nat.shiftr bit 1 |}.

(** pcu_coll.c:313-378.  0 <= rank - bit is written bit <= rank. *)
Definition up_could_receive (r bit : nat) : bool :=
  let mask := Nat.shiftl bit 1 - 1 in Nat.land r mask =? mask.
Definition up_act (n r bit : nat) : cact :=
  if up_could_receive r bit && (bit <=? r) then Recv (r - bit) Merge
  else if (r + bit <? n) && up_could_receive (r + bit) bit then Send (r + bit)
  else Idle.
Definition scan_up : pattern :=
  {| p_begin := fun _ _ => 1; p_end := fun n _ bit => bit =? Nat.shiftl 1 (floor_log2 n);
     p_act := up_act; p_shift := fun bit => Nat.shiftl bit 1 |}.

(** pcu_coll.c:380-447 *)
Definition down_could_send (r bit : nat) : bool :=
  let mask := bit - 1 in Nat.land r mask =? mask.
Definition down_act (n r bit : nat) : cact :=
  let h := Nat.shiftr bit 1 in
  if down_could_send r bit && (r + h <? n) then Send (r + h)
  else if (h <=? r) && down_could_send (r - h) bit then Recv (r - h) Merge
  else Idle.
Definition scan_down : pattern :=
  {| p_begin := fun n _ => Nat.shiftl 1 (floor_log2 n); p_end := fun _ _ bit => bit =? 1;
     p_act := down_act; p_shift := fun bit => Nat.shiftr bit 1 |}.

(** pcu_coll.c:463-467 pcu_allreduce (and, with a merge that does nothing, pcu_barrier :480-504) *)
Definition allreduce_prog (n r : nat) : option (list cact) :=
  a <- coll reduce n r ;; b <- coll bcast n r ;; Some (a ++ b).
(** pcu_coll.c:469-478 pcu_scan *)
Definition scan_prog (n r : nat) : option (list cact) :=
  a <- coll scan_up n r ;; b <- coll scan_down n r ;; Some (a ++ b).

(* ------------------------------------------------------------------ *)
(** * Asynchronous execution (pcu_coll.c:129-161 begin/end_coll_step over pcu_pmpi.c:60-103) *)

Section Exec.
Context {A : Type}.
Variable m : A -> A -> A.      (* the installed merge, pcu_coll.c:36-125 *)

(** merge(local, incoming) *)
Definition do_merge (k : mkind) (local incoming : A) : A :=
  match k with Merge => m local incoming | Assign => incoming end.

(** Per rank: the steps still to do, whether the current send was issued (MPI_Issend,
    pcu_pmpi.c:60-74) and not yet found complete, and the local data; per ordered pair of
    ranks the messages issued and not yet received (MPI does not overtake). *)
Record cstate := { c_pc : nat -> list cact; c_sent : nat -> bool; c_val : nat -> A;
                   c_net : nat -> nat -> list A }.

Definition fset {B} (f : nat -> B) (i : nat) (x : B) : nat -> B :=
  fun j => if j =? i then x else f j.
Definition fset2 {B} (f : nat -> nat -> B) (i k : nat) (x : B) : nat -> nat -> B :=
  fun a b => if (a =? i) && (b =? k) then x else f a b.

Inductive cstep (n : nat) : cstate -> cstate -> Prop :=
| st_issue s r q rest : r < n -> c_pc s r = Send q :: rest -> c_sent s r = false ->
    cstep n s {| c_pc := c_pc s; c_sent := fset (c_sent s) r true; c_val := c_val s;
                 c_net := fset2 (c_net s) r q (c_net s r q ++ [c_val s r]) |}
| st_complete s r q rest : (* MPI_Test of the Issend succeeds once the message was received *)
    r < n -> c_pc s r = Send q :: rest -> c_sent s r = true -> c_net s r q = [] ->
    cstep n s {| c_pc := fset (c_pc s) r rest; c_sent := fset (c_sent s) r false;
                 c_val := c_val s; c_net := c_net s |}
| st_recv s r q k rest x l : r < n -> c_pc s r = Recv q k :: rest -> c_net s q r = x :: l ->
    cstep n s {| c_pc := fset (c_pc s) r rest; c_sent := c_sent s;
                 c_val := fset (c_val s) r (do_merge k (c_val s r) x);
                 c_net := fset2 (c_net s) q r l |}
| st_idle s r rest : r < n -> c_pc s r = Idle :: rest ->
    cstep n s {| c_pc := fset (c_pc s) r rest; c_sent := c_sent s; c_val := c_val s;
                 c_net := c_net s |}.

(** number of moves is counted so that termination can be stated *)
Inductive csteps (n : nat) : nat -> cstate -> cstate -> Prop :=
| cs_refl s : csteps n 0 s s
| cs_step i s1 s2 s3 : csteps n i s1 s2 -> cstep n s2 s3 -> csteps n (S i) s1 s3.

Definition cinit (prog : nat -> list cact) (init : nat -> A) : cstate :=
  {| c_pc := prog; c_sent := fun _ => false; c_val := init; c_net := fun _ _ => [] |}.
Definition finished (n : nat) (s : cstate) : Prop := forall r, r < n -> c_pc s r = [].
End Exec.

(** pcu_coll.c:36-125: elementwise operations on arrays; the loop runs over the incoming size. *)
Definition zip_with (f : Z -> Z -> Z) (a b : list Z) : list Z :=
  map (fun p => f (fst p) (snd p)) (combine a b).
Definition pcu_add := zip_with Z.add.
Definition pcu_min := zip_with (fun a b => if Z.ltb b a then b else a)%Z.   (* MIN(a,b), :15 *)
Definition pcu_max := zip_with (fun a b => if Z.ltb a b then b else a)%Z.   (* MAX(a,b), :16 *)
(** pcu.c:402-404, 427-429 p[i] -= originals[i] *)
Definition exscan_post (p originals : list Z) : list Z := zip_with Z.sub p originals.
