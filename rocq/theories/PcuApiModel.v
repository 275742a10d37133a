(** The states in which the calls of pcu.c are accepted, on one rank: which call is refused
    (reel_fail or abort), which is undefined behaviour, and what it returns otherwise.  Only the sizes of
    messages are kept (their contents are in PcuMsgModel.v and PcuRwModel.v).  Also the
    initialisation counterpart of EnGPar, engpar_support.cpp. *)
From Verif Require Import Base PcuMsgModel.

(** what a call does: returns, is refused, or is undefined behaviour *)
Inductive outcome (A : Type) := Ok (a : A) | Refused | Undefined.
Arguments Ok {A} a.
Arguments Refused {A}.
Arguments Undefined {A}.

(** pcu_msg.c:56-61; send_recv_state and recv_state differ only in whether the sends are known to
    have completed *)
Inductive mstate := Idle | Packs | Recvs.
(** pcu_order.c:22-28: not ready (array is NULL), or the message at [at] (sender, cursor, capacity)
    and those after it in array order *)
Inductive ostate := NotReady | Ready (from : Z) (cur cap : nat) (rest : list (Z * nat)).
(** global_state, global_pmsg: order, state, bytes packed per peer, received message (cursor,
    capacity, peer), and the messages that will arrive in the phase (sender, size).  The peer that
    remains after the last message (MPI_ANY_SOURCE in the code) is not modelled: no theorem reads it *)
Record api := mkApi { a_init : bool; a_order : option ostate; a_st : mstate; a_peers : list (Z * nat);
                      a_cur : nat; a_cap : nat; a_from : Z; a_net : list (Z * nat) }.
(** static storage is zero-initialised, pcu.c:43-45 *)
Definition api0 : api := mkApi false None Idle [] 0 0 0%Z [].

Inductive op :=
| CInit | CFree | COrder (on : bool) | CBegin | CPack (to : Z) (size : nat) | CPacked (to : Z)
| CSend (arrivals : list (Z * nat))      (* the argument is what the other ranks send to this one *)
| CListen | CUnpacked | CUnpack (size : nat) | CSender | CReceived.
Inductive answer := Void | Bool (b : bool) | Size (n : nat) | Rank (z : Z).

(** the buffer of a peer grows by the packed size, pcu_msg.c:122-134 *)
Fixpoint peer_grow (l : list (Z * nat)) (to : Z) (k : nat) : list (Z * nat) :=
  match l with
  | [] => [(to, k)]
  | (t, n) :: r => if Z.eqb t to then (t, n + k) :: r else (t, n) :: peer_grow r to k
  end.
Fixpoint peer_size (l : list (Z * nat)) (to : Z) : option nat :=
  match l with
  | [] => None
  | (t, n) :: r => if Z.eqb t to then Some n else peer_size r to
  end.
(** the tree of messages ordered by sender, pcu_order.c:84-99, 101-117 (the tree itself: C28, C32) *)
Fixpoint by_from (m : Z * nat) (l : list (Z * nat)) : list (Z * nat) :=
  match l with
  | [] => [m]
  | x :: r => if Z.leb (fst m) (fst x) then m :: l else x :: by_from m r
  end.
Definition in_order (l : list (Z * nat)) : list (Z * nat) := fold_left (fun acc m => by_from m acc) l [].

Section Calls.
Variable n : nat.       (* pcu_mpi_size() *)
Definition good_rank (to : Z) : bool := (Z.leb 0 to && Z.ltb to (Z.of_nat n))%Z.

(** pcu_msg_receive, pcu_msg.c:200-216 *)
Definition msg_receive (s : api) : outcome (api * answer) :=
  match a_st s with
  | Recvs =>
      if a_cur s =? a_cap s then
        match a_net s with
        | [] => Ok (mkApi (a_init s) (a_order s) Idle [] 0 0 (a_from s) [], Bool false)
        | (f, k) :: r => Ok (mkApi (a_init s) (a_order s) Recvs (a_peers s) 0 k f r, Bool true)
        end
      else Refused                                   (* called before previous message unpacked *)
  | _ => Refused                                     (* called at the wrong time *)
  end.
(** prepare, pcu_order.c:101-117: receives all messages of the phase; the first receive is refused
    out of a phase, the following ones find the received buffer just taken away *)
Definition prepare (s : api) : outcome (list (Z * nat)) :=
  match a_st s with
  | Recvs => if a_cur s =? a_cap s then Ok (in_order (a_net s)) else Refused
  | _ => Refused
  end.
(** the array position moves on, pcu_order.c:123-131 *)
Definition next_in_order (s : api) (l : list (Z * nat)) : api * answer :=
  match l with
  | [] => (mkApi (a_init s) (Some NotReady) (a_st s) (a_peers s) (a_cur s) (a_cap s) (a_from s) (a_net s), Bool false)
  | (f, k) :: r => (mkApi (a_init s) (Some (Ready f 0 k r)) (a_st s) (a_peers s) (a_cur s) (a_cap s) (a_from s) (a_net s), Bool true)
  end.
(** pcu_order_receive, pcu_order.c:119-132: no test that the current message was unpacked *)
Definition order_listen (s : api) (o : ostate) : outcome (api * answer) :=
  match o with
  | Ready _ _ _ rest => Ok (next_in_order s rest)
  | NotReady =>
      match prepare s with
      | Ok l => Ok (next_in_order (mkApi (a_init s) (a_order s) Idle [] 0 0 (a_from s) []) l)
      | Refused => Refused
      | Undefined => Undefined
      end
  end.

(** pcu.c: every call first tests global_state *)
Definition call (s : api) (c : op) : outcome (api * answer) :=
  match c with
  | CInit =>                                                            (* pcu.c:58-71 *)
      if a_init s then Refused
      else Ok (mkApi true (Some NotReady) Idle [] 0 0 (a_from s) [], Void)
  | _ =>
    if negb (a_init s) then Refused
    else match c with
    | CInit => Refused
    | CFree =>                                                          (* pcu.c:77-87 *)
        (* between PCU_Comm_Send and the completion of the sends the buffers that MPI_Issend uses are freed *)
        match a_st s, a_peers s with
        | Recvs, _ :: _ => Undefined
        | _, _ => Ok (mkApi false None Idle [] 0 0 (a_from s) [], Void)
        end
    | COrder on =>                                                      (* pcu.c:229-240 *)
        Ok (mkApi true (if on then match a_order s with Some o => Some o | None => Some NotReady end else None)
                  (a_st s) (a_peers s) (a_cur s) (a_cap s) (a_from s) (a_net s), Void)
    | CBegin =>                                                         (* pcu.c:122-127, pcu_msg.c:89-98 *)
        match a_st s with
        | Idle => Ok (mkApi true (a_order s) Packs (a_peers s) (a_cur s) (a_cap s) (a_from s) (a_net s), Void)
        | _ => Refused
        end
    | CPack to k =>                                                     (* pcu.c:135-143, pcu_msg.c:122-134 *)
        if good_rank to then
          match a_st s with
          | Packs => Ok (mkApi true (a_order s) Packs (peer_grow (a_peers s) to k) (a_cur s) (a_cap s) (a_from s) (a_net s), Void)
          | _ => Refused
          end
        else Refused
    | CPacked to =>                                                     (* pcu.c:546-555, pcu_msg.c:136-144 *)
        if good_rank to then
          match a_st s with
          | Packs => match peer_size (a_peers s) to with Some k => Ok (s, Size k) | None => Refused end
          | _ => Refused
          end
        else Refused
    | CSend arrivals =>                                                 (* pcu.c:152-158, pcu_msg.c:157-163, pcu_pmpi.c:62-65 *)
        match a_st s with
        | Packs =>
            if existsb (fun p => Z.ltb int_max (Z.of_nat (snd p))) (a_peers s) then Refused
            else Ok (mkApi true (a_order s) Recvs (a_peers s) (a_cur s) (a_cap s) (a_from s) arrivals, Void)
        | _ => Refused
        end
    | CListen =>                                                        (* pcu.c:171-179 *)
        match a_order s with
        | Some o => order_listen s o
        | None => msg_receive s
        end
    | CUnpacked =>                                                      (* pcu.c:197-205 *)
        match a_order s with
        | Some NotReady => Ok (s, Bool true)
        | Some (Ready _ cur cap _) => Ok (s, Bool (cur =? cap))
        | None => Ok (s, Bool (a_cur s =? a_cap s))
        end
    | CUnpack k =>                                                      (* pcu.c:217-226, pcu_buffer.c:47-54 *)
        match a_order s with
        | Some NotReady => Undefined                                    (* array is NULL *)
        | Some (Ready f cur cap rest) =>
            if cap <? cur + k then Refused
            else Ok (mkApi true (Some (Ready f (cur + k) cap rest)) (a_st s) (a_peers s) (a_cur s) (a_cap s) (a_from s) (a_net s), Void)
        | None =>
            if a_cap s <? a_cur s + k then Refused
            else Ok (mkApi true None (a_st s) (a_peers s) (a_cur s + k) (a_cap s) (a_from s) (a_net s), Void)
        end
    | CSender =>                                                        (* pcu.c:184-192, pcu_order.c:146-149 *)
        match a_order s with
        | Some NotReady => Undefined
        | Some (Ready f _ _ _) => Ok (s, Rank f)
        | None => Ok (s, Rank (a_from s))
        end
    | CReceived =>                                                      (* pcu.c:689-700, pcu_order.c:151-154 *)
        match a_order s with
        | Some NotReady => Undefined
        | Some (Ready _ _ cap _) => Ok (s, Size cap)
        | None => Ok (s, Size (a_cap s))
        end
    end
  end.

(** a program: a sequence of calls; the first refused or undefined one ends it *)
Fixpoint calls (s : api) (l : list op) : outcome (api * list answer) :=
  match l with
  | [] => Ok (s, [])
  | c :: r =>
      match call s c with
      | Ok (s1, x) => match calls s1 r with
                      | Ok (s2, xs) => Ok (s2, x :: xs)
                      | Refused => Refused
                      | Undefined => Undefined
                      end
      | Refused => Refused
      | Undefined => Undefined
      end
  end.
End Calls.

(* ------------------------------------------------------------------ *)
(** * EnGPar_Initialize and EnGPar_Finalize, engpar_support.cpp:6-25 *)

(** whether PCU is initialised, and the global handlingPCU *)
Record life := mkLife { l_pcu : bool; l_handling : bool }.
Inductive lop := AppInit | AppFree | EngInit | EngFinalize.
(** PCU_Comm_Init and PCU_Comm_Free called by the application, pcu.c:58-87; EnGPar_Initialize sets
    handlingPCU when it initialises PCU, EnGPar_Finalize never resets it *)
Definition life_step (s : life) (o : lop) : outcome life :=
  match o with
  | AppInit => if l_pcu s then Refused else Ok (mkLife true (l_handling s))
  | AppFree => if l_pcu s then Ok (mkLife false (l_handling s)) else Refused
  | EngInit => if l_pcu s then Ok s else Ok (mkLife true true)
  | EngFinalize => if l_handling s && l_pcu s then Ok (mkLife false (l_handling s)) else Ok s
  end.
Fixpoint life_run (s : life) (l : list lop) : outcome life :=
  match l with
  | [] => Ok s
  | o :: r => match life_step s o with Ok s1 => life_run s1 r | Refused => Refused | Undefined => Undefined end
  end.
