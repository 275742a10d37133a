(** Model of the message calls of pcu.c that are built from packing, listening and unpacking:
    PCU_Comm_Write, PCU_Comm_Packed, PCU_Comm_Receive and PCU_Comm_Read, in the unordered and in
    the ordered mode (PCU_Comm_Order), with the state of the received buffer between calls.
    [None] is reel_fail or undefined behaviour; the messages the network hands over are a list
    in arrival order, which the theorems quantify over. *)
From Verif Require Import Base PcuAAModel PcuMsgModel.

(* ------------------------------------------------------------------ *)
(** * Sizes in the byte stream *)

(** the object representation of a size_t on the little-endian, 64-bit targets of the code:
    PCU_MSG_PACK and PCU_COMM_UNPACK copy sizeof(size_t) bytes (pcu_msg.h:52-53, PCU.h:42-43) *)
Definition size_bytes : nat := 8.
Fixpoint encode (k : nat) (z : Z) : list byte :=
  match k with
  | 0 => []
  | S j => Z.to_nat (z mod 256) :: encode j (z / 256)
  end.
Fixpoint decode (l : list byte) : Z :=
  match l with
  | [] => 0
  | b :: r => Z.of_nat b + 256 * decode r
  end%Z.

(* ------------------------------------------------------------------ *)
(** * Writing *)

(** PCU_Comm_Write, pcu.c:565-575: the size, then the data, to the same peer *)
Definition comm_write (n : nat) (p : peers) (to : Z) (data : list byte) : option peers :=
  p1 <- comm_pack n p to (encode size_bytes (Z.of_nat (length data))) ;;
  comm_pack n p1 to data.
Fixpoint write_all (n : nat) (p : peers) (ops : list (Z * list byte)) : option peers :=
  match ops with
  | [] => Some p
  | (to, d) :: r => p' <- comm_write n p to d ;; write_all n p' r
  end.

(** PCU_Comm_Packed, pcu.c:546-555 with pcu_msg_packed, pcu_msg.c:136-144: the size of the peer's
    buffer, failing when nothing was packed for the peer *)
Definition comm_packed (n : nat) (p : peers) (to : Z) : option nat :=
  if (Z.ltb to 0 || Z.leb (Z.of_nat n) to)%Z%bool then None        (* Invalid rank in Comm_Packed *)
  else
    nd <- find (to, 0) (p_tree p) ;;
    b <- nth_error (p_bufs p) (snd nd) ;;
    Some (b_size b).

(* ------------------------------------------------------------------ *)
(** * Receiving *)

(** The receiving side of a phase: PCU_Comm_Order's setting, whether the phase is still open
    (send_recv_state or recv_state rather than idle_state), the messages still to arrive, the
    current buffer (m->received.buffer, or array[at]->buf in the ordered mode) with its sender,
    and the ordering structure. *)
Record reader := { r_ordered : bool; r_open : bool; r_net : list (Z * list byte);
                   r_buf : buffer; r_peer : Z; r_ord : order }.
(** after PCU_Comm_Send: the received message was made empty by make_comm (pcu_msg.c:63-68) and the
    order by pcu_order_new or the end of the previous phase (pcu_order.c:29-45) *)
Definition start_reading (ordered : bool) (net : list (Z * list byte)) : reader :=
  {| r_ordered := ordered; r_open := true; r_net := net; r_buf := make_buffer; r_peer := 0;
     r_ord := init_order |}.

(** PCU_Comm_Unpacked, pcu.c:197-205, pcu_order.c:138-144, pcu_msg.c:223-226 *)
Definition unpacked (s : reader) : bool :=
  if r_ordered s then (if o_ready (r_ord s) then buffer_walked (r_buf s) else true)
  else buffer_walked (r_buf s).

(** PCU_Comm_Listen, pcu.c:171-179.  Unordered: pcu_msg_receive, pcu_msg.c:200-216: a message
    (pcu_begin_buffer) or the end of the phase, which empties the received message.  Ordered:
    pcu_order_receive, pcu_order.c:119-132; its prepare drains the network with pcu_msg_receive,
    so calling it when the phase is over fails. *)
Definition listen (s : reader) : option (reader * bool) :=
  if r_ordered s then
    if negb (o_ready (r_ord s)) && negb (r_open s) then None         (* called at the wrong time *)
    else
      '(o, m) <- order_receive (r_net s) (r_ord s) ;;
      match m with
      | None => Some ({| r_ordered := true; r_open := false; r_net := []; r_buf := make_buffer;
                         r_peer := 0; r_ord := o |}, false)
      | Some (from, d) =>
          Some ({| r_ordered := true; r_open := false; r_net := [];
                   r_buf := begin_buffer (receive_into make_buffer d); r_peer := from; r_ord := o |}, true)
      end
  else if negb (r_open s) then None                                   (* called at the wrong time *)
  else if negb (buffer_walked (r_buf s)) then None                    (* before previous message unpacked *)
  else match r_net s with
       | [] => Some ({| r_ordered := false; r_open := false; r_net := []; r_buf := make_buffer;
                        r_peer := 0; r_ord := r_ord s |}, false)
       | (from, d) :: rest =>
           Some ({| r_ordered := false; r_open := true; r_net := rest;
                    r_buf := begin_buffer (receive_into (r_buf s) d); r_peer := from; r_ord := r_ord s |}, true)
       end.

(** PCU_Comm_Receive, pcu.c:578-584 *)
Fixpoint comm_receive (fuel : nat) (s : reader) : option (reader * bool) :=
  match fuel with
  | 0 => None
  | S f =>
      if unpacked s then
        '(s1, ok) <- listen s ;;
        if ok : bool then comm_receive f s1 else Some (s1, false)
      else Some (s, true)
  end.

(** PCU_Comm_Unpack and PCU_Comm_Extract, pcu.c:217-226, 707-716: the next bytes of the current
    buffer *)
Definition take (s : reader) (n : nat) : option (reader * list byte) :=
  '(b, d) <- comm_unpack (r_buf s) n ;;
  Some ({| r_ordered := r_ordered s; r_open := r_open s; r_net := r_net s; r_buf := b;
           r_peer := r_peer s; r_ord := r_ord s |}, d).

(** The body of a receive loop: a sequence of PCU_Comm_Unpack (or Extract) calls whose sizes may
    depend on what was unpacked before, ending with a result (for example agiMigrate.cpp:46-58,
    256-277, agiTag.cpp:113-119, binGraph.cpp:67-77). *)
Inductive body (X : Type) : Type :=
| Done (x : X)
| Get (k : nat) (next : list byte -> body X).
Arguments Done {X} x.
Arguments Get {X} k next.
Fixpoint run_body {X} (b : body X) (s : reader) : option (reader * X) :=
  match b with
  | Done x => Some (s, x)
  | Get k next => '(s1, d) <- take s k ;; run_body (next d) s1
  end.
(** while (PCU_Comm_Receive()) { from = PCU_Comm_Sender(); body } : what the iterations see *)
Fixpoint receive_loop {X} (fuel : nat) (b : body X) (s : reader) : option (reader * list (Z * X)) :=
  match fuel with
  | 0 => None
  | S f =>
      '(s1, ok) <- comm_receive fuel s ;;
      if ok : bool then
        '(s2, x) <- run_body b s1 ;;
        '(s3, r) <- receive_loop f b s2 ;;
        Some (s3, (r_peer s1, x) :: r)
      else Some (s1, [])
  end.

(** PCU_Comm_Read, pcu.c:598-608: sender, size, data *)
Definition comm_read (fuel : nat) (s : reader) : option (reader * option (Z * list byte)) :=
  '(s1, ok) <- comm_receive fuel s ;;
  if ok : bool then
    '(s2, szb) <- take s1 size_bytes ;;
    '(s3, d) <- take s2 (Z.to_nat (decode szb)) ;;
    Some (s3, Some (r_peer s1, d))
  else Some (s1, None).

(** while (PCU_Comm_Read(&from,&data,&size)) ... : what the caller sees, in order *)
Fixpoint read_loop (fuel : nat) (s : reader) : option (reader * list (Z * list byte)) :=
  match fuel with
  | 0 => None
  | S f =>
      '(s1, m) <- comm_read fuel s ;;
      match m with
      | None => Some (s1, [])
      | Some x => '(s2, r) <- read_loop f s1 ;; Some (s2, x :: r)
      end
  end.
