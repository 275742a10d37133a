(** Model of PCU message buffers (pcu_buffer.c), packing per peer (pcu_msg.c), ordered delivery
    (pcu_order.c), the unpacking calls (pcu.c) and the phase protocol (pcu_msg.c:16-53).
    Bytes are natural numbers, a buffer's memory is a list of cells that are [None] until
    written; [None] as a result is reel_fail or undefined behaviour. *)
From Verif Require Import Base PcuAAModel.

Notation byte := nat.

(* ------------------------------------------------------------------ *)
(** * Buffers *)

(** pcu_buffer.h:15-20; the capacity is the length of the memory *)
Record buffer := { b_mem : arr byte; b_size : nat }.
Definition b_cap (b : buffer) : nat := length (b_mem b).
(** pcu_buffer.c:15-20 *)
Definition make_buffer : buffer := {| b_mem := []; b_size := 0 |}.
(** noto_realloc: keeps the common prefix, new cells are not initialised *)
Definition realloc (m : arr byte) (n : nat) : arr byte := firstn n m ++ anew (n - length m).

(** memcpy into memory at an offset *)
Fixpoint write_at (m : arr byte) (off : nat) (data : list byte) : option (arr byte) :=
  match data with
  | [] => Some m
  | x :: r => m' <- aset m off x ;; write_at m' (S off) r
  end.
(** memcpy out of memory: reading uninitialised bytes is undefined *)
Fixpoint read_at (m : arr byte) (off n : nat) : option (list byte) :=
  match n with
  | 0 => Some []
  | S k => x <- aget m off ;; r <- read_at m (S off) k ;; Some (x :: r)
  end.

(** pcu_buffer.c:27-40 pcu_push_buffer; returns the buffer and the offset handed out *)
Definition push_buffer (b : buffer) (n : nat) : buffer * nat :=
  let size := b_size b + n in
  if b_cap b <? size then
    let min_growth := ((b_cap b + 16) * 3) / 2 in
    let cap := if size <? min_growth then min_growth else size in
    ({| b_mem := realloc (b_mem b) cap; b_size := size |}, size - n)
  else ({| b_mem := b_mem b; b_size := size |}, size - n).

(** pcu_buffer.c:42-45 *)
Definition begin_buffer (b : buffer) : buffer := {| b_mem := b_mem b; b_size := 0 |}.
(** pcu_buffer.c:47-54; fails past the end *)
Definition walk_buffer (b : buffer) (n : nat) : option (buffer * nat) :=
  let at_ := b_size b in
  if b_cap b <? b_size b + n then None
  else Some ({| b_mem := b_mem b; b_size := b_size b + n |}, at_).
(** pcu_buffer.c:56-59 *)
Definition buffer_walked (b : buffer) : bool := b_size b =? b_cap b.
(** pcu_buffer.c:61-66 pcu_resize_buffer followed by MPI_Recv of the data (pcu_pmpi.c:86-103);
    the receive overwrites all [length data] bytes *)
Definition receive_into (b : buffer) (data : list byte) : buffer :=
  {| b_mem := ainit data; b_size := length data |}.

(* ------------------------------------------------------------------ *)
(** * Packing: pcu_msg.c:96-133 *)

(** The peers of a phase: the tree of (id, address) and the buffer at each address. *)
Record peers := { p_tree : tree; p_bufs : list buffer }.
Definition no_peers : peers := {| p_tree := Bot; p_bufs := [] |}.

(** PCU_Comm_Pack, pcu.c:135-143, with pcu_msg_pack, pcu_msg.c:122-134.  [n] = number of ranks. *)
Definition comm_pack (n : nat) (p : peers) (to : Z) (data : list byte) : option peers :=
  if (Z.ltb to 0 || Z.leb (Z.of_nat n) to)%Z%bool then None        (* Invalid rank in Comm_Pack *)
  else
    '(p1, addr) <- (match find (to, 0) (p_tree p) with
                    | Some nd => Some (p, snd nd)
                    | None => let addr := length (p_bufs p) in
                        '(t', _) <- insert (to, addr) (p_tree p) ;;
                        Some ({| p_tree := t'; p_bufs := p_bufs p ++ [make_buffer] |}, addr)
                    end) ;;
    b <- nth_error (p_bufs p1) addr ;;
    let (b1, off) := push_buffer b (length data) in
    m <- write_at (b_mem b1) off data ;;
    Some {| p_tree := p_tree p1; p_bufs := upd (p_bufs p1) addr {| b_mem := m; b_size := b_size b1 |} |}.

Fixpoint pack_all (n : nat) (p : peers) (ops : list (Z * list byte)) : option peers :=
  match ops with
  | [] => Some p
  | (to, d) :: r => p' <- comm_pack n p to d ;; pack_all n p' r
  end.

(** INT_MAX, the type of the count of MPI_Issend *)
Definition int_max : Z := 2147483647.
(** pcu_msg.c:147-155 send_peers: node, left, right; a message is the first [size] bytes
    (pcu_pmpi.c:60-74); a message above INT_MAX bytes aborts the program (pcu_pmpi.c:62-65) *)
Definition message_of (p : peers) (x : node) : option (Z * list byte) :=
  b <- nth_error (p_bufs p) (snd x) ;;
  if Z.ltb int_max (Z.of_nat (b_size b)) then None
  else d <- read_at (b_mem b) 0 (b_size b) ;; Some (key x, d).
Fixpoint send_tree (p : peers) (t : tree) : option (list (Z * list byte)) :=
  match t with
  | Bot => Some []
  | Node l x _ r => m <- message_of p x ;; a <- send_tree p l ;; b <- send_tree p r ;; Some (m :: a ++ b)
  end.
Definition comm_send (p : peers) : option (list (Z * list byte)) := send_tree p (p_tree p).

(* ------------------------------------------------------------------ *)
(** * Unpacking: pcu.c:205-228 PCU_Comm_Unpacked/Unpack on the current buffer *)
Definition comm_unpack (b : buffer) (n : nat) : option (buffer * list byte) :=
  '(b1, off) <- walk_buffer b n ;; d <- read_at (b_mem b1) off n ;; Some (b1, d).
Fixpoint unpack_all (b : buffer) (sizes : list nat) : option (buffer * list (list byte)) :=
  match sizes with
  | [] => Some (b, [])
  | n :: r => '(b1, d) <- comm_unpack b n ;; '(b2, ds) <- unpack_all b1 r ;; Some (b2, d :: ds)
  end.

(* ------------------------------------------------------------------ *)
(** * Ordered delivery: pcu_order.c *)

(** pcu_order.c:15-27; a message is (from, bytes); the tree holds (from, address) and the
    messages are kept by address.  [array] holds addresses. *)
Record order := { o_tree : tree; o_msgs : list (Z * list byte); o_array : list nat;
                  o_count : nat; o_ready : bool; o_at : Z }.
(** pcu_order.c:29-36 *)
Definition init_order : order :=
  {| o_tree := Bot; o_msgs := []; o_array := []; o_count := 0; o_ready := false; o_at := 0 |}.
(** pcu_order.c:92-99 fill: in-order *)
Fixpoint fill (t : tree) : list nat :=
  match t with Bot => [] | Node l x _ r => fill l ++ snd x :: fill r end.
(** pcu_order.c:101-117 prepare; [arrivals] are the messages pcu_msg_receive returns, in order *)
Fixpoint order_collect (t : tree) (msgs : list (Z * list byte)) (arrivals : list (Z * list byte))
  : option (tree * list (Z * list byte)) :=
  match arrivals with
  | [] => Some (t, msgs)
  | m :: r => '(t', _) <- insert (fst m, length msgs) t ;; order_collect t' (msgs ++ [m]) r
  end.
Definition prepare (arrivals : list (Z * list byte)) (o : order) : option order :=
  '(t, msgs) <- order_collect (o_tree o) (o_msgs o) arrivals ;;
  Some {| o_tree := t; o_msgs := msgs; o_array := fill t; o_count := count t;
          o_ready := true; o_at := -1 |}.
(** pcu_order.c:119-132; the result is the delivered message, [None] for "return false" *)
Definition order_receive (arrivals : list (Z * list byte)) (o : order)
  : option (order * option (Z * list byte)) :=
  o1 <- (if o_ready o then Some o else prepare arrivals o) ;;
  let at_ := (o_at o1 + 1)%Z in
  if Z.eqb at_ (Z.of_nat (o_count o1)) then Some (init_order, None)
  else
    addr <- (if Z.ltb at_ 0 then None else nth_error (o_array o1) (Z.to_nat at_)) ;;
    m <- nth_error (o_msgs o1) addr ;;
    Some ({| o_tree := o_tree o1; o_msgs := o_msgs o1; o_array := o_array o1;
             o_count := o_count o1; o_ready := o_ready o1; o_at := at_ |}, Some m).
(** while (PCU_Comm_Listen()) : the messages delivered in a phase *)
Fixpoint listen_loop (fuel : nat) (arrivals : list (Z * list byte)) (o : order)
  : option (order * list (Z * list byte)) :=
  match fuel with
  | 0 => None
  | S f => '(o1, m) <- order_receive arrivals o ;;
           match m with
           | None => Some (o1, [])
           | Some x => '(o2, r) <- listen_loop f arrivals o1 ;; Some (o2, x :: r)
           end
  end.

(* ------------------------------------------------------------------ *)
(** * The phase protocol: pcu_msg.c:16-53, 89-98, 157-216 *)

(** pcu_msg.c:56-61, with the barrier of pcu_msg_start split in entering and leaving *)
Inductive pstate := PIdle | PStart | PPack | PSendRecv | PRecv.
Section Phases.
Variable n : nat.                                  (* ranks *)
Variable phases : nat.                             (* phases the program executes *)
Context {M : Type}.
(** what rank r packs in phase k: destinations and contents (one message per destination,
    pcu_msg.c:122-134) *)
Variable out : nat -> nat -> list (nat * M).

(** a message: sender, destination, contents and (ghost) the phase in which it was sent *)
Record pmsg := { m_src : nat; m_dst : nat; m_body : M; m_phase : nat }.
Definition outgoing (k r : nat) : list pmsg :=
  map (fun d => {| m_src := r; m_dst := fst d; m_body := snd d; m_phase := k |}) (out k r).

(** per rank: state, phase number, barriers entered so far; messages in flight; and for every
    rank the messages received so far with the phase the receiver was in *)
Record psys := { s_st : nat -> pstate; s_ph : nat -> nat; s_bar : nat -> nat;
                 s_net : list pmsg; s_log : nat -> list (nat * pmsg) }.

Definition pset {B} (f : nat -> B) (i : nat) (x : B) : nat -> B := fun j => if j =? i then x else f j.

Inductive pstep : psys -> psys -> Prop :=
| ps_enter_start s r : r < n -> s_st s r = PIdle -> s_ph s r < phases ->  (* pcu_barrier begins, pcu_msg.c:96 *)
    pstep s {| s_st := pset (s_st s) r PStart; s_ph := s_ph s; s_bar := pset (s_bar s) r (S (s_bar s r));
               s_net := s_net s; s_log := s_log s |}
| ps_leave_start s r : r < n -> s_st s r = PStart ->      (* barrier done: C55_barrier *)
    (forall q, q < n -> s_bar s r <= s_bar s q) ->
    pstep s {| s_st := pset (s_st s) r PPack; s_ph := s_ph s; s_bar := s_bar s;
               s_net := s_net s; s_log := s_log s |}
| ps_send s r : r < n -> s_st s r = PPack ->              (* pcu_msg.c:157-163 *)
    pstep s {| s_st := pset (s_st s) r PSendRecv; s_ph := s_ph s; s_bar := s_bar s;
               s_net := s_net s ++ outgoing (s_ph s r) r; s_log := s_log s |}
| ps_recv s r m l1 l2 : r < n -> s_st s r = PSendRecv \/ s_st s r = PRecv ->
    s_net s = l1 ++ m :: l2 -> m_dst m = r ->             (* pcu_mpi_receive from ANY_SOURCE, :178-179 *)
    pstep s {| s_st := s_st s; s_ph := s_ph s; s_bar := s_bar s; s_net := l1 ++ l2;
               s_log := pset (s_log s) r (s_log s r ++ [(s_ph s r, m)]) |}
| ps_sends_done s r : r < n -> s_st s r = PSendRecv ->    (* done_sending_peers, begin_barrier :181-186 *)
    (forall m, In m (s_net s) -> m_src m <> r) ->
    pstep s {| s_st := pset (s_st s) r PRecv; s_ph := s_ph s; s_bar := pset (s_bar s) r (S (s_bar s r));
               s_net := s_net s; s_log := s_log s |}
| ps_end s r : r < n -> s_st s r = PRecv ->               (* barrier done, receive returns false :187-189, 212-215 *)
    (forall q, q < n -> s_bar s r <= s_bar s q) ->
    pstep s {| s_st := pset (s_st s) r PIdle; s_ph := pset (s_ph s) r (S (s_ph s r)); s_bar := s_bar s;
               s_net := s_net s; s_log := s_log s |}.

Definition pinit : psys :=
  {| s_st := fun _ => PIdle; s_ph := fun _ => 0; s_bar := fun _ => 0; s_net := []; s_log := fun _ => [] |}.
(** s is reached after i moves of any ranks in any order *)
Inductive preach : nat -> psys -> Prop :=
| pr_init : preach 0 pinit
| pr_step i s s' : preach i s -> pstep s s' -> preach (S i) s'.

End Phases.
Arguments pmsg M : clear implicits.
Arguments psys M : clear implicits.
