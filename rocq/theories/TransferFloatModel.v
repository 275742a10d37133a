(** One receiving part and the parts that plan to send to it: trim followed by cancel, engpar_selector.cpp:400-490. *)
From Flocq Require Import Core BinarySingleNaN.
From Verif Require Import Base GraphModel FloatModel CancelFloatModel.
(** a sending part: its rank, the doubles under its names of weights, its order of traversal, its graph, its plan, the capacities it
    received *)
Record sender := mkSender { s_id : Z; s_fv : Z -> b64; s_ord : list nat -> list nat; s_g : graph; s_gw : option (arr Z); s_fuel : nat; s_plan : list (nat * Z); s_cap : Z -> list b64 }.
(** sendPlanWeight: the message of one part to part [q], engpar_selector.cpp:313-328 *)
Definition request_msg (dims : list (option nat)) (q : Z) (s : sender) : option (Z * list b64) :=
  r <- mapM (request_f (s_fv s) (s_ord s) (s_g s) (s_gw s) (s_fuel s) q (s_plan s)) dims ;; Some (s_id s, r).
(** what part [q] answers, to each of [reqs] in the order of the set of requests, engpar_selector.cpp:342-385 *)
Definition answers_f (lims ws : list b64) (reqs : list (Z * list b64)) : list (Z * list b64) := accept_f (availability_f lims ws) reqs.
(** what a sender keeps of its plan *)
Definition kept_f (dims : list (option nat)) (s : sender) : option (list (nat * Z)) := cancel_f (s_fv s) (s_ord s) (s_g s) (s_gw s) (s_fuel s) dims (s_cap s) (s_plan s).
