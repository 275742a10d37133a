(** SDSlope, partition/Diffusive/src/engpar_sd.{h,cpp}: a ring of the last values of a monitored quantity.
    Simplification: doubles are exact rationals. *)
From Coq Require Export QArith.
From Verif Require Import Base.
Local Open Scope Z_scope.

(** unsigned int arithmetic *)
Definition u32 (z : Z) : Z := z mod 4294967296.

(** members, engpar_sd.h:17-20 *)
Record sd := mkSd { sd_max : Z; sd_cur : Z; sd_pos : Z; sd_vals : arr Q }.
(** order and ws, engpar_sd.cpp:5-6 *)
Definition sd_order : Z := 2.
Definition sd_ws : arr Q := ainit [(-3 # 2)%Q; (2 # 1)%Q; (-1 # 2)%Q].
(** SDSlope::SDSlope, engpar_sd.cpp:10-15 *)
Definition sd_new : sd := mkSd (sd_order + 1) 0 0 (anew (Z.to_nat (sd_order + 1))).
(** isFull, engpar_sd.cpp:20-22 *)
Definition sd_full (s : sd) : bool := sd_cur s =? sd_max s.
(** get, engpar_sd.cpp:24-28; p and pos are unsigned int; % 0 is undefined *)
Definition sd_get (s : sd) (i : Z) : option Q :=
  let p := u32 (sd_pos s - i) in
  if sd_cur s =? 0 then None
  else let p := u32 (p + sd_cur s) mod sd_cur s in aget (sd_vals s) (Z.to_nat p).
(** push, engpar_sd.cpp:30-35 *)
Definition sd_push (s : sd) (v : Q) : option sd :=
  let cur := if sd_full s then sd_cur s else u32 (sd_cur s + 1) in
  vals <- aset (sd_vals s) (Z.to_nat (sd_pos s)) v ;;
  Some (mkSd (sd_max s) cur (u32 (sd_pos s + 1) mod sd_max s) vals).
(** slope, engpar_sd.cpp:37-43; assert(isFull()) *)
Definition sd_slope (s : sd) : option Q :=
  if sd_full s then
    foldM (fun a i => x <- sd_get s (Z.of_nat i) ;; w <- aget sd_ws i ;; Some (a + x * w)%Q) (seq 0 (Z.to_nat (sd_max s))) 0%Q
  else None.
(** average, engpar_sd.cpp:44-51 *)
Definition sd_average (s : sd) : option Q :=
  if sd_full s then
    a <- foldM (fun a i => x <- sd_get s (Z.of_nat i) ;; Some (a + x)%Q) (seq 0 (Z.to_nat (sd_max s))) 0%Q ;;
    Some (a / inject_Z (sd_max s))%Q
  else None.
