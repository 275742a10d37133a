(** Vocabulary of property C67. *)
From Verif Require Import Base PcuMsgModel PcuRwModel.

(** what the unpacking calls of a loop body obtain from a string of bytes, and what they leave *)
Fixpoint parse {X} (b : body X) (l : list byte) : option (X * list byte) :=
  match b with
  | Done x => Some (x, l)
  | Get k next => if k <=? length l then parse (next (firstn k l)) (skipn k l) else None
  end.

(** the contents of the pairs whose key is d, in order *)
Definition for_key {A} (d : nat) (l : list (Z * A)) : list A :=
  map snd (filter (fun o => Z.eqb (fst o) (Z.of_nat d)) l).

(** the messages on their way to rank d when rank q has sent [sent q] (destination, bytes): pairs of
    sender and bytes *)
Definition network (n : nat) (sent : nat -> list (Z * list byte)) (d : nat) : list (Z * list byte) :=
  flat_map (fun q => map (fun bytes => (Z.of_nat q, bytes)) (for_key d (sent q))) (seq 0 n).
