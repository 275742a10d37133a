(** The labels of evaluatePartition: engpar.cpp:102-121 prints every line through fixed character arrays that sprintf fills without a bound. *)
From Coq Require Import String Ascii.
From Verif Require Import Base.
Local Open Scope nat_scope.

(** sprintf into a char[cap]: the text and its terminating NUL must fit; writing past the array is undefined (None) *)
Definition put_text (cap : nat) (s : string) : option string := if String.length s + 1 <=? cap then Some s else None.
(** %d of an edge type; there are at most MAX_TYPES = 7 types (ngraph.h), so it is one character *)
Definition digit (i : nat) : string := String (ascii_of_nat (48 + i)) EmptyString.
(** char prefix[100]; sprintf(prefix,"PARTITION %s",name), engpar.cpp:102-103 *)
Definition eval_prefix (name : string) : option string := put_text 100 ("PARTITION " ++ name).
(** char edge_name[30]; sprintf(edge_name,"%s: Edges type %d",prefix,i), engpar.cpp:114-115 *)
Definition eval_edge_name (prefix : string) (i : nat) : option string := put_text 30 (prefix ++ ": Edges type " ++ digit i).
(** the labels of all lines, in order: engpar.cpp:104-121 *)
Definition eval_labels (nt : nat) (name : string) : option (list string) :=
  prefix <- eval_prefix name ;;
  es <- mapM (fun i => e <- eval_edge_name prefix i ;; Some [(e ++ ":")%string; (e ++ " Cut:")%string]) (seq 0 nt) ;;
  Some (map (fun s => (prefix ++ s)%string) [": Empty Parts:"; ": Disconnected Components:"; ": Neighbors:"; ": Local Vertex:"; ": Total Vertex:"]%string ++ concat es)%list.
