(** Second adjacencies: Ngraph::create_vev_adjacency / create_eve_adjacency (agi/agiConstruct.cpp:618-737), the
    VEV/EVE iterators (agi/agiIterate.cpp:45-58, 115-128; agi/agiVertex.cpp:169-178; agi/agiEdge.cpp:170-183).
    Simplifications: unbounded integers for lid_t; the traversal order of an std::unordered_set is an arbitrary
    function [ord] of the row and the set (the theorems quantify over it). *)
From Verif Require Import Base GraphModel.

(** X_offsets[t] and X_lists[t] for X = vev, eve: pngraph.h:150-180 *)
Record sadj := mkSA { sa_off : arr nat; sa_list : arr nat }.
(** the arrays vev_offsets/vev_lists (eve_...) of all types; None is the NULL pointer *)
Definition satab := list (option sadj).
Definition sa_get (tb : satab) (t : nat) : option sadj := match nth_error tb t with Some (Some s) => Some s | _ => None end.

(** unique_adj after insertion of every neighbour and erase(v): agiConstruct.cpp:632-640, 655-662 *)
Definition uniq_adj (h : nat) (others : list nat) : list nat := remove Nat.eq_dec h (nodup Nat.eq_dec others).
(** first pass, offsets: agiConstruct.cpp:624-647 (vev) and 677-706 (eve); [row h] is the sequence of handles met for h *)
Definition sa_offsets (n : nat) (row : nat -> option (list nat)) (compress : bool) (hs : list nat) : option (arr nat) :=
  o0 <- aset (anew (n + 1)) 0 0 ;;
  '(off, _) <- foldM (fun '(off, id) h =>
      others <- row h ;;
      prev <- aget off (id - 1) ;;
      off' <- aset off id (prev + if compress then length (uniq_adj h others) else length others) ;;
      Some (off', id + 1)) hs (o0, 1) ;;
  Some off.
(** second pass, lists: agiConstruct.cpp:649-667 (vev) and 708-735 (eve) *)
Definition sa_lists (tot : nat) (row : nat -> option (list nat)) (lid : nat -> option nat) (ord : nat -> list nat -> list nat)
    (compress : bool) (hs : list nat) : option (arr nat) :=
  '(ls, _) <- foldM (fun st h =>
      others <- row h ;;
      foldM (fun '(ls, id) x => l <- lid x ;; ls' <- aset ls id l ;; Some (ls', id + 1))
        (if compress then ord h (uniq_adj h others) else others) st) hs (anew tot, 0) ;;
  Some ls.
Definition sa_make (n : nat) (row : nat -> option (list nat)) (lid : nat -> option nat) (ord : nat -> list nat -> list nat)
    (compress : bool) (hs : list nat) : option sadj :=
  off <- sa_offsets n row compress hs ;; tot <- aget off n ;; ls <- sa_lists tot row lid ord compress hs ;; Some (mkSA off ls).

(** the neighbours looked at by create_vev_adjacency: adjacent(v) with its default type 0, agiConstruct.cpp:634, 656 *)
Definition vev_row (g : graph) (fuel : nat) (h : nat) : option (list nat) := adjacent g h 0 fuel.
(** Ngraph::create_vev_adjacency(t,compress), agiConstruct.cpp:618-669 *)
Definition create_vev (g : graph) (tb : satab) (ord : nat -> list nat -> list nat) (t : nat) (compress : bool) (fuel : nat) : option satab :=
  hs <- all_verts g fuel ;; s <- sa_make (nlv g) (vev_row g fuel) vlid ord compress hs ;;
  if t <? length tb then Some (upd tb t (Some s)) else None.

(** the edges looked at by create_eve_adjacency: for each pin owned by this part, edges(v) with its default type 0, agiConstruct.cpp:684-695 *)
Definition eve_row (g : graph) (fuel : nat) (h : nat) : option (list nat) :=
  vs <- edge_pins g h fuel ;;
  rows <- mapM (fun v => o <- owner g v ;; if Z.eqb o (self g) then vertex_edges g v 0 fuel else Some []) vs ;;
  Some (concat rows).
(** Ngraph::create_eve_adjacency(t,compress), agiConstruct.cpp:671-737 *)
Definition create_eve (g : graph) (tb : satab) (ord : nat -> list nat -> list nat) (t : nat) (compress : bool) (fuel : nat) : option satab :=
  ed <- gtype g t ;; hs <- all_edges g t fuel ;; s <- sa_make (e_num ed) (eve_row g fuel) (elid g) ord compress hs ;;
  if t <? length tb then Some (upd tb t (Some s)) else None.

(** ** iterators *)
(** vev_begin, vev_end: agiVertex.cpp:169-178 *)
Definition vev_begin (g : graph) (tb : satab) (h t : nat) : option nat :=
  l <- vlid h ;; s <- sa_get tb t ;; o <- aget (sa_off s) l ;; Some (o * ntypes g + t + 1).
Definition vev_end (g : graph) (tb : satab) (h t : nat) : option nat :=
  l <- vlid h ;; s <- sa_get tb t ;; o <- aget (sa_off s) (l + 1) ;; Some (o * ntypes g + ntypes g + t + 1).
(** eve_begin, eve_end: agiEdge.cpp:170-183 *)
Definition eve_begin (g : graph) (tb : satab) (h : nat) : option nat :=
  '(t, l) <- edec (ntypes g) h ;; s <- sa_get tb t ;; o <- aget (sa_off s) l ;; Some (o * ntypes g + t + 1).
Definition eve_end (g : graph) (tb : satab) (h : nat) : option nat :=
  '(t, l) <- edec (ntypes g) h ;; s <- sa_get tb t ;; o <- aget (sa_off s) (l + 1) ;; Some (o * ntypes g + ntypes g + t + 1).
(** the common body of the two iterate functions: agiIterate.cpp:45-58 and 115-128. [num t] is the number of rows of type t and
    [enc x t] the handle returned for the list entry x; the result 0 is NULL. *)
Definition sa_iterate (nt : nat) (num : nat -> option nat) (enc : nat -> nat -> nat) (tb : satab) (p : nat) : option (nat * nat) :=
  '(t, id) <- edec nt p ;; s <- sa_get tb t ;; n <- num t ;; tot <- aget (sa_off s) n ;;
  r <- (if tot <=? id then Some 0 else x <- aget (sa_list s) id ;; Some (enc x t)) ;;
  Some (r, id * nt + nt + 1).
Definition vev_iterate (g : graph) : satab -> nat -> option (nat * nat) :=
  sa_iterate (ntypes g) (fun _ => Some (nlv g)) (fun x _ => x + 1).
Definition eve_iterate (g : graph) : satab -> nat -> option (nat * nat) :=
  sa_iterate (ntypes g) (fun t => ed <- gtype g t ;; Some (e_num ed)) (fun x t => x * ntypes g + t + 1).
(** for (adj = iterate(itr); itr != end; adj = iterate(itr)) { use adj }: the loop of test/NgraphTestSuite.cpp:434, 491 *)
Fixpoint sa_loop (it : nat -> option (nat * nat)) (fuel fin p : nat) : option (list nat) :=
  match fuel with
  | 0 => None
  | S f => '(h, p') <- it p ;; if p' =? fin then Some [] else r <- sa_loop it f fin p' ;; Some (h :: r)
  end.
Definition vev_visit (g : graph) (tb : satab) (h t fuel : nat) : option (list nat) :=
  b <- vev_begin g tb h t ;; e <- vev_end g tb h t ;; sa_loop (vev_iterate g tb) fuel e b.
Definition eve_visit (g : graph) (tb : satab) (h fuel : nat) : option (list nat) :=
  b <- eve_begin g tb h ;; e <- eve_end g tb h ;; sa_loop (eve_iterate g tb) fuel e b.
