(** Model of Ngraph::saveToFile and Ngraph::loadFromFile, /repo/agi/agiIO.cpp, over the byte files of PcuIOModel.v
    and the graphs of GraphModel.v.
    Simplifications: each part reads and writes its own file (agiIO.cpp:143, 227: the name contains the rank), so one file
    per part and no file names; a double is a weight of GraphModel.v and [bits]/[unbits] are its 64-bit representation and
    back (uninterpreted); the coordinates (ngraph.h local_coords; None = NULL) are kept beside the graph; the order in
    which unordered_map is traversed is an argument [ord]; the messages with which constructGhosts fetches the ghost
    weights (agiConstruct.cpp:386-421) are in TagModel.v; the log output at agiIO.cpp:258-262 is omitted. *)
From Verif Require Import Base GraphModel PcuMsgModel PcuIOModel MetricsModel.
Local Open Scope nat_scope.

(** conversion to unsigned int, and of an unsigned int to the 32-bit part_t (agi.h) *)
Definition u32 (z : Z) : Z := (z mod 2 ^ 32)%Z.
Definition s32 (z : Z) : Z := if Z.ltb z (2 ^ 31) then z else (z - 2 ^ 32)%Z.

Definition coord3 := (Z * Z * Z)%type.   (* coord_t = double[3], agi.h:18 *)

Section IO.
Variable h : host.
Variables bits unbits : Z -> Z.
Variable ord : zmap Z -> zmap Z.

(** PCU_WRITE_UNSIGNED, PCU_READ_UNSIGNED, pcu_io.h:29-31; the argument is an unsigned variable, so the value is reduced *)
Definition put_u (f : list byte) (z : Z) : option (list byte) := write_unsigneds h f [u32 z].
Definition get_u (f : list byte) : option (Z * list byte) :=
  '(l, f') <- read_unsigneds h f 1 ;; match l with [x] => Some (x, f') | _ => None end.
(** pcu_write_doubles/pcu_read_doubles of n doubles *)
Definition put_d (f : list byte) (ws : list Z) : option (list byte) := write_doubles h f (map bits ws).
Definition get_d (n : nat) (f : list byte) : option (list Z * list byte) :=
  '(l, f') <- read_doubles h f n ;; Some (map unbits l, f').

(** Ngraph::coord, agiVertex.cpp:46-57 (None: throw, or NULL array) *)
Definition coord (g : graph) (cs : list coord3) (v : nat) : option coord3 :=
  l <- vlid v ;; if l <? nlv g then nth_error cs l else None.

(** writeHeader, agiIO.cpp:50-53 *)
Definition writeHeader (f : list byte) (g : graph) : option (list byte) := put_u f (if hyper g then 1 else 0)%Z.
(** writeVertices, agiIO.cpp:54-83 *)
Definition writeVertices (fuel : nat) (f : list byte) (g : graph) (cs : option (list coord3)) : option (list byte) :=
  f1 <- put_u f (Z.of_nat (nlv g)) ;;
  vs <- all_verts g fuel ;;
  f2 <- foldM (fun f v => gid <- vgid g v ;; w <- vweight g v ;; f' <- put_u f gid ;; put_d f' [w]) vs f1 ;;
  match cs with
  | Some c =>
      f3 <- put_u f2 1%Z ;;
      vs' <- all_verts g fuel ;;
      foldM (fun f v => '(x, y, z) <- coord g c v ;; put_d f [x; y; z]) vs' f3
  | None => put_u f2 0%Z
  end.
(** the pin loop of writeEdges, agiIO.cpp:97-102: deg calls of iterate; globalID of NULL reads local_unmap[-1] (None).
    ps[i] is an unsigned int, and the key of owns is that unsigned int *)
Fixpoint write_pins (g : graph) (n : nat) (it : piter) (owns : zmap Z) : option (list Z * zmap Z) :=
  match n with
  | 0 => Some ([], owns)
  | S k =>
      '(v, it') <- pit_step g it ;;
      x <- vgid g v ;; o <- owner g v ;;
      let p := u32 x in
      let owns' := if negb (Z.eqb o (self g)) then zput owns p o else owns in
      '(ps, ow) <- write_pins g k it' owns' ;; Some (p :: ps, ow)
  end.
(** one edge, agiIO.cpp:92-108 *)
Definition write_edge (g : graph) (s : list byte * zmap Z) (e : nat) : option (list byte * zmap Z) :=
  let '(f, owns) := s in
  gid <- egid g e ;; w <- eweight g e ;; deg <- edegree g e ;;
  it <- pins_begin g e ;;
  '(ps, owns') <- write_pins g deg it owns ;;
  f1 <- put_u f gid ;; f2 <- put_d f1 [w] ;; f3 <- put_u f2 (Z.of_nat deg) ;; f4 <- write_unsigneds h f3 ps ;;
  Some (f4, owns').
(** writeEdges, agiIO.cpp:84-111 *)
Definition writeEdges (fuel : nat) (g : graph) (s : list byte * zmap Z) (t : nat) : option (list byte * zmap Z) :=
  let '(f, owns) := s in
  f1 <- put_u f (Z.of_nat t) ;;
  ne <- num_edges g t ;;
  f2 <- put_u f1 (Z.of_nat ne) ;;
  es <- all_edges g t fuel ;;
  foldM (write_edge g) es (f2, owns).
(** writeGhosts, agiIO.cpp:112-122 *)
Definition writeGhosts (f : list byte) (owns : zmap Z) : option (list byte) :=
  f1 <- put_u f (Z.of_nat (length owns)) ;;
  foldM (fun f p => f' <- put_u f (fst p) ;; put_u f' (snd p)) (ord owns) f1.
(** Ngraph::saveToFile, agiIO.cpp:141-159, on a freshly opened file *)
Definition saveToFile (fuel : nat) (g : graph) (cs : option (list coord3)) : option (list byte) :=
  f1 <- writeHeader [] g ;;
  f2 <- writeVertices fuel f1 g cs ;;
  f3 <- put_u f2 (Z.of_nat (ntypes g)) ;;
  '(f4, owns) <- foldM (writeEdges fuel g) (seq 0 (ntypes g)) (f3, []) ;;
  writeGhosts f4 owns.

(** n records, one after the other: the for loops of the readers *)
Fixpoint read_n {A} (rd : list byte -> option (A * list byte)) (n : nat) (f : list byte) : option (list A * list byte) :=
  match n with
  | 0 => Some ([], f)
  | S k => '(x, f1) <- rd f ;; '(r, f2) <- read_n rd k f1 ;; Some (x :: r, f2)
  end.
(** readHeader, agiIO.cpp:161-165 *)
Definition readHeader (f : list byte) : option (bool * list byte) :=
  '(x, f') <- get_u f ;; Some (negb (Z.eqb x 0), f').
(** readVertices, agiIO.cpp:166-187: ids, weights, coordinates (None = NULL) *)
Definition read_vertex (f : list byte) : option ((Z * Z) * list byte) :=
  '(gid, f1) <- get_u f ;; '(w, f2) <- get_d 1 f1 ;; match w with [x] => Some ((gid, x), f2) | _ => None end.
Definition read_coord (f : list byte) : option (coord3 * list byte) :=
  '(c, f1) <- get_d 3 f ;; match c with [x; y; z] => Some ((x, y, z), f1) | _ => None end.
Definition readVertices (f : list byte) : option (list (Z * Z) * option (list coord3) * list byte) :=
  '(nv, f1) <- get_u f ;;
  '(vs, f2) <- read_n read_vertex (Z.to_nat nv) f1 ;;
  '(hasC, f3) <- get_u f2 ;;
  if Z.eqb hasC 1 then '(cs, f4) <- read_n read_coord (Z.to_nat nv) f3 ;; Some (vs, Some cs, f4)
  else Some (vs, None, f3).
(** readEdges, agiIO.cpp:188-212: the type read, and per edge its id, weight and pins (degs and pins2v are the lengths
    and the concatenation of the pin lists) *)
Definition read_edge (f : list byte) : option ((Z * Z * list Z) * list byte) :=
  '(gid, f1) <- get_u f ;; '(w, f2) <- get_d 1 f1 ;;
  match w with
  | [x] => '(deg, f3) <- get_u f2 ;; '(ps, f4) <- read_n get_u (Z.to_nat deg) f3 ;; Some ((gid, x, ps), f4)
  | _ => None
  end.
Definition readEdges (f : list byte) : option (Z * list (Z * Z * list Z) * list byte) :=
  '(t, f1) <- get_u f ;; '(ne, f2) <- get_u f1 ;; '(es, f3) <- read_n read_edge (Z.to_nat ne) f2 ;; Some (t, es, f3).
(** readGhosts, agiIO.cpp:213-223 *)
Definition read_ghost (f : list byte) : option ((Z * Z) * list byte) :=
  '(v, f1) <- get_u f ;; '(o, f2) <- get_u f1 ;; Some ((v, o), f2).
Definition readGhosts (f : list byte) : option (zmap Z * list byte) :=
  '(n, f1) <- get_u f ;; '(l, f2) <- read_n read_ghost (Z.to_nat n) f1 ;;
  Some (fold_left (fun m p => zput m (fst p) (s32 (snd p))) l [], f2).
(** setCoords, agiVertex.cpp:39-44: copies num_local_verts entries *)
Definition setCoords (g : graph) (cs : list coord3) : option (list coord3) :=
  mapM (fun i => nth_error cs i) (seq 0 (nlv g)).
(** the loop over the types, agiIO.cpp:246-253: readEdges overwrites the loop variable t.  Each turn consumes at least
    eight bytes, so the length of the file bounds the number of turns. *)
Fixpoint load_types (fuel : nat) (t nt : Z) (g : graph) (f : list byte) : option (graph * list byte) :=
  if Z.ltb t nt then
    match fuel with
    | 0 => None
    | S fu =>
        '(t', es, f1) <- readEdges f ;;
        '(g', _) <- constructEdges g (map (fun e => fst (fst e)) es) (map (fun e => length (snd e)) es)
                      (concat (map snd es)) (map (fun e => snd (fst e)) es) ;;
        load_types fu (u32 (t' + 1)) nt g' f1
    end
  else Some (g, f).
(** Ngraph::loadFromFile, agiIO.cpp:225-263, on the part of rank [me] *)
Definition loadFromFile (me : Z) (f : list byte) : option (graph * option (list coord3)) :=
  '(isHG, f1) <- readHeader f ;;
  '(vs, cs, f2) <- readVertices f1 ;;
  g0 <- constructVerts me isHG (map fst vs) (map snd vs) ;;
  cs' <- (match cs with Some c => c' <- setCoords g0 c ;; Some (Some c') | None => Some None end) ;;
  '(nt, f3) <- get_u f2 ;;
  '(g1, f4) <- load_types (length f) 0 nt g0 f3 ;;
  '(owns, _) <- readGhosts f4 ;;
  g2 <- constructGhosts_owners g1 owns ;;
  Some (g2, cs').
End IO.
