(** writeVTK, agi/agiVTK.cpp: the .vtu file that each part writes and the .pvtu file of part 0.
    A file is the record of the numbers printed in it (XML text omitted; %f rounds to six digits, here the exact value is kept).
    A coordinate triple is a token (Z) with a value [xyz] (uninterpreted doubles, arithmetic over Q); NaN (division by a degree of 0) is [NaN].
    The prefix of the file names is given by its length. *)
From Verif Require Import Base GraphModel Comm TagModel MigrateModel.
From Coq Require Import QArith.
Local Open Scope nat_scope.

(** etype argument, agi.h:20-26: NO_TYPE, VTX_TYPE or an edge type *)
Inductive etype := NoType | VtxType | EdgeType (t : nat).
(** a printed point *)
Inductive point := Pt (x y z : Q) | NaN.
(** the data arrays of a piece, by the attribute Name, agiVTK.cpp:158-212 *)
Inductive aname := APart | AVorE | ATag.

(** one .vtu piece, agiVTK.cpp:269-287: the attributes NumberOfPoints and NumberOfCells, the DataArrays Points, connectivity, offsets and types,
    and the arrays inside PointData in the order in which they are printed *)
Record vtu := mkVtu { f_npoints : nat; f_ncells : nat; f_points : list point; f_conn : list nat; f_offsets : list nat; f_types : list nat;
                      f_data : list (aname * list Z) }.
(** the .pvtu file, agiVTK.cpp:234-268: the arrays it declares (PPointData) and the ranks of its pieces *)
Record pvtu := mkPvtu { p_data : list aname; p_pieces : list nat }.

(** Ngraph::coord, agiVertex.cpp:46-57: throws for a ghost and for an invalid vertex; [cs] is local_coords *)
Definition vcoord (g : graph) (cs : list Z) (h : nat) : option Z := l <- vlid h ;; if nlv g <=? l then None else nth_error cs l.

(** agiVTK.cpp:19-26: one request per ghost, sent to its owner *)
Definition vtk_requests (fuel : nat) (g : graph) : option (list (Z * Z)) :=
  hs <- all_ghosts g fuel ;; mapM (fun h => o <- owner g h ;; gid <- vgid g h ;; Some (o, gid)) hs.
(** agiVTK.cpp:27-45: the requests are stored and answered in order of arrival; findGID of an unknown id dereferences end() *)
Definition vtk_answers (g : graph) (cs : list Z) (arrived : list (Z * Z)) : option (list (Z * (Z * Z))) :=
  mapM (fun r => h <- findGID g (snd r) ;; c <- vcoord g cs h ;; Some (fst r, (snd r, c))) arrived.
(** agiVTK.cpp:18, 46-56: ghost_cs; the assertion; a write at a negative index is undefined *)
Definition vtk_ghosts (g : graph) (arrived : list (Z * (Z * Z))) : option (arr Z) :=
  foldM (fun a r => h <- findGID g (fst (snd r)) ;; o <- owner g h ;; if Z.eqb o (self g) then None else
           l <- vlid h ;; if l <? nlv g then None else aset a (l - nlv g) (snd (snd r))) arrived (anew (ngv g)).

Section V.
Variable xyz : Z -> Q * Q * Q.
(** agiVTK.cpp:68-69, 73: c += coordinates of one pin *)
Definition padd (a b : Q * Q * Q) : Q * Q * Q := let '(x, y, z) := a in let '(x', y', z') := b in (x + x', y + y', z + z')%Q.
(** agiVTK.cpp:77-80: c[i] /= deg *)
Definition pdiv (a : Q * Q * Q) (d : nat) : point :=
  if d =? 0 then NaN else let '(x, y, z) := a in let q := inject_Z (Z.of_nat d) in Pt (x / q)%Q (y / q)%Q (z / q)%Q.
(** agiVTK.cpp:66-74: the coordinates used for one pin *)
Definition pin_coord (g : graph) (cs : list Z) (gcs : arr Z) (v : nat) : option Z :=
  o <- owner g v ;;
  if negb (Z.eqb o (self g)) then l <- vlid v ;; if l <? nlv g then None else aget gcs (l - nlv g) else vcoord g cs v.
(** agiVTK.cpp:62-81: the point of one hyperedge *)
Definition edge_point (fuel : nat) (g : graph) (cs : list Z) (gcs : arr Z) (e : nat) : option point :=
  vs <- edge_pins g e fuel ;; ps <- mapM (pin_coord g cs gcs) vs ;; d <- edegree g e ;;
  Some (pdiv (fold_left (fun c p => padd c (xyz p)) ps (0, 0, 0)%Q) d).
(** writePoints, agiVTK.cpp:6-87, after the exchange of coordinates *)
Definition writePoints (fuel : nat) (g : graph) (cs : list Z) (gcs : arr Z) : option (list point) :=
  vs <- all_verts g fuel ;; vp <- mapM (fun v => c <- vcoord g cs v ;; let '(x, y, z) := xyz c in Some (Pt x y z)) vs ;;
  if hyper g then es <- all_edges g 0 fuel ;; ep <- mapM (edge_point fuel g cs gcs) es ;; Some (vp ++ ep) else Some vp.

(** the pins of an edge that belong to this part, agiVTK.cpp:96-104, 109-117, 121-129, 219-226 *)
Definition local_pins (fuel : nat) (g : graph) (e : nat) : option (list nat) :=
  vs <- edge_pins g e fuel ;; os <- mapM (owner g) vs ;; Some (map fst (filter (fun x => Z.eqb (snd x) (self g)) (combine vs os))).
(** getNumCells, agiVTK.cpp:214-232 *)
Definition getNumCells (fuel : nat) (g : graph) : option nat :=
  if hyper g then es <- all_edges g 0 fuel ;; ls <- mapM (local_pins fuel g) es ;; Some (nsum (map (@length nat) ls)) else num_edges g 0.
(** writeCells, agiVTK.cpp:89-157: connectivity, offsets (off+=2 for every line) and types (3 = VTK_LINE) *)
Definition lines (n : nat) : list nat * list nat := (map (fun i => 2 * (i + 1)) (seq 0 n), repeat 3 n).
Definition writeCells (fuel : nat) (g : graph) : option (list nat * list nat * list nat) :=
  es <- all_edges g 0 fuel ;;
  if hyper g then
    ls <- mapM (fun e => vs <- local_pins fuel g e ;; k <- elid g e ;; mapM (fun v => l <- vlid v ;; Some [k + nlv g; l]) vs) es ;;
    let '(o, t) := lines (length (concat ls)) in Some (concat (concat ls), o, t)
  else
    ls <- mapM (fun e => u <- u_of g e ;; v <- v_of g e ;; a <- vlid u ;; b <- vlid v ;; Some [a; b]) es ;;
    let '(o, t) := lines (length es) in Some (concat ls, o, t).
(** the condition under which the tag is printed, agiVTK.cpp:188, 245 *)
Definition shows_tag (g : graph) (tag : option (arr Z)) (t : etype) : bool :=
  match tag, t with None, _ => false | _, NoType => false | _, VtxType => true | _, EdgeType _ => hyper g end.
(** writePointData, agiVTK.cpp:158-212 *)
Definition writePointData (fuel : nat) (g : graph) (tag : option (arr Z)) (t : etype) : option (list (aname * list Z)) :=
  vs <- all_verts g fuel ;;
  es <- (if hyper g then all_edges g 0 fuel else Some []) ;;
  let part := (APart, map (fun _ => self g) vs ++ map (fun _ => self g) es) in
  let vore := if hyper g then [(AVorE, map (fun _ => 0%Z) vs ++ map (fun _ => 1%Z) es)] else [] in
  tg <- (if shows_tag g tag t then
           match tag with
           | Some a => tv <- (match t with VtxType => mapM (get_vtag g a) vs | _ => Some (map (fun _ => (-1)%Z) vs) end) ;;
                       te <- (match t with EdgeType 0 => mapM (get_etag g a) es | _ => Some (map (fun _ => (-1)%Z) es) end) ;;
                       Some [(ATag, tv ++ te)]
           | None => None
           end
         else Some []) ;;
  Some (part :: vore ++ tg).
(** the length of the decimal form of a rank, printed by %d *)
Fixpoint digits (fuel n : nat) : nat := match fuel with 0 => 1 | S f => if n <? 10 then 1 else 1 + digits f (n / 10) end.
(** sprintf into char[256], agiVTK.cpp:252-254 and 270-271: prefix, rank, ".vtu" and the final 0 must fit *)
Definition name_fits (prefix rank : nat) : bool := prefix + digits rank rank + 5 <=? 256.
(** writeVTK, agiVTK.cpp:269-296, on one part with the ghost coordinates that it received *)
Definition write_vtu (fuel : nat) (prefix : nat) (g : graph) (cs : list Z) (gcs : arr Z) (tag : option (arr Z)) (t : etype) : option vtu :=
  if name_fits prefix (Z.to_nat (self g)) then
    nc <- getNumCells fuel g ;; ne <- num_edges g 0 ;;
    ps <- writePoints fuel g cs gcs ;; '(c, o, ty) <- writeCells fuel g ;; d <- writePointData fuel g tag t ;;
    Some (mkVtu (nlv g + (if hyper g then ne else 0)) nc ps c o ty d)
  else None.
(** writePVTU with writePPointData and writePSources, agiVTK.cpp:240-268; only part 0 writes it, agiVTK.cpp:289-295 (".pvtu" has one letter more and no rank) *)
Definition write_pvtu (peers prefix : nat) (g : graph) (tag : option (arr Z)) (t : etype) : option pvtu :=
  if forallb (name_fits prefix) (seq 0 peers) && (prefix + 6 <=? 256) then
    Some (mkPvtu (APart :: (if hyper g then [AVorE] else []) ++ (if shows_tag g tag t then [ATag] else [])) (seq 0 peers))
  else None.

(** one part calling writeVTK: its graph, coordinates and tag *)
Record vpart := mkVP { v_g : graph; v_cs : list Z; v_tag : option (arr Z) }.
(** the whole call on all parts: two communication phases, then the files; for every order in which messages arrive [Q] holds of the files *)
Definition writeVTK (fuel prefix : nat) (t : etype) (st : list vpart) (Q : list vtu -> option pvtu -> Prop) : Prop :=
  phase (fun s => vtk_requests fuel (v_g s)) (fun s r => a <- vtk_answers (v_g s) (v_cs s) r ;; Some (s, a)) st (fun st1 =>
  phase (fun s => Some (snd s)) (fun s r => gcs <- vtk_ghosts (v_g (fst s)) r ;; write_vtu fuel prefix (v_g (fst s)) (v_cs (fst s)) gcs (v_tag (fst s)) t) st1 (fun files =>
  match st with
  | s0 :: _ => exists pf, write_pvtu (length st) prefix (v_g s0) (v_tag s0) t = Some pf /\ Q files (Some pf)
  | [] => Q files None
  end)).
End V.
