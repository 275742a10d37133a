(** Model of EnGPar_ParMETIS, partition/Multilevel/engpar_parmetis.cpp:16-163: the distributed CSR graph handed to
    ParMETIS_V3_PartKway, and the plan made from its answer.  ParMETIS itself is an arbitrary function.
    Simplifications: weights are exact integers (the code truncates each double to idx_t/int); idx_t, int and gid_t are
    unbounded; MPI_Allreduce is the sum over the parts; the order in which an unordered_map is iterated is given by an
    arbitrary function [ord].
    PCU_Comm_Self() is [self g]; input->self is a separate number (engpar_split.cpp:30 sets it before PCU_Switch_Comm). *)
From Verif Require Import Base GraphModel Comm TagModel MigrateModel.

(** one part: its graph and input->self *)
Record pmpart := mkPM { pm_g : graph; pm_self : Z }.

(** what one part writes into vtxdist before the reduction, lines 25-31 *)
Definition vtxdist_share (P : nat) (s : pmpart) : list Z :=
  map (fun i => if (self (pm_g s) <? Z.of_nat i)%Z then Z.of_nat (nlv (pm_g s)) else 0%Z) (seq 0 (P + 1)).
(** MPI_Allreduce(MPI_IN_PLACE, vtxdist, Peers+1, MPI_SUM), lines 32-37 *)
Definition allreduce_sum (n : nat) (ls : list (list Z)) : list Z :=
  map (fun i => zsum (map (fun l => nth i l 0%Z) ls)) (seq 0 n).
Definition vtxdist_of (sts : list pmpart) : list Z :=
  allreduce_sum (length sts + 1) (map (vtxdist_share (length sts)) sts).

(** the pins met by the nested loops of lines 51-67, in order *)
Definition pins_around (g : graph) (t fuel h : nat) : option (list nat) :=
  es <- vertex_edges g h t fuel ;; ls <- mapM (fun e => edge_pins g e fuel) es ;; Some (concat ls).
(** neighbors[other]=1 on an unordered_map: the set of keys, line 62 *)
Definition ins_key (l : list nat) (h : nat) : list nat := if existsb (Nat.eqb h) l then l else l ++ [h].
(** res.insert(owner), line 64 *)
Definition ins_part (l : list Z) (o : Z) : list Z := if existsb (Z.eqb o) l then l else l ++ [o].
(** one pin, lines 57-65; state: neighbors, res *)
Definition around1 (g : graph) (isLocal : bool) (me : Z) (h : nat) (s : list nat * list Z) (x : nat) : option (list nat * list Z) :=
  if x =? h then Some s
  else o <- owner g x ;;
       let nb := if negb isLocal || Z.eqb o me then ins_key (fst s) x else fst s in
       let res := if negb isLocal then ins_part (snd s) o else snd s in
       Some (nb, res).

(** the first pass, lines 39-79: gids, num_degs and the records packed *)
Record pass1 := mkP1 { p1_gids : arr Z; p1_degs : nat; p1_msgs : list (Z * (Z * Z)) }.
Definition pass1_vtx (isLocal : bool) (t fuel : nat) (dist : list Z) (s : pmpart) (a : pass1) (ih : nat * nat) : option pass1 :=
  let g := pm_g s in let '(i, h) := ih in
  base <- (if (self g <? 0)%Z then None else nth_error dist (Z.to_nat (self g))) ;;
  let new := (base + Z.of_nat i)%Z in
  gids <- aset (p1_gids a) i new ;;
  xs <- pins_around g t fuel h ;;
  '(nb, res) <- foldM (around1 g isLocal (pm_self s) h) xs ([], []) ;;
  gid <- vgid g h ;;
  Some (mkP1 gids (p1_degs a + length nb)
     (p1_msgs a ++ map (fun q => (q, (gid, new))) (filter (fun q => negb (Z.eqb q (self g))) res))).
Definition run_pass1 (isLocal : bool) (t fuel : nat) (dist : list Z) (s : pmpart) : option pass1 :=
  vs <- all_verts (pm_g s) fuel ;;
  foldM (pass1_vtx isLocal t fuel dist s) (combine (seq 0 (length vs)) vs) (mkP1 (anew (nlv (pm_g s))) 0 []).

(** ghost_gids, lines 82-87 *)
Definition ghost_numbers (arrived : list (Z * (Z * Z))) : zmap Z :=
  fold_left (fun m r => zset m (fst (snd r)) (snd (snd r))) arrived [].

(** neighbors[other] += weight, line 107; a new key starts at 0 *)
Fixpoint add_weight (m : list (nat * Z)) (h : nat) (w : Z) : list (nat * Z) :=
  match m with
  | [] => [(h, w)]
  | (k, x) :: r => if k =? h then (k, (x + w)%Z) :: r else (k, x) :: add_weight r h w
  end.
(** the loop over adjacent(vtx), lines 101-109; edge(gitr) is the edge of the iterator, agiIterate.cpp:112-114 *)
Fixpoint weigh (g : graph) (h fuel : nat) (it : giter) (m : list (nat * Z)) : option (list (nat * Z)) :=
  match fuel with
  | 0 => None
  | S f => '(x, it') <- adj_step g it ;;
           if x =? 0 then Some m
           else if x =? h then weigh g h f it' m
           else w <- eweight g (gi_edge it') ;; weigh g h f it' (add_weight m x w)
  end.

(** the CSR arrays *)
Record csr := mkCsr { c_xadj : arr Z; c_adjncy : arr Z; c_vwgts : arr Z; c_ewgts : arr Z }.
(** one neighbour, lines 110-122; state: deg, adjncy, ewgts *)
Definition put_nb (g : graph) (isLocal : bool) (me : Z) (gids : arr Z) (gh : zmap Z) (s : nat * arr Z * arr Z) (nw : nat * Z) : option (nat * arr Z * arr Z) :=
  let '(deg, adj, ew) := s in
  o <- owner g (fst nw) ;;
  if Z.eqb o me then
    l <- vlid (fst nw) ;; x <- aget gids l ;;
    adj' <- aset adj deg x ;; ew' <- aset ew deg (snd nw) ;; Some (deg + 1, adj', ew')
  else if negb isLocal then
    gid <- vgid g (fst nw) ;;
    adj' <- aset adj deg (match zfind gh gid with Some x => x | None => 0%Z end) ;;
    ew' <- aset ew deg (snd nw) ;; Some (deg + 1, adj', ew')
  else Some s.
(** one vertex of the second pass, lines 98-128 *)
Definition pass2_vtx (isLocal : bool) (t fuel : nat) (ord : list (nat * Z) -> list (nat * Z)) (s : pmpart) (gids : arr Z) (gh : zmap Z)
    (a : nat * csr) (ih : nat * nat) : option (nat * csr) :=
  let g := pm_g s in let '(i, h) := ih in let '(deg, c) := a in
  w <- vweight g h ;; vw <- aset (c_vwgts c) i w ;;
  it <- adj_begin g h t ;; m <- weigh g h fuel it [] ;;
  '(deg', adj, ew) <- foldM (put_nb g isLocal (pm_self s) gids gh) (ord m) (deg, c_adjncy c, c_ewgts c) ;;
  xa <- aset (c_xadj c) (i + 1) (Z.of_nat deg') ;;
  Some (deg', mkCsr xa adj vw ew).
(** lines 89-129 *)
Definition run_pass2 (isLocal : bool) (t fuel : nat) (ord : list (nat * Z) -> list (nat * Z)) (s : pmpart) (p1 : pass1) (arrived : list (Z * (Z * Z))) : option csr :=
  let g := pm_g s in
  vs <- all_verts g fuel ;;
  xa0 <- aset (anew (nlv g + 1)) 0 0%Z ;;
  r <- foldM (pass2_vtx isLocal t fuel ord s (p1_gids p1) (ghost_numbers arrived)) (combine (seq 0 (length vs)) vs)
     (0, mkCsr xa0 (anew (p1_degs p1)) (anew (nlv g)) (anew (p1_degs p1))) ;;
  Some (snd r).

(** the whole computation up to the call of ParMETIS, lines 16-129, on all parts of the current communicator *)
Definition parmetis_input (isLocal : bool) (t fuel : nat) (ord : list (nat * Z) -> list (nat * Z)) (sts : list pmpart)
    (Q : list Z -> list csr -> Prop) : Prop :=
  let dist := vtxdist_of sts in
  local (fun s => p <- run_pass1 isLocal t fuel dist s ;; Some (s, p)) sts (fun sp =>
  phase (fun x : pmpart * pass1 => Some (p1_msgs (snd x))) (fun x arr => run_pass2 isLocal t fuel ord (fst x) (snd x) arr) sp (Q dist)).
(** one particular execution *)
Definition run_parmetis (isLocal : bool) (t fuel : nat) (ord : list (nat * Z) -> list (nat * Z)) (sts : list pmpart) : option (list Z * list csr) :=
  let dist := vtxdist_of sts in
  sp <- mapM (fun s => p <- run_pass1 isLocal t fuel dist s ;; Some (s, p)) sts ;;
  r <- run_phase (fun x : pmpart * pass1 => Some (p1_msgs (snd x))) (fun x arr => run_pass2 isLocal t fuel ord (fst x) (snd x) arr) sp ;;
  Some (dist, r).

(** lines 155-161: the plan sends the i-th vertex where ParMETIS puts it *)
Definition plan_of (fuel : nat) (g : graph) (new_partition : list Z) : option mplan :=
  p0 <- plan_new g fuel ;; vs <- all_verts g fuel ;;
  foldM (fun p ih => d <- nth_error new_partition (fst ih) ;; '(p', _) <- plan_insert g p (snd ih) d ;; Some p')
    (combine (seq 0 (length vs)) vs) p0.
