(** The selector of the diffusive balancer: partition/Diffusive/src/engpar_selector.cpp.
    Simplifications: a double is an exact rational, given by [val] for the weights stored in the graph; the order in which an
    unordered_set or unordered_map is traversed is the order of a list, except where it can be observed ([ord], [pord]); the
    traversal of an iterator whose result does not depend on the loop body is done before the body ([vertex_edges],
    [edge_pins]); deallocation is omitted.  A vertex or an edge is its handle.  [None] is undefined behaviour or exhausted fuel. *)
From Verif Require Import Base GraphModel Comm TagModel MetricsModel QueueModel MigrateModel.
Local Open Scope nat_scope.

(** unordered_set::insert, find *)
Definition smem (s : list nat) (x : nat) : bool := existsb (Nat.eqb x) s.
Definition sadd (s : list nat) (x : nat) : list nat := if smem s x then s else s ++ [x].
(** operator[] of a map of sets, of a map of doubles *)
Definition at_set (m : zmap (list nat)) (d : Z) : list nat := match zfind m d with Some s => s | None => [] end.
Definition at_wgt (m : zmap Q) (d : Z) : Q := match zfind m d with Some s => s | None => 0%Q end.

Section S.
Variable val : Z -> Q.

(** ** trim and cancel *)
(** insertInteriorEdges, engpar_selector.cpp:241-251 *)
Definition interior (g : graph) (fuel v : nat) (dest : Z) (t : nat) (edges : list nat) : option (list nat) :=
  es <- vertex_edges g v t fuel ;; foldM (fun s e => r <- isResidentOn g e dest ;; Some (if r then s else sadd s e)) es edges.
(** tempInsertInteriorEdges, engpar_selector.cpp:252-264; the set it fills is empty at the call *)
Definition temp_interior (g : graph) (fuel v : nat) (dest : Z) (t : nat) (edges : list nat) : option (list nat) :=
  es <- vertex_edges g v t fuel ;;
  foldM (fun s e => if smem edges e then Some s else r <- isResidentOn g e dest ;; Some (if r then s else sadd s e)) es [].
(** Selector::weight, engpar_selector.cpp:266-273 *)
Definition set_weight (g : graph) (edges : list nat) : option Q := foldM (fun w e => x <- eweight g e ;; Some (w + val x)%Q) edges 0%Q.

(** the sets of edges per completed dimension and destination (PeerEdgeSet array) and vtx_weight *)
Record loads := mkL { l_edges : list (zmap (list nat)); l_vtx : zmap Q }.
(** one completed dimension of calculatePlanWeights, engpar_selector.cpp:302-308 *)
Definition plan_dim (g : graph) (gw : option (arr Z)) (fuel v : nat) (dest : Z) (st : list (zmap (list nat)) * zmap Q) (x : option nat * zmap (list nat))
    : option (list (zmap (list nat)) * zmap Q) :=
  let '(out, vw) := st in
  match fst x with
  | Some t => s <- interior g fuel v dest t (at_set (snd x) dest) ;; Some (out ++ [zput (snd x) dest s], vw)
  | None => w <- weight_of val g gw v ;; Some (out ++ [snd x], zput vw dest (at_wgt vw dest + w)%Q)
  end.
(** calculatePlanWeights, engpar_selector.cpp:293-311; [None] as a dimension is -1 *)
Definition plan_weights (g : graph) (gw : option (arr Z)) (fuel : nat) (dims : list (option nat)) (plan : mplan) : option (loads * list Z) :=
  foldM (fun '(l, nbs) v =>
     dest <- plan_get g plan v ;;
     '(es, vw) <- foldM (plan_dim g gw fuel v dest) (combine dims (l_edges l)) ([], l_vtx l) ;;
     Some (mkL es vw, if existsb (Z.eqb dest) nbs then nbs else nbs ++ [dest]))
    (pl_sending plan) (mkL (map (fun _ => []) dims) [], []).
(** sendPlanWeight, engpar_selector.cpp:313-328: without completed dimensions nothing is packed *)
Definition load_of (g : graph) (l : loads) (dest : Z) (x : option nat * zmap (list nat)) : option Q :=
  match fst x with Some _ => set_weight g (at_set (snd x) dest) | None => Some (at_wgt (l_vtx l) dest) end.
Record spart := mkSP { sp_g : graph; sp_gw : option (arr Z); sp_plan : mplan }.
Definition trim_send (fuel : nat) (dims : list (option nat)) (s : spart) : option (list (Z * list Q)) :=
  '(l, nbs) <- plan_weights (sp_g s) (sp_gw s) fuel dims (sp_plan s) ;;
  match dims with [] => Some [] | _ => mapM (fun d => ws <- mapM (load_of (sp_g s) l d) (combine dims (l_edges l)) ;; Some (d, ws)) nbs end.

(** Migr and CompareMigr, engpar_selector.cpp:274-291; ws has five cells *)
Definition migr_lt (a b : Z * list Q) : bool :=
  let x := hd 0%Q (snd a) in let y := hd 0%Q (snd b) in if negb (Qle_bool y x) then true else if Qeq_bool x y then Z.ltb (fst a) (fst b) else false.
(** std::set::insert *)
Fixpoint migr_insert (m : Z * list Q) (l : list (Z * list Q)) : list (Z * list Q) :=
  match l with [] => [m] | x :: r => if migr_lt m x then m :: l else if migr_lt x m then x :: migr_insert m r else l end.
(** receiveIncomingWeight, engpar_selector.cpp:330-340 *)
Definition incoming (dims : list (option nat)) (arrived : list (Z * list Q)) : option (list (Z * list Q)) :=
  foldM (fun s m => if (length (snd m) =? length dims) && (length dims <=? 5) then Some (migr_insert m s) else None) arrived [].
(** determineAvailability, engpar_selector.cpp:342-351 *)
Definition availability (g : graph) (gw : option (arr Z)) (fuel : nat) (dims : list (option nat)) (lims : list Q) (ghosts : bool) : option (bool * list Q) :=
  avail <- mapM (fun x => w <- getWeight val g gw (fst x) ghosts fuel ;; Some (snd x - w)%Q) (combine dims lims) ;;
  Some (forallb (fun a => Qle_bool 0 a) avail, avail).
(** the body of the loop of acceptWeight, engpar_selector.cpp:355-375: isAvail is overwritten for every dimension *)
Definition accept_step (st : (bool * list Q) * list (Z * list Q)) (m : Z * list Q) : (bool * list Q) * list (Z * list Q) :=
  let '((is, avail), acc) := st in
  if is then
    let space := forallb (fun x => Qle_bool (fst x) (snd x)) (combine (snd m) avail) in
    let take := if space then snd m else avail in
    let avail' := map (fun x => (fst x - snd x)%Q) (combine avail take) in
    ((fold_left (fun _ a => negb (Qle_bool a 0)) avail' is, avail'), zput acc (fst m) take)
  else ((is, avail), zput acc (fst m) (map (fun _ => 0%Q) (snd m))).
Definition accept (st : bool * list Q) (inc : list (Z * list Q)) : list (Z * list Q) := snd (fold_left accept_step inc (st, [])).
(** trim up to the answers, engpar_selector.cpp:403-419 *)
Definition trim_answer (fuel : nat) (dims : list (option nat)) (lims : list Q) (ghosts : bool) (s : spart) (arrived : list (Z * list Q)) : option (list (Z * list Q)) :=
  inc <- incoming dims arrived ;; st <- availability (sp_g s) (sp_gw s) fuel dims lims ghosts ;; Some (accept st inc).
(** gatherCapacities, engpar_selector.cpp:387-398 *)
Definition gather (arrived : list (Z * list Q)) : zmap (list Q) := fold_left (fun m x => zput m (fst x) (snd x)) arrived [].

(** one completed dimension of the test in cancel, engpar_selector.cpp:458-470: the temporary set and whether there is space *)
Definition cancel_dim (g : graph) (gw : option (arr Z)) (fuel v : nat) (dest : Z) (vw : zmap Q) (cap : option (list Q)) (st : list (list nat) * bool * nat) (x : option nat * zmap (list nat))
    : option (list (list nat) * bool * nat) :=
  let '(tmps, space, i) := st in
  c <- cap ;; ci <- nth_error c i ;;
  match fst x with
  | Some t =>
      tmp <- temp_interior g fuel v dest t (at_set (snd x) dest) ;;
      a <- set_weight g (at_set (snd x) dest) ;; b <- set_weight g tmp ;;
      Some (tmps ++ [tmp], space && Qle_bool (a + b) ci, i + 1)
  | None => w <- weight_of val g gw v ;; Some (tmps ++ [[]], space && Qle_bool (at_wgt vw dest + w) ci, i + 1)
  end.
(** combineSets and the vertex weight, engpar_selector.cpp:471-479 *)
Definition cancel_add (g : graph) (gw : option (arr Z)) (v : nat) (dest : Z) (st : list (zmap (list nat)) * zmap Q) (x : option nat * zmap (list nat) * list nat)
    : option (list (zmap (list nat)) * zmap Q) :=
  let '(out, vw) := st in
  match fst (fst x) with
  | Some _ => Some (out ++ [zput (snd (fst x)) dest (fold_left sadd (snd x) (at_set (snd (fst x)) dest))], vw)
  | None => w <- weight_of val g gw v ;; Some (out ++ [snd (fst x)], zput vw dest (at_wgt vw dest + w)%Q)
  end.
Definition cancel_step (g : graph) (gw : option (arr Z)) (fuel : nat) (dims : list (option nat)) (plan : mplan) (cap : zmap (list Q))
    (st : loads * list (nat * Z)) (v : nat) : option (loads * list (nat * Z)) :=
  let '(l, keep) := st in
  dest <- plan_get g plan v ;;
  '(tmps, space, _) <- foldM (cancel_dim g gw fuel v dest (l_vtx l) (zfind cap dest)) (combine dims (l_edges l)) ([], true, 0) ;;
  if space then
    '(es, vw) <- foldM (cancel_add g gw v dest) (combine (combine dims (l_edges l)) tmps) ([], l_vtx l) ;; Some (mkL es vw, keep ++ [(v, dest)])
  else Some (l, keep).
(** cancel, engpar_selector.cpp:442-491 *)
Definition cancel (fuel : nat) (dims : list (option nat)) (s : spart) (cap : zmap (list Q)) : option mplan :=
  '(_, keep) <- foldM (cancel_step (sp_g s) (sp_gw s) fuel dims (sp_plan s) cap) (pl_sending (sp_plan s)) (mkL (map (fun _ => []) dims) [], []) ;;
  p0 <- plan_clear (sp_plan s) ;; foldM (fun p k => '(p', _) <- plan_insert (sp_g s) p (fst k) (snd k) ;; Some p') keep p0.

(** trim followed by cancel on every part, engpar_balancer.cpp:146-148; the answers of a part travel with its state *)
Definition trim_cancel (fuel : nat) (dims : list (option nat)) (lims : list Q) (ghosts : bool) (sts : list spart) (Q : list mplan -> Prop) : Prop :=
  phase (trim_send fuel dims) (fun s r => ans <- trim_answer fuel dims lims ghosts s r ;; Some (s, ans)) sts (fun sa =>
  phase (fun x => Some (snd x)) (fun x r => cancel fuel dims (fst x) (gather r)) sa Q).
(** the same with messages arriving in order of their senders *)
Definition run_trim_cancel (fuel : nat) (dims : list (option nat)) (lims : list Q) (ghosts : bool) (sts : list spart) : option (list mplan) :=
  sa <- run_phase (trim_send fuel dims) (fun s r => ans <- trim_answer fuel dims lims ghosts s r ;; Some (s, ans)) sts ;;
  run_phase (fun x => Some (snd x)) (fun x r => cancel fuel dims (fst x) (gather r)) sa.
(** calculatePlanWeight and updatePartWeight, engpar_selector.cpp:493-525 *)
Definition plan_weight (g : graph) (gw : option (arr Z)) (fuel : nat) (dim : option nat) (plan : mplan) : option (zmap Q) :=
  match dim with
  | None => foldM (fun m v => d <- plan_get g plan v ;; w <- weight_of val g gw v ;; Some (zput m d (at_wgt m d + w)%Q)) (pl_sending plan) []
  | Some t =>
      pe <- foldM (fun m v => d <- plan_get g plan v ;; s <- interior g fuel v d t (at_set m d) ;; Some (zput m d s)) (pl_sending plan) [] ;;
      foldM (fun m x => w <- set_weight g (snd x) ;; Some (zput m (fst x) w)) pe []
  end.
Definition update_part_weight (g : graph) (gw : option (arr Z)) (fuel : nat) (dim : option nat) (plan : mplan) (wp : list (Z * zmap Q)) : option (list (Z * zmap Q)) :=
  ws <- plan_weight g gw fuel dim plan ;;
  Some (map (fun it => (fst it, fold_left (fun m x => zput m (fst x) (at_wgt m (fst x) - snd x)%Q) ws (snd it))) wp).

(** ** Cavities *)
(** the order in which a cavity is traversed, the order in which a map of peers is traversed *)
Variable ord : list nat -> list nat.
Variable pord : list (Z * list nat) -> list (Z * list nat).
(** getCavity, engpar_selector.cpp:19-27 *)
Definition getCavity (g : graph) (fuel e : nat) : option (list nat) :=
  ps <- edge_pins g e fuel ;; foldM (fun c v => o <- owner g v ;; Some (if Z.eqb o (self g) then sadd c v else c)) ps [].
(** the map cavities: operator[], insert (does not replace), erase *)
Definition cmap := list (nat * list nat).
Fixpoint cav_find (m : cmap) (e : nat) : option (list nat) := match m with [] => None | (k, c) :: r => if k =? e then Some c else cav_find r e end.
Definition cav_insert (m : cmap) (e : nat) (c : list nat) : cmap := match cav_find m e with Some _ => m | None => m ++ [(e, c)] end.
Definition cav_erase (m : cmap) (e : nat) : cmap := filter (fun x => negb (fst x =? e)) m.
(** constructCavities, engpar_selector.cpp:29-42; cav_sizes has a hundred cells *)
Definition constructCavities (g : graph) (fuel : nat) (q : sarr) : option (sarr * cmap) :=
  let q0 := sa_start q in
  foldM (fun '(q, m) i => e <- sa_get q i ;; c <- getCavity g fuel e ;; q' <- sa_add q e ;;
           if length c <? 100 then Some (q', cav_insert m e c) else None) (seq 0 (sa_size q0)) (q0, []).
(** updateCavities, engpar_selector.cpp:44-52 *)
Definition updateCavities (plan : mplan) (m : cmap) : cmap := map (fun x => (fst x, filter (fun v => negb (smem (pl_sending plan) v)) (snd x))) m.
(** getCavityPeers, engpar_selector.cpp:54-99 *)
Definition peer_add (m : zmap (list nat)) (p : Z) (e : nat) : zmap (list nat) := zput m p (sadd (at_set m p) e).
Definition cavity_edges (g : graph) (fuel : nat) (cav : list nat) : option (list nat) :=
  foldM (fun s v => es <- vertex_edges g v 0 fuel ;; Some (fold_left sadd es s)) (ord cav) [].
Definition peer_edge (g : graph) (fuel : nat) (plan : mplan) (m : zmap (list nat)) (e : nat) : option (zmap (list nat)) :=
  ps <- edge_pins g e fuel ;;
  foldM (fun m v => o <- owner g v ;;
     if negb (Z.eqb o (self g)) then Some (peer_add m o e)
     else b <- plan_has g plan v ;; if b then d <- plan_get g plan v ;; Some (peer_add m d e) else Some m) ps m.
(** std::map<lid_t,part_t>::insert keeps the first part with a given number of edges; the map is read backwards *)
Fixpoint count_insert (l : list (nat * Z)) (k : nat) (p : Z) : list (nat * Z) :=
  match l with [] => [(k, p)] | (k', p') :: r => if k =? k' then l else if k' <? k then (k, p) :: l else (k', p') :: count_insert r k p end.
Definition getCavityPeers (g : graph) (fuel : nat) (plan : mplan) (cav : list nat) : option (list Z) :=
  es <- cavity_edges g fuel cav ;; m <- foldM (peer_edge g fuel plan) es [] ;;
  Some (map snd (fold_left (fun l x => count_insert l (length (snd x)) (fst x)) (pord m) [])).
(** addCavity, engpar_selector.cpp:101-127 *)
Definition addCavity (g : graph) (gw : option (arr Z)) (fuel : nat) (cav : list nat) (peer : Z) (plan : mplan) (dim : option nat) : option (mplan * Q) :=
  '(plan', w, tes) <- foldM (fun '(plan, w, tes) v =>
     '(plan', fresh) <- plan_insert g plan v peer ;;
     if fresh then
       match dim with
       | None => x <- weight_of val g gw v ;; Some (plan', (w + x)%Q, tes)
       | Some t => es <- vertex_edges g v t fuel ;; Some (plan', w, fold_left sadd es tes)
       end
     else Some (plan', w, tes)) (ord cav) (plan, 0%Q, []) ;;
  w' <- foldM (fun w e => r <- isResidentOn g e peer ;; if r then Some w else x <- eweight g e ;; Some (w + val x)%Q) tes w ;;
  Some (plan', w').
(** edgeCutGrowth, engpar_selector.cpp:170-187, compared with the limit: a division by zero gives inf or nan, which is not below it *)
Definition edge_growth_ok (g : graph) (fuel : nat) (cav : list nat) (peer : Z) (limit : Q) : option bool :=
  '(cut, uncut) <- foldM (fun s v => es <- vertex_edges g v 0 fuel ;;
     foldM (fun '(cut, uncut) e => r <- isResidentOn g e peer ;; Some (if r then (cut + 1, uncut) else (cut, uncut + 1))) es s) (ord cav) (0, 0) ;;
  Some (match qdiv (inject_Z (Z.of_nat uncut)) (inject_Z (Z.of_nat cut)) with Some r => negb (Qle_bool limit r) | None => false end).

(** the state of a Selector and of the plan it fills *)
Record sel := mkSel { s_q : sarr; s_cav : cmap; s_sending : zmap Q; s_plan : mplan; s_w : Q }.
(** the loop over the peers, engpar_selector.cpp:201-216 *)
Fixpoint try_peers (g : graph) (gw : option (arr Z)) (fuel : nat) (targets : cont Q) (limit : Q) (dim : option nat) (cav : list nat) (peers : list Z) (st : sel) : option (sel * bool) :=
  match peers with
  | [] => Some (st, false)
  | p :: r =>
      growth <- (if Qle_bool limit 0 then Some true else edge_growth_ok g fuel cav p limit) ;;
      if chas targets p && negb (Qle_bool (cget 0%Q targets p) (at_wgt (s_sending st) p)) && growth then
        '(plan', w) <- addCavity g gw fuel cav p (s_plan st) dim ;;
        Some (mkSel (s_q st) (s_cav st) (zput (s_sending st) p (at_wgt (s_sending st) p + w)%Q) plan' (s_w st + w)%Q, true)
      else try_peers g gw fuel targets limit dim cav r st
  end.
(** the body of select, engpar_selector.cpp:194-221 *)
Definition select_edge (g : graph) (gw : option (arr Z)) (fuel : nat) (targets : cont Q) (limit : Q) (cavSize : nat) (dim : option nat) (st : sel) (e : nat) : option sel :=
  let cav := match cav_find (s_cav st) e with Some c => c | None => [] end in
  peers <- getCavityPeers g fuel (s_plan st) cav ;;
  '(st', sent) <- (if length cav <? cavSize then try_peers g gw fuel targets limit dim cav peers st else Some (st, false)) ;;
  if sent then Some (mkSel (s_q st') (cav_erase (s_cav st') e) (s_sending st') (s_plan st') (s_w st'))
  else q' <- sa_add (s_q st') e ;; Some (mkSel q' (s_cav st') (s_sending st') (s_plan st') (s_w st')).
Fixpoint select_loop (g : graph) (gw : option (arr Z)) (fuel : nat) (targets : cont Q) (limit : Q) (cavSize : nat) (dim : option nat) (is : list nat) (st : sel) : option sel :=
  match is with
  | [] => Some st
  | i :: r =>
      if negb (Qle_bool (s_w st) (c_total targets)) then Some st
      else e <- sa_get (s_q st) i ;; st' <- select_edge g gw fuel targets limit cavSize dim st e ;; select_loop g gw fuel targets limit cavSize dim r st'
  end.
(** select, engpar_selector.cpp:189-224 *)
Definition select (g : graph) (gw : option (arr Z)) (fuel : nat) (targets : cont Q) (limit : Q) (cavSize : nat) (dim : option nat) (st : sel) : option sel :=
  let q0 := sa_start (s_q st) in
  st' <- select_loop g gw fuel targets limit cavSize dim (seq 0 (sa_size q0)) (mkSel q0 (s_cav st) (s_sending st) (s_plan st) (s_w st)) ;;
  Some (mkSel (s_q st') (updateCavities (s_plan st') (s_cav st')) (s_sending st') (s_plan st') (s_w st')).
(** the constructor of Selector, engpar_selector.cpp:531-538, then the loop over the sizes of a step, engpar_balancer.cpp:136-141 *)
Definition new_selector (g : graph) (fuel : nat) (q : sarr) (plan : mplan) : option sel :=
  '(q', m) <- constructCavities g fuel q ;; Some (mkSel q' m [] plan 0%Q).
Definition select_sizes (g : graph) (gw : option (arr Z)) (fuel : nat) (targets : cont Q) (limit : Q) (dim : option nat) (st : sel) : option sel :=
  foldM (fun st k => select g gw fuel targets limit k dim st) [2; 4; 6; 8; 10; 12] st.

(** getCavityConnections and isPartiallyConnected, engpar_selector.cpp:128-168 *)
Fixpoint occ_add {K} (eqb : K -> K -> bool) (m : list (K * nat)) (k : K) : list (K * nat) :=
  match m with [] => [(k, 1)] | (k', n) :: r => if eqb k' k then (k', n + 1) :: r else (k', n) :: occ_add eqb r k end.
Definition pair_eqb (a b : nat * nat) : bool := (fst a =? fst b) && (snd a =? snd b).
Definition connections (g : graph) (fuel : nat) (con minCon : nat) (cav : list nat) : option (list ((nat * nat) * nat)) :=
  foldM (fun (cs : list ((nat * nat) * nat)) u => ns <- adjacent g u con fuel ;;
     let occ := fold_left (fun o v => if v =? u then o else occ_add Nat.eqb o v) ns ([] : list (nat * nat)) in
     Some (fold_left (fun cs o => if minCon <=? snd o then occ_add pair_eqb cs (Nat.min u (fst o), Nat.max u (fst o)) else cs) occ cs)) (ord cav) [].
Definition partially_connected (g : graph) (fuel : nat) (con minCon : nat) (plan : mplan) (cav : list nat) : option bool :=
  cs <- connections g fuel con minCon cav ;;
  foldM (fun (b : bool) c => if b then if snd c =? 2 then Some true else
            x <- plan_has g plan (fst (fst c)) ;; y <- plan_has g plan (snd (fst c)) ;; Some (x || y)
          else Some false) cs true.
(** selectDisconnected, engpar_selector.cpp:226-240: the first peer is read even if there is none; the edges are not put back *)
Definition selectDisconnected (g : graph) (gw : option (arr Z)) (fuel : nat) (con minCon : nat) (dim : option nat) (st : sel) : option sel :=
  if minCon <=? 1 then Some st
  else
    let q0 := sa_start (s_q st) in
    foldM (fun st i =>
      e <- sa_get (s_q st) i ;;
      let cav := match cav_find (s_cav st) e with Some c => c | None => [] end in
      peers <- getCavityPeers g fuel (s_plan st) cav ;;
      b <- partially_connected g fuel con minCon (s_plan st) cav ;;
      if b then p <- hd_error peers ;; '(plan', _) <- addCavity g gw fuel cav p (s_plan st) dim ;;
                Some (mkSel (s_q st) (s_cav st) (s_sending st) plan' (s_w st))
      else Some st) (seq 0 (sa_size q0)) (mkSel q0 (s_cav st) (s_sending st) (s_plan st) (s_w st)).
End S.
