(** The queue of cut edges: partition/Diffusive/src/engpar_queue.h, engpar_queue.cpp.
    Simplifications: int and lid_t are unbounded; the traversal of an iterator over pins or edges, which does not depend on
    the state changed by the loop body, is done before the body runs ([edge_pins], [vertex_edges]); the position ind, which
    may be -1, is represented by ind + 1; the arrays current_vtxs and next_vtxs of bfs_pull are lists with a checked capacity;
    deallocation is omitted.  [None] is undefined behaviour or a loop that does not end within the fuel. *)
From Verif Require Import Base GraphModel TagModel.

(** ** ShrinkingArray, engpar_queue.h:8-44 *)
Record sarr := mkSA { sa_size : nat; sa_cur : arr nat; sa_next : arr nat; sa_nsize : nat }.
(** constructor, engpar_queue.h:10-15 *)
Definition sa_new (n : nat) : sarr := mkSA 0 (anew n) (anew n) 0.
(** addElement, engpar_queue.h:23-25 *)
Definition sa_add (q : sarr) (e : nat) : option sarr := n' <- aset (sa_next q) (sa_nsize q) e ;; Some (mkSA (sa_size q) (sa_cur q) n' (sa_nsize q + 1)).
(** startIteration, engpar_queue.h:26-32 *)
Definition sa_start (q : sarr) : sarr := mkSA (sa_nsize q) (sa_next q) (sa_cur q) 0.
(** get, engpar_queue.h:37 *)
Definition sa_get (q : sarr) (i : nat) : option nat := aget (sa_cur q) i.
(** A traversal as the selectors do it (engpar_selector.cpp:191-223, engpar_weightSelector.cpp:28-51): startIteration, then for every position the body may put the element back. *)
Definition sa_sweep {S} (body : S -> nat -> S * bool) (q : sarr) (s : S) : option (sarr * S) :=
  let q0 := sa_start q in
  foldM (fun '(q, s) i => e <- sa_get q i ;; let '(s', keep) := body s e in if keep then q' <- sa_add q e ;; Some (q', s') else Some (q, s'))
    (seq 0 (sa_size q0)) (q0, s).

(** ** createIterationQueue, engpar_queue.cpp:5-38 *)
(** does the edge have a pin owned by another part: the inner loop, engpar_queue.cpp:11-18 *)
Fixpoint shared_loop (g : graph) (n : nat) (it : piter) : option bool :=
  match n with
  | 0 => Some false
  | S k => '(h, it') <- pit_step g it ;; o <- owner g h ;; if negb (Z.eqb o (self g)) then Some true else shared_loop g k it'
  end.
Definition has_foreign_pin (g : graph) (e : nat) : option bool := it <- pins_begin g e ;; d <- edegree g e ;; shared_loop g d it.
Definition createIterationQueue (g : graph) (fuel : nat) : option sarr :=
  es <- all_edges g 0 fuel ;;
  n <- foldM (fun n e => b <- has_foreign_pin g e ;; Some (if b then n + 1 else n)) es 0 ;;
  foldM (fun q e => b <- has_foreign_pin g e ;; if b then sa_add q e else Some q) es (sa_new n).

(** ** bfsSort, engpar_queue.cpp:43-65 *)
Definition zget {A} (a : arr A) (i : Z) : option A := if (0 <=? i)%Z then aget a (Z.to_nat i) else None.
Definition zaset {A} (a : arr A) (i : Z) (x : A) : option (arr A) := if (0 <=? i)%Z then aset a (Z.to_nat i) x else None.
(** values[arr[i]] *)
Definition key_at (values : arr Z) (a : arr nat) (i : Z) : option Z := x <- zget a i ;; aget values x.
(** while (values[arr[i]] < pivot) i++ *)
Fixpoint scan_up (fuel : nat) (values : arr Z) (a : arr nat) (pivot i : Z) : option Z :=
  match fuel with 0 => None | S f => x <- key_at values a i ;; if (x <? pivot)%Z then scan_up f values a pivot (i + 1)%Z else Some i end.
(** while (values[arr[j]] > pivot) j-- *)
Fixpoint scan_down (fuel : nat) (values : arr Z) (a : arr nat) (pivot j : Z) : option Z :=
  match fuel with 0 => None | S f => x <- key_at values a j ;; if (pivot <? x)%Z then scan_down f values a pivot (j - 1)%Z else Some j end.
(** while (i <= j), engpar_queue.cpp:47-59 *)
Fixpoint partition_loop (fuel : nat) (values : arr Z) (pivot : Z) (a : arr nat) (i j : Z) : option (arr nat * Z * Z) :=
  if (i <=? j)%Z then
    match fuel with
    | 0 => None
    | S f =>
        i' <- scan_up f values a pivot i ;; j' <- scan_down f values a pivot j ;;
        if (i' <=? j')%Z then
          x <- zget a i' ;; y <- zget a j' ;; a1 <- zaset a i' y ;; a2 <- zaset a1 j' x ;; partition_loop f values pivot a2 (i' + 1)%Z (j' - 1)%Z
        else partition_loop f values pivot a i' j'
    end
  else Some (a, i, j).
Fixpoint bfsSort (fuel : nat) (values : arr Z) (a : arr nat) (left right : Z) : option (arr nat) :=
  match fuel with
  | 0 => None
  | S f =>
      pivot <- key_at values a (Z.quot (left + right) 2) ;;
      '(a1, i, j) <- partition_loop f values pivot a left right ;;
      a2 <- (if (left <? j)%Z then bfsSort f values a1 left j else Some a1) ;;
      if (i <? right)%Z then bfsSort f values a2 i right else Some a2
  end.

(** ** Breadth-first searches *)
(** class Inputs, engpar_queue.cpp:67-99 *)
Record inputs := mkIn { in_seeds : arr nat; in_n : nat; in_vis : arr Z; in_osets : nat; in_sets : nat; in_par : arr nat; in_size : arr Z; in_lab : arr Z }.
Definition visitFn := inputs -> nat -> nat -> option (inputs * bool).
(** depth_visit, engpar_queue.cpp:105-113 *)
Definition depth_visit : visitFn := fun s src dst =>
  m <- aget (in_vis s) src ;; d <- aget (in_vis s) dst ;;
  if Z.eqb d (-1) then
    sd <- aset (in_seeds s) (in_n s) dst ;; vs <- aset (in_vis s) dst (m + 1)%Z ;;
    Some (mkIn sd (in_n s + 1) vs (in_osets s) (in_sets s) (in_par s) (in_size s) (in_lab s), true)
  else Some (s, false).
(** while (label != parents[label]) label = parents[label] *)
Fixpoint find_root (fuel : nat) (par : arr nat) (l : nat) : option nat :=
  match fuel with 0 => None | S f => p <- aget par l ;; if p =? l then Some l else find_root f par p end.
(** an int used as an index *)
Definition index (z : Z) : option nat := if (0 <=? z)%Z then Some (Z.to_nat z) else None.
(** distance_visit, engpar_queue.cpp:116-141 *)
Definition distance_visit (fuel : nat) : visitFn := fun s src dst =>
  lab <- aget (in_lab s) src ;; m <- aget (in_vis s) src ;;
  if Z.eqb lab (-1) then Some (s, false)
  else
    l0 <- index lab ;; l <- find_root fuel (in_par s) l0 ;; d <- aget (in_vis s) dst ;;
    if Z.eqb d (-1) then
      sd <- aset (in_seeds s) (in_n s) dst ;; vs <- aset (in_vis s) dst (m + 1)%Z ;; lb <- aset (in_lab s) dst (Z.of_nat l) ;;
      z <- aget (in_size s) l ;; sz <- aset (in_size s) l (z + 1)%Z ;;
      Some (mkIn sd (in_n s + 1) vs (in_osets s) (in_sets s) (in_par s) sz lb, true)
    else
      lab2 <- aget (in_lab s) dst ;; k0 <- index lab2 ;; k <- find_root fuel (in_par s) k0 ;;
      if l =? k then Some (s, false)
      else
        a <- aget (in_size s) l ;; b <- aget (in_size s) k ;; s1 <- aset (in_size s) l (a + b)%Z ;; s2 <- aset s1 k 0%Z ;; p <- aset (in_par s) k l ;;
        Some (mkIn (in_seeds s) (in_n s) (in_vis s) (in_osets s) (in_sets s - 1) p s2 (in_lab s), false).

(** visited[seeds[i]] = start_depth for the new seeds, engpar_queue.cpp:159-160, 203-204 *)
Definition start_seeds (s : inputs) (start : nat) (depth : Z) : option inputs :=
  vs <- foldM (fun v i => e <- aget (in_seeds s) i ;; aset v e depth) (seq start (in_n s - start)) (in_vis s) ;;
  Some (mkIn (in_seeds s) (in_n s) vs (in_osets s) (in_sets s) (in_par s) (in_size s) (in_lab s)).
(** bfs_push, engpar_queue.cpp:151-187 *)
Definition push_dest (visit : visitFn) (g : graph) (source : nat) (s : inputs) (dest : nat) : option inputs :=
  if dest =? source then Some s else ls <- elid g source ;; ld <- elid g dest ;; '(s', _) <- visit s ls ld ;; Some s'.
Definition push_bridge (visit : visitFn) (g : graph) (fuel source : nat) (st : inputs * arr Z) (bridge : nat) : option (inputs * arr Z) :=
  let '(s, tag) := st in
  o <- owner g bridge ;;
  if negb (Z.eqb o (self g)) then Some (s, tag)
  else
    x <- get_vtag g tag bridge ;;
    if negb (Z.eqb x 0) then Some (s, tag)
    else
      ds <- vertex_edges g bridge 0 fuel ;; s' <- foldM (push_dest visit g source) ds s ;; tag' <- set_vtag tag bridge 1%Z ;; Some (s', tag').
Fixpoint push_loop (visit : visitFn) (g : graph) (t vfuel fuel index : nat) (s : inputs) (tag : arr Z) : option inputs :=
  if index =? in_n s then Some s
  else match fuel with
       | 0 => None
       | S f => l <- aget (in_seeds s) index ;; let source := getEdge (ntypes g) l t in
                ps <- edge_pins g source vfuel ;; '(s', tag') <- foldM (push_bridge visit g vfuel source) ps (s, tag) ;;
                push_loop visit g t vfuel f (index + 1) s' tag'
       end.
Definition bfs_push (g : graph) (t start : nat) (depth : Z) (visit : visitFn) (fuel : nat) (s : inputs) : option (inputs * Z) :=
  tag <- create_tag g None ;; vs <- all_verts g fuel ;; tag0 <- foldM (fun a v => set_vtag a v 0%Z) vs tag ;;
  s0 <- start_seeds s start depth ;; s1 <- push_loop visit g t fuel fuel start s0 tag0 ;;
  if in_n s1 =? 0 then None else l <- aget (in_seeds s1) (in_n s1 - 1) ;; d <- aget (in_vis s1) l ;; Some (s1, d).
(** bfs_pull, engpar_queue.cpp:198-246 *)
(** the visited edge of v with the smallest depth, engpar_queue.cpp:219-224 *)
Definition pull_source (ed : etd) (s : inputs) (v : nat) : option (option nat) :=
  a <- aget (e_deg ed) v ;; b <- aget (e_deg ed) (v + 1) ;;
  foldM (fun src j => e <- aget (e_list ed) j ;; x <- aget (in_vis s) e ;;
           if Z.eqb x (-1) then Some src
           else match src with None => Some (Some e) | Some c => y <- aget (in_vis s) c ;; Some (if (x <? y)%Z then Some e else src) end)
    (seq a (b - a)) None.
(** the body of the loop over current_vtxs, engpar_queue.cpp:216-234 *)
Definition pull_vertex (visit : visitFn) (ed : etd) (cap : nat) (level : Z) (st : inputs * list nat * nat) (v : nat) : option (inputs * list nat * nat) :=
  let '(s, nv, upd) := st in
  src <- pull_source ed s v ;;
  hit <- (match src with None => Some None | Some c => x <- aget (in_vis s) c ;; Some (if Z.eqb x level then Some c else None) end) ;;
  match hit with
  | Some c =>
      a <- aget (e_deg ed) v ;; b <- aget (e_deg ed) (v + 1) ;;
      '(s', upd') <- foldM (fun '(s, upd) j => e <- aget (e_list ed) j ;; '(s', b) <- visit s c e ;; Some (s', if b : bool then upd + 1 else upd)) (seq a (b - a)) (s, upd) ;;
      Some (s', nv, upd')
  | None => if length nv <? cap then Some (s, nv ++ [v], upd) else None
  end.
Fixpoint pull_loop (visit : visitFn) (ed : etd) (cap fuel : nat) (level : Z) (s : inputs) (cv : list nat) : option (inputs * Z) :=
  match fuel with
  | 0 => None
  | S f => '(s', nv, upd) <- foldM (pull_vertex visit ed cap level) cv (s, [], 0) ;;
           if upd =? 0 then Some (s', (level + 1)%Z) else pull_loop visit ed cap f (level + 1)%Z s' nv
  end.
Definition bfs_pull (g : graph) (t start : nat) (depth : Z) (visit : visitFn) (fuel : nat) (s : inputs) : option (inputs * Z) :=
  ed <- gtype g t ;; s0 <- start_seeds s start depth ;; pull_loop visit ed (nlv g) fuel depth s0 (seq 0 (nlv g)).

(** ** createDistanceQueue, engpar_queue.cpp:248-390 *)
(** the seeds of the first search, engpar_queue.cpp:256-281 *)
Definition is_shared (g : graph) (ed : etd) (i : nat) : option bool :=
  if hyper g then
    a <- aget (e_pdeg ed) i ;; b <- aget (e_pdeg ed) (i + 1) ;;
    foldM (fun sh j => v <- aget (e_pins ed) j ;; Some (sh || (nlv g <=? v))) (seq a (b - a)) false
  else v <- aget (e_list ed) i ;; Some (nlv g <=? v).
Definition first_seeds (g : graph) (ed : etd) : option (arr nat * nat) :=
  if ngv g =? 0 then sd <- aset (anew (e_num ed)) 0 2 ;; Some (sd, 1)
  else foldM (fun '(sd, n) i => b <- is_shared g ed i ;; if b then sd' <- aset sd n i ;; Some (sd', n + 1) else Some (sd, n)) (seq 0 (e_num ed)) (anew (e_num ed), 0).
(** ind and the two while loops over it, engpar_queue.cpp:313-323; [k] is ind + 1 *)
Fixpoint skip_visited (s1 s2 : inputs) (k : nat) : option nat :=
  match k with 0 => Some 0 | S i => e <- aget (in_seeds s1) i ;; v <- aget (in_vis s2) e ;; if Z.eqb v (-1) then Some k else skip_visited s1 s2 i end.
Fixpoint collect (s1 s2 : inputs) (maxd : Z) (k : nat) (sd : arr nat) (n : nat) : option (nat * arr nat * nat) :=
  match k with
  | 0 => Some (0, sd, n)
  | S i => e <- aget (in_seeds s1) i ;; d <- aget (in_vis s1) e ;;
           if Z.eqb d maxd then
             v <- aget (in_vis s2) e ;;
             if Z.eqb v (-1) then sd' <- aset sd n e ;; collect s1 s2 maxd i sd' (n + 1) else collect s1 s2 maxd i sd n
           else Some (k, sd, n)
  end.
(** the largest set, engpar_queue.cpp:348-352 *)
Definition largest (size : arr Z) (osets : nat) : option nat :=
  foldM (fun l j => a <- aget size j ;; b <- aget size l ;; Some (if (b <? a)%Z then j else l)) (seq 1 (osets - 1)) 0.
(** engpar_queue.cpp:353-362 *)
Definition shift_set (fuel start : nat) (s : inputs) (l : nat) (addition : Z) : option (arr Z) :=
  foldM (fun vis j => e <- aget (in_seeds s) j ;; lab <- aget (in_lab s) e ;;
           if (lab <? 0)%Z then Some vis
           else k0 <- index lab ;; k <- find_root fuel (in_par s) k0 ;;
                if k =? l then d <- aget vis e ;; aset vis e (d + addition)%Z else Some vis)
    (seq start (in_n s - start)) (in_vis s).
(** engpar_queue.cpp:345-368 *)
Definition separate_sets (fuel start : nat) (s : inputs) : option (inputs * Z) :=
  foldM (fun '(s, addition) (_ : nat) =>
      l <- largest (in_size s) (in_osets s) ;;
      vis <- (if (0 <? addition)%Z then shift_set fuel start s l addition else Some (in_vis s)) ;;
      z <- aget (in_size s) l ;; sz <- aset (in_size s) l 0%Z ;;
      Some (mkIn (in_seeds s) (in_n s) vis (in_osets s) (in_sets s) (in_par s) sz (in_lab s), (addition + z)%Z))
    (seq 0 (in_sets s)) (s, 0%Z).
(** labels[seeds[i]] = i - start_seed, engpar_queue.cpp:336-338 *)
Definition label_seeds (sd : arr nat) (start n : nat) (lab : arr Z) : option (arr Z) :=
  foldM (fun lb i => e <- aget sd i ;; aset lb e (Z.of_nat (i - start))) (seq start (n - start)) lab.
(** the search given by input->bfsPush *)
Definition search (push : bool) (g : graph) (start : nat) (depth : Z) (visit : visitFn) (fuel : nat) (s : inputs) : option (inputs * Z) :=
  if push then bfs_push g 0 start depth visit fuel s else bfs_pull g 0 start depth visit fuel s.
(** the while loop, engpar_queue.cpp:311-377 *)
Fixpoint layers (push : bool) (g : graph) (bfuel fuel : nat) (s1 s2 : inputs) (k : nat) (depth : Z) : option inputs :=
  if in_n s2 <? in_n s1 then
    match fuel with
    | 0 => None
    | S f =>
        k1 <- skip_visited s1 s2 k ;;
        match k1 with
        | 0 => Some s2
        | S i =>
            e <- aget (in_seeds s1) i ;; maxd <- aget (in_vis s1) e ;;
            let start := in_n s2 in
            '(k2, sd, n) <- collect s1 s2 maxd k1 (in_seeds s2) (in_n s2) ;;
            let sets := n - start in
            if sets =? 0 then layers push g bfuel f s1 (mkIn sd n (in_vis s2) sets sets (in_par s2) (in_size s2) (in_lab s2)) k2 depth
            else
              lab <- label_seeds sd start n (in_lab s2) ;;
              let s3 := mkIn sd n (in_vis s2) sets sets (ainit (seq 0 sets)) (ainit (repeat 1%Z sets)) lab in
              '(s4, d4) <- search push g start depth (distance_visit bfuel) bfuel s3 ;;
              '(s5, d5) <- (if 1 <? in_sets s4 then '(s, a) <- separate_sets bfuel start s4 ;; Some (s, (d4 + a)%Z) else Some (s4, d4)) ;;
              sd' <- bfsSort bfuel (in_vis s5) (in_seeds s5) (Z.of_nat start) (Z.of_nat (in_n s5) - 1)%Z ;;
              layers push g bfuel f s1 (mkIn sd' (in_n s5) (in_vis s5) (in_osets s5) (in_sets s5) [] [] (in_lab s5)) k2 d5
        end
    end
  else Some s2.
(** the elements put into the queue, engpar_queue.cpp:379-387 *)
Definition fill_queue (g : graph) (s2 : inputs) (q : sarr) : option sarr :=
  foldM (fun q i => l <- aget (in_seeds s2) i ;; let e := getEdge (ntypes g) l 0 in r <- getResidence g e ;;
           if 1 <? length (nodup Z.eq_dec r) then sa_add q e else Some q) (rev (seq 0 (in_n s2))) q.
Definition createDistanceQueue (push : bool) (g : graph) (fuel : nat) : option sarr :=
  ne <- num_edges g 0 ;;
  if ne =? 0 then Some (sa_new 0)
  else
    ed <- gtype g 0 ;; '(sd, n) <- first_seeds g ed ;;
    let q := sa_new n in
    if n =? 0 then Some q
    else
      let unseen := ainit (repeat (-1)%Z (e_num ed)) in
      '(s1, _) <- search push g 0 0%Z depth_visit fuel (mkIn sd n unseen 0 0 [] [] []) ;;
      s2 <- layers push g fuel fuel s1 (mkIn (anew (e_num ed)) 0 unseen 0 0 [] [] unseen) (in_n s1) 0%Z ;;
      fill_queue g s2 q.
