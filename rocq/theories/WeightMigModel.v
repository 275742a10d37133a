(** Weight migration: agi/agiWeightMigration.cpp, agi/agiMigration.h (WMIterator), agi/agiWeightMigrate.cpp.
    Simplifications: weights are exact integers (double in the code); unordered_map iteration order is list
    order (the loops only accumulate sums and pack records, whose arrival order is arbitrary anyway). *)
From Verif Require Import Base GraphModel Comm TagModel MigrateModel.

(** WMData, WMPlan: agiMigration.h:38-39 *)
Definition wmplan := list (nat * list (nat * Z)).
(** sending[v][u] += w: operator[] default-inserts 0; agiWeightMigration.cpp:29 *)
Fixpoint wd_add (m : list (nat * Z)) (u : nat) (w : Z) : list (nat * Z) :=
  match m with [] => [(u, w)] | (k, x) :: r => if k =? u then (k, (x + w)%Z) :: r else (k, x) :: wd_add r u w end.
Fixpoint wp_add (m : wmplan) (v u : nat) (w : Z) : wmplan :=
  match m with [] => [(v, [(u, w)])] | (k, d) :: r => if k =? v then (k, wd_add d u w) :: r else (k, d) :: wp_add r v u w end.
(** WeightMigration: sending and s; constructor agiWeightMigration.cpp:5-8, insert 28-31, clear 33-35 (s is kept) *)
Record wmig := mkWMig { wm_sending : wmplan; wm_s : Z }.
Definition wm_new : wmig := mkWMig [] 0.
Definition wm_insert (p : wmig) (v u : nat) (w : Z) : wmig := mkWMig (wp_add (wm_sending p) v u w) (wm_s p + w).
Definition wm_clear (p : wmig) : wmig := mkWMig [] (wm_s p).
(** size, has, get: agiWeightMigration.cpp:12-26 *)
Definition wm_size (p : wmig) : Z := wm_s p.
Fixpoint nfind {A} (m : list (nat * A)) (k : nat) : option A := match m with [] => None | (x, a) :: r => if x =? k then Some a else nfind r k end.
Definition wm_has1 (p : wmig) (v : nat) : bool := match nfind (wm_sending p) v with Some _ => true | None => false end.
Definition wm_has2 (p : wmig) (v u : nat) : bool := match nfind (wm_sending p) v with Some d => match nfind d u with Some _ => true | None => false end | None => false end.
Definition wm_get (p : wmig) (v u : nat) : option Z := d <- nfind (wm_sending p) v ;; nfind d u.

(** WMIterator, agiMigration.h:42-93: the rest of the outer map and the rest of the current inner map *)
Record wmit := mkWMIt { wi_outer : wmplan; wi_inner : list (nat * Z) }.
Definition wi_begin (p : wmplan) : wmit := mkWMIt p (match p with [] => [] | (_, d) :: _ => d end).
Definition wi_at_end (it : wmit) : bool := match wi_outer it with [] => true | _ => false end.
(** u(), v(), weight(): undefined on the end of the inner map *)
Definition wi_read (it : wmit) : option (nat * nat * Z) :=
  match wi_outer it, wi_inner it with (u, _) :: _, (v, w) :: _ => Some (u, v, w) | _, _ => None end.
(** operator++, agiMigration.h:59-76 *)
Definition wi_next (it : wmit) : option wmit :=
  match wi_outer it, wi_inner it with
  | _ :: o, [_] => Some (wi_begin o)
  | o, _ :: ((_ :: _) as i) => Some (mkWMIt o i)
  | _, [] => None
  | [], _ => None
  end.
(** for (itr = begin(); itr != end(); itr++): the triples visited *)
Fixpoint wi_run (fuel : nat) (it : wmit) : option (list (nat * nat * Z)) :=
  if wi_at_end it then Some []
  else match fuel with
  | 0 => None
  | S f => x <- wi_read it ;; it' <- wi_next it ;; xs <- wi_run f it' ;; Some (x :: xs)
  end.

(** WeightPartitionMap wp_map: agi.h; m[a][b] += w *)
Definition flow := list (Z * Z * Z).
Definition fl_get (m : flow) (a b : Z) : Z := match find (fun x => Z.eqb (fst (fst x)) a && Z.eqb (snd (fst x)) b) m with Some x => snd x | None => 0%Z end.
Definition fl_add (m : flow) (a b w : Z) : flow := (a, b, (fl_get m a b + w)%Z) :: m.

Record wmpart := mkWMP { wp_g : graph; wp_flow : flow; wp_plan : wmig }.
(** local data of Ngraph::migrate(WeightMigration* ) during the exchange *)
Record wmwork := mkWMW { ww_g : graph; ww_ws : arr Z; ww_flow : flow; ww_out : list (Z * (Z * (Z * Z))) }.
(** reading the weights: agiWeightMigrate.cpp:13-19 *)
Definition wm_read (g : graph) (fuel : nat) : option (arr Z) :=
  hs <- all_verts g fuel ;;
  foldM (fun ws ih => w <- vweight g (snd ih) ;; aset ws (fst ih) w) (combine (seq 0 (length hs)) hs) (anew (nlv g)).
(** one entry of the plan: agiWeightMigrate.cpp:24-37; localID(vertex), agiVertex.cpp:125-129 *)
Definition wm_step (st : wmwork) (x : nat * nat * Z) : option wmwork :=
  let '(u, v, w) := x in let g := ww_g st in
  a <- vgid g u ;; b <- vgid g v ;; l <- vlid u ;; c <- aget (ww_ws st) l ;; ws <- aset (ww_ws st) l (c - w)%Z ;; o <- owner g v ;;
  Some (mkWMW g ws (fl_add (ww_flow st) a b w) (ww_out st ++ [(o, (a, (b, w)))])).
Definition wm_begin (fuel : nat) (s : wmpart) : option wmwork :=
  ws <- wm_read (wp_g s) fuel ;; xs <- wi_run fuel (wi_begin (wm_sending (wp_plan s))) ;;
  foldM wm_step xs (mkWMW (wp_g s) ws (wp_flow s) []).
(** receiving: agiWeightMigrate.cpp:41-50; the index is numLocalVtxs()-1 *)
Definition wm_recv1 (st : wmwork) (m : Z * (Z * (Z * Z))) : option wmwork :=
  let '(a, (b, w)) := snd m in let g := ww_g st in
  _ <- findGID g b ;;
  if nlv g =? 0 then None
  else c <- aget (ww_ws st) (nlv g - 1) ;; ws <- aset (ww_ws st) (nlv g - 1) (c + w)%Z ;;
       Some (mkWMW g ws (fl_add (ww_flow st) b a (- w)) (ww_out st)).
(** setWeights, agiVertex.cpp:29-34 *)
Definition set_weights (g : graph) (ws : arr Z) : graph :=
  mkGraph (hyper g) (nlv g) (ngv g) (lunmap g) (firstn (nlv g) ws) (gunmap g) (vmap g) (types g) (owners g) (self g).
Definition wm_recv (st : wmwork) (arrived : list (Z * (Z * (Z * Z)))) : option (graph * flow) :=
  st' <- foldM wm_recv1 arrived st ;; Some (set_weights (ww_g st') (ww_ws st'), ww_flow st').
(** Ngraph::migrate(WeightMigration* ), agiWeightMigrate.cpp:11-54 *)
Definition weight_migrate (fuel : nat) (sts : list wmpart) (Q : list (graph * flow) -> Prop) : Prop :=
  local (wm_begin fuel) sts (fun ws => phase (fun w => Some (ww_out w)) wm_recv ws Q).
