(** C66: the C interface does what the C++ interface does. *)
From Verif Require Import Base GraphModel GraphSpec GraphTop GraphTop2 AccessProofs Comm TagModel TagProps MigrateModel MigrateSpec MigrateTop RepartModel GraphProps MigrateProps CengparModel.
From Coq Require Import QArith.
Local Open Scope nat_scope.

(** ** Specification *)
(** the block starts with the values of the list (it may be longer) *)
Definition block_of {A} (a : arr A) (l : list A) : Prop := forall i x, nth_error l i = Some x -> aget a i = Some x.
(** the four arrays of one call of cengpar_constructEdges *)
Record c_type := mkCT { ct_ids : arr Z; ct_degs : arr nat; ct_ws : arr Z; ct_pins : arr Z }.
Definition passes (c : c_type) (ty : type_input) : Prop :=
  block_of (ct_ids c) (map fst (fst ty)) /\ block_of (ct_degs c) (map (fun e => length (snd e)) (fst ty)) /\
  block_of (ct_ws c) (snd ty) /\ length (snd ty) = length (fst ty) /\ block_of (ct_pins c) (concat (map snd (fst ty))).
(** the sequence of calls of a C program *)
Definition c_build (me : Z) (hg : bool) (va wa : arr Z) (nv : nat) (cts : list (c_type * (nat * nat))) (gv go : arr Z) (ng : nat) : option graph :=
  g <- c_constructVerts me hg va wa nv ;;
  g' <- foldM (fun g c => '(g', _) <- c_constructEdges g (ct_ids (fst c)) (ct_degs (fst c)) (ct_ws (fst c)) (ct_pins (fst c)) (fst (snd c)) (snd (snd c)) ;; Some g') cts g ;;
  c_constructGhosts g' gv go ng.
(** the owner that the ghost arrays give last for a vertex *)
Definition last_owner (gh : list (Z * Z)) (v : Z) (o : option Z) : Prop :=
  match o with
  | Some p => exists i, nth_error gh i = Some (v, p) /\ forall j q, i < j -> nth_error gh j <> Some (v, q)
  | None => forall q, ~ In (v, q) gh
  end.

Lemma from_array_ok A (a : arr A) l : block_of a l -> from_array a (length l) = Some l.
Proof.
  intros H. unfold from_array. assert (G : forall k m, (forall i x, nth_error m i = Some x -> aget a (k + i) = Some x) -> mapM (aget a) (seq k (length m)) = Some m).
  { intros k m. revert k. induction m as [|x m IH]; intros k Hm; [reflexivity|]. cbn [length seq mapM]. pose proof (Hm 0 x eq_refl) as H0. rewrite Nat.add_0_r in H0. rewrite H0. cbn [obind]. rewrite IH; [reflexivity|]. intros i y Hi. replace (S k + i) with (k + S i) by lia. apply Hm. exact Hi. }
  apply (G 0). exact H.
Qed.
Lemma from_array_len A (a : arr A) n l : n = length l -> block_of a l -> from_array a n = Some l.
Proof. intros ->. apply from_array_ok. Qed.
Lemma zfind_rev (gh : list (Z * Z)) v : last_owner gh v (zfind (rev gh) v).
Proof.
  induction gh as [|(u, p) gh IH] using rev_ind; [intros q []|]. rewrite rev_app_distr. cbn [rev app zfind]. destruct (Z.eqb_spec v u) as [->|N].
  - exists (length gh). split; [rewrite nth_error_app2, Nat.sub_diag by lia; reflexivity|]. intros j q Hj E. assert (j < length (gh ++ [(u, p)])) by (apply nth_error_Some; congruence). rewrite app_length in H. cbn in H. lia.
  - destruct (zfind (rev gh) v) as [o|]; cbn in *.
    + destruct IH as (i & Hi & HL). exists i. assert (i < length gh) by (apply nth_error_Some; congruence). split; [rewrite nth_error_app1; auto|]. intros j q Hj E. destruct (Nat.lt_ge_cases j (length gh)).
      * rewrite nth_error_app1 in E by auto. now apply (HL j q Hj).
      * rewrite nth_error_app2 in E by auto. destruct (j - length gh) as [|k]; cbn in E; [injection E as <- _; congruence|destruct k; discriminate].
    + intros q X. apply in_app_iff in X as [X|[X|[]]]; [now apply (IH q)|injection X as <- _; congruence].
Qed.

(** Passing a graph through the arrays of the C calls builds the graph that the C++ calls build; a ghost that is listed several times belongs to the owner listed last. *)
Theorem C66_construction : forall me hg verts vws tys gids gos va wa cts gv go,
  valid_input hg verts vws tys -> length vws = length verts -> length gos = length gids ->
  block_of va verts -> block_of wa vws -> Forall2 (fun c ty => passes (fst c) ty /\ snd c = (length (fst ty), length (concat (map snd (fst ty))))) cts tys -> block_of gv gids -> block_of go gos ->
  exists g owns, c_build me hg va wa (length verts) cts gv go (length gids) = Some g /\ build_part me hg verts vws tys owns = Some g /\
    forall v, last_owner (combine gids gos) v (zfind owns v).
Proof.
  intros me hg verts vws tys gids gos va wa cts gv go HV LW LG BV BW HT BG BO. set (owns := rev (combine gids gos)).
  destruct (C02_construction_total me hg verts vws tys owns HV) as (g0 & E0 & g & E). exists g, owns. split; [|split; [exact E|intros v; apply zfind_rev]].
  rewrite <- E. unfold c_build, build_part, build_graph, c_constructVerts. rewrite (from_array_ok _ _ _ BV). cbn [obind]. rewrite (from_array_len _ _ _ _ (eq_sym LW) BW). cbn [obind].
  destruct (constructVerts me hg verts vws) as [g1|]; [|reflexivity]. cbn [obind].
  assert (EE : foldM (fun g c => '(g', _) <- c_constructEdges g (ct_ids (fst c)) (ct_degs (fst c)) (ct_ws (fst c)) (ct_pins (fst c)) (fst (snd c)) (snd (snd c)) ;; Some g') cts g1 = foldM call_constructEdges tys g1).
  { clear - HT. revert g1. induction HT as [|((ids, ds, ws, ps), (ne, np)) ty cts tys ((H1 & H2 & H3 & H4 & H5) & H6) HT IH]; intros g1; [reflexivity|]. cbn [fst snd ct_ids ct_degs ct_ws ct_pins] in *. injection H6 as -> ->.
    cbn [foldM]. unfold c_constructEdges at 1, call_constructEdges at 1. rewrite (from_array_len _ _ _ (map fst (fst ty))) by (rewrite ?map_length; auto). cbn [obind].
    rewrite (from_array_len _ _ _ (map (fun e => length (snd e)) (fst ty))) by (rewrite ?map_length; auto). cbn [obind]. rewrite (from_array_len _ _ _ (snd ty)) by auto. cbn [obind].
    rewrite (from_array_len _ _ _ (concat (map snd (fst ty)))) by auto. cbn [obind]. unfold pins_of. rewrite map_map. destruct (constructEdges g1 (map fst (fst ty)) _ _ (snd ty)) as [(g2, x)|]; cbn [obind]; auto. }
  rewrite EE. destruct (foldM call_constructEdges tys g1) as [g2|]; [|reflexivity]. cbn [obind]. unfold c_constructGhosts.
  assert (GM : forall k m s t, length t = length s -> (forall i x, nth_error s i = Some x -> aget gv (k + i) = Some x) -> (forall i x, nth_error t i = Some x -> aget go (k + i) = Some x) ->
     foldM (fun m i => v <- aget gv i ;; o <- aget go i ;; Some (zset m v o)) (seq k (length s)) m = Some (rev (combine s t) ++ m)).
  { intros k m s. revert k m. induction s as [|v s IH]; intros k m [|o t] L H1 H2; try discriminate; [reflexivity|]. cbn [length seq foldM]. pose proof (H1 0 v eq_refl) as A1. pose proof (H2 0 o eq_refl) as A2. rewrite Nat.add_0_r in A1, A2. rewrite A1, A2. cbn [obind].
    rewrite (IH (S k) (zset m v o) t ltac:(cbn in L; lia)); [cbn [combine rev]; rewrite <- app_assoc; reflexivity|..]; intros i x Hi; replace (S k + i) with (k + S i) by lia; auto. }
  rewrite (GM 0 [] gids gos LG BG BO). cbn [obind]. rewrite app_nil_r. reflexivity.
Qed.
Print Assumptions C66_construction.
(** a C program cannot leave the weights out, as the C++ interface allows: the array is read in any case *)
Theorem C66_no_weights_refuted : forall me hg va n, 0 < n -> c_constructVerts me hg va [] n = None.
Proof. intros me hg va n H. unfold c_constructVerts. destruct (from_array va n); [|reflexivity]. cbn [obind]. unfold from_array. destruct n as [|n]; [lia|]. cbn [seq mapM]. reflexivity. Qed.
Print Assumptions C66_no_weights_refuted.

(** ** getPartition *)
(** each entry of the map exactly once, in any order; the cells behind them untouched *)
Definition lists_map (m : zmap Z) (n : nat) (va pa va' pa' : arr Z) : Prop :=
  (forall i, i < n -> exists v p, aget va' i = Some v /\ aget pa' i = Some p /\ zfind m v = Some p) /\
  (forall v p, zfind m v = Some p -> exists i, i < n /\ aget va' i = Some v /\ aget pa' i = Some p /\ forall j, j < n -> aget va' j = Some v -> j = i) /\
  length va' = length va /\ length pa' = length pa /\ (forall i, n <= i -> aget va' i = aget va i /\ aget pa' i = aget pa i).
Lemma put_all (ptn : list (Z * Z)) : forall k (va pa : arr Z), k + length ptn <= length va -> k + length ptn <= length pa ->
  exists va' pa', foldM (fun '(vs, ps) (ie : nat * (Z * Z)) => vs' <- aset vs (fst ie) (fst (snd ie)) ;; ps' <- aset ps (fst ie) (snd (snd ie)) ;; Some (vs', ps')) (combine (seq k (length ptn)) ptn) (va, pa) = Some (va', pa') /\
    length va' = length va /\ length pa' = length pa /\ (forall i v p, nth_error ptn i = Some (v, p) -> aget va' (k + i) = Some v /\ aget pa' (k + i) = Some p) /\
    (forall i, i < k \/ k + length ptn <= i -> aget va' i = aget va i /\ aget pa' i = aget pa i).
Proof.
  induction ptn as [|(v, p) ptn IH]; intros k va pa L1 L2; [exists va, pa; repeat split; auto; destruct i; discriminate|]. cbn [length seq combine foldM fst snd] in *.
  rewrite (aset_some _ va k v) by lia. cbn [obind]. rewrite (aset_some _ pa k p) by lia. cbn [obind].
  destruct (IH (S k) (upd va k (Some v)) (upd pa k (Some p))) as (va' & pa' & E & M1 & M2 & M3 & M4); [rewrite upd_length; lia|rewrite upd_length; lia|].
  exists va', pa'. split; [exact E|]. rewrite upd_length in M1, M2. split; auto. split; auto. split.
  - intros [|i] u q Hi; cbn in Hi; [injection Hi as <- <-|replace (k + S i) with (S k + i) by lia; auto]. rewrite Nat.add_0_r. destruct (M4 k) as (A & B); [lia|]. rewrite A, B, !aget_upd_eq by lia. auto.
  - intros i Hi. destruct (M4 i) as (A & B); [lia|]. rewrite A, B, !aget_upd_neq by lia. auto.
Qed.
Theorem C66_partition_arrays : forall m order n va pa, NoDup (map fst m) -> Permutation order m -> n <= length va -> n <= length pa ->
  (n = length m -> exists va' pa', c_getPartition order n va pa = Some (va', pa') /\ lists_map m n va pa va' pa') /\ (n <> length m -> c_getPartition order n va pa = None).
Proof.
  intros m order n va pa ND PM L1 L2. pose proof (Permutation_length PM) as LP. unfold c_getPartition. split; [intros ->|intros N; destruct (Nat.eqb_spec (length order) n); [lia|reflexivity]].
  rewrite LP, Nat.eqb_refl. rewrite <- LP in *. destruct (put_all order 0 va pa L1 L2) as (va' & pa' & E & M1 & M2 & M3 & M4). exists va', pa'. split; [exact E|].
  assert (NO : NoDup (map fst order)) by (eapply Permutation_NoDup; [apply Permutation_map, Permutation_sym, PM|auto]). cbn [Nat.add] in *.
  assert (FI : forall v p, In (v, p) order <-> zfind m v = Some p).
  { intros v p. split; intros H.
    - apply (Permutation_in _ PM) in H. clear - H ND. induction m as [|(k, x) m IH]; [destruct H|]. cbn [map zfind] in *. apply NoDup_cons_iff in ND as (N1 & N2). destruct H as [H|H]; [injection H as -> ->; now rewrite Z.eqb_refl|].
      destruct (Z.eqb_spec v k) as [->|]; auto. exfalso. apply N1. apply in_map_iff. exists (k, p). auto.
    - apply (Permutation_in _ (Permutation_sym PM)). clear - H. induction m as [|(k, x) m IH]; [discriminate|]. cbn in H. destruct (Z.eqb_spec v k) as [->|]; [injection H as ->; left; auto|right; auto]. }
  split; [|split; [|split; [|split]]]; auto.
  - intros i Hi. destruct (nth_error order i) as [(v, p)|] eqn:Ei; [|apply nth_error_None in Ei; lia]. destruct (M3 i v p Ei) as (A & B). exists v, p. split; auto. split; auto. apply FI. eapply nth_error_In; eauto.
  - intros v p H. apply FI, In_nth_error in H as (i & Hi). destruct (M3 i v p Hi) as (A & B). exists i. assert (LI : i < length order) by (apply nth_error_Some; congruence). repeat split; auto.
    intros j Hj Aj. destruct (nth_error order j) as [(u, q)|] eqn:Ej; [|apply nth_error_None in Ej; lia]. destruct (M3 j u q Ej) as (Au & _). assert (u = v) by congruence. subst u.
    apply (proj1 (NoDup_nth_error (map fst order)) NO j i); [rewrite map_length; auto|]; rewrite !nth_error_map, Ej, Hi; reflexivity.
Qed.
Print Assumptions C66_partition_arrays.
(** After any history of migrations, cengpar_getPartition with the right count fills the arrays with every vertex that started on this part, once, and the part on which it is now. *)
Theorem C66_getPartition : forall hg fuel ps sts, length sts = length ps ->
  (forall r p s, nth_error ps r = Some p -> nth_error sts r = Some s ->
    built_from hg r p s /\ valid_input hg (pd_verts p) (pd_vws p) (pd_tys p) /\ length (pd_oo p) = length (pd_verts p) /\ length (pd_verts p) < fuel) ->
  NoDup (flat_map pd_verts ps) -> (forall p o, In p ps -> In o (pd_oo p) -> (0 <= o < Z.of_nat (length ps))%Z) ->
  getPartition fuel sts (fun ms => forall q m order n va pa, nth_error ms q = Some m -> Permutation order m -> n = length m -> n <= length va -> n <= length pa ->
    exists va' pa', c_getPartition order n va pa = Some (va', pa') /\
      (forall v r, (exists i, i < n /\ aget va' i = Some v /\ aget pa' i = Some r) <->
         exists i p l, r = Z.of_nat i /\ nth_error ps i = Some p /\ nth_error (pd_verts p) l = Some v /\ nth_error (pd_oo p) l = Some (Z.of_nat q)) /\
      (forall i j v, i < n -> j < n -> aget va' i = Some v -> aget va' j = Some v -> i = j)).
Proof.
  intros hg fuel ps sts L H ND HO. pose proof (C20_getPartition hg fuel ps sts L H ND HO) as (sent & E1 & E2 & E3). exists sent. split; auto. split; auto. intros rcv DL. destruct (E3 rcv DL) as (ms & E4 & Lm & HM). exists ms. split; auto.
  intros q m order n va pa Hq PM -> LA LB.
  assert (NK : NoDup (map fst m)).
  { destruct (par2_nth _ _ _ _ _ _ _ _ _ _ E4 Hq) as (a & b & _ & _ & EQ). unfold part_recv in EQ. injection EQ as <-. assert (G : forall (l : list (Z * Z)) (m0 : zmap Z), NoDup (map fst m0) -> NoDup (map fst (fold_left (fun m sv => match zfind m (snd sv) with Some _ => m | None => zset m (snd sv) (fst sv) end) l m0))).
    { induction l as [|(s, v) l IH]; intros m0 N0; [exact N0|]. cbn [fold_left fst snd]. apply IH. destruct (zfind m0 v) as [x|] eqn:Z; auto. cbn [zset map fst]. constructor; auto. clear - Z. induction m0 as [|(k, y) m0 IH]; [intros []|]. cbn in *. destruct (Z.eqb_spec v k); [discriminate|]. intros [X|X]; [congruence|now apply IH]. }
    apply G. constructor. }
  destruct (C66_partition_arrays m order (length m) va pa NK PM LA LB) as (X & _). destruct (X eq_refl) as (va' & pa' & EG & P1 & P2 & _). exists va', pa'. split; auto. split.
  - intros v r. rewrite <- (HM q m Hq v r). split.
    + intros (i & Hi & A & B). destruct (P1 i Hi) as (v' & p' & A' & B' & Z). assert (v' = v) by congruence. assert (p' = r) by congruence. now subst.
    + intros Z. destruct (P2 v r Z) as (i & Hi & A & B & _). eauto.
  - intros i j v Hi Hj A B. destruct (P1 i Hi) as (v' & p' & A' & _ & Z). assert (v' = v) by congruence. subst v'. destruct (P2 v p' Z) as (k & _ & _ & _ & U). rewrite (U i Hi A), (U j Hj B). reflexivity.
Qed.
Print Assumptions C66_getPartition.

(** ** Input handles *)
(** after any sequence of addPriority, balanceGhosts and setCutGrowthFactor calls on a diffusive input: the priorities and tolerances in the order of the calls, paired; the last value of the others *)
Inductive c_op := Prio (t : Z) (tol : Q) | Ghosts (b : bool) | Growth (f : Q).
Definition c_do (i : c_input) (o : c_op) : option c_input :=
  match o with Prio t tol => Some (c_addPriority i t tol) | Ghosts b => Some (c_balanceGhosts i b) | Growth f => c_setCutGrowthFactor i f end.
Definition prios (l : list c_op) : list (Z * Q) := flat_map (fun o => match o with Prio t tol => [(t, tol)] | _ => [] end) l.
Definition last_or {A} (l : list A) (d : A) : A := last l d.
Theorem C66_options : forall ops g0 f0, exists d, foldM c_do ops (CDiff (mkDiff [] [] g0 f0)) = Some (CDiff d) /\
  d_prio d = map fst (prios ops) /\ d_tol d = map snd (prios ops) /\
  d_ghosts d = last_or (flat_map (fun o => match o with Ghosts b => [b] | _ => [] end) ops) g0 /\
  d_growth d = last_or (flat_map (fun o => match o with Growth f => [f] | _ => [] end) ops) f0.
Proof.
  intros ops g0 f0. assert (G : forall p t gh gr, exists d, foldM c_do ops (CDiff (mkDiff p t gh gr)) = Some (CDiff d) /\ d_prio d = p ++ map fst (prios ops) /\ d_tol d = t ++ map snd (prios ops) /\
    d_ghosts d = last_or (flat_map (fun o => match o with Ghosts b => [b] | _ => [] end) ops) gh /\ d_growth d = last_or (flat_map (fun o => match o with Growth f => [f] | _ => [] end) ops) gr).
  { assert (DD : forall (A : Type) (l : list A) x d d', last (x :: l) d = last (x :: l) d') by (intros A l; induction l as [|y l IH]; intros x d d'; [reflexivity|exact (IH y d d')]).
    assert (LL : forall (A : Type) (x : A) l d, last_or (x :: l) d = last_or l x) by (intros A x [|y l] d; [reflexivity|]; unfold last_or; exact (DD A l y d x)).
    induction ops as [|o ops IH]; intros p t gh gr; [exists (mkDiff p t gh gr); cbn; rewrite !app_nil_r; auto|]. cbn [foldM]. destruct o as [k tol|b|f]; cbn [c_do c_addPriority c_balanceGhosts c_setCutGrowthFactor obind d_prio d_tol d_ghosts d_growth].
    - destruct (IH (p ++ [k]) (t ++ [tol]) gh gr) as (d & E & A & B & C & D). exists d. split; auto. rewrite A, B, <- !app_assoc. auto.
    - destruct (IH p t b gr) as (d & E & A & B & C & D). exists d. split; auto. split; auto. split; auto. split; auto. rewrite C. symmetry. apply LL.
    - destruct (IH p t gh f) as (d & E & A & B & C & D). exists d. split; auto. split; auto. split; auto. split; auto. rewrite D. symmetry. apply LL. }
  apply (G [] [] g0 f0).
Qed.
Print Assumptions C66_options.
(** on a split input the priorities are ignored, and setCutGrowthFactor writes where there is no such member *)
Theorem C66_split_input_refuted : forall t tol b f, c_do CSplit (Prio t tol) = Some CSplit /\ c_do CSplit (Ghosts b) = Some CSplit /\ c_do CSplit (Growth f) = None.
Proof. intros. repeat split. Qed.
Print Assumptions C66_split_input_refuted.

(** ** Concrete cases *)
Definition cx_va : arr Z := ainit [10; 20; 99]%Z.
Definition cx_ct : c_type := mkCT (ainit [1; 2]%Z) (ainit [2; 3]) (ainit [4; 5]%Z) (ainit [10; 20; 20; 30; 40]%Z).
(** two vertices, two edges, ghosts 30 (listed twice) and 40; block va has a cell more than needed *)
Example C66_construction_example : valid_input true [10; 20]%Z [1; 1]%Z [([(1, [10; 20]); (2, [20; 30; 40])], [4; 5])]%Z /\ block_of cx_va [10; 20]%Z /\
  passes cx_ct ([(1, [10; 20]); (2, [20; 30; 40])], [4; 5])%Z /\
  (g <- c_build 0 true cx_va (ainit [1; 1]%Z) 2 [(cx_ct, (2, 5))] (ainit [30; 40; 30]%Z) (ainit [1; 2; 3]%Z) 3 ;; hs <- all_ghosts g 9 ;; ids <- mapM (vgid g) hs ;; os <- mapM (owner g) hs ;; Some (combine ids os)) = Some [(30, 3); (40, 2)]%Z.
Proof.
  split; [|split; [|split; [|vm_compute; reflexivity]]].
  - split; [repeat constructor; cbn; intuition lia|]. split; [cbn; lia|]. split; [cbn; lia|]. intros es ws [X|[]]. injection X as <- <-. split; [right; reflexivity|discriminate].
  - intros [|[|i]] x H; cbn in H; try (injection H as <-; reflexivity). destruct i; discriminate.
  - unfold passes. cbn [fst snd map concat app length]. repeat split; intros i x H; do 6 (destruct i as [|i]; cbn in H; [try (injection H as <-; reflexivity); discriminate|]); destruct i; discriminate.
Qed.
Example C66_partition_example : c_getPartition [(7, 1); (5, 0)]%Z 2 [None; None; Some 9%Z] [None; None] = Some ([Some 7; Some 5; Some 9], [Some 1; Some 0])%Z /\ c_getPartition [(7, 1); (5, 0)]%Z 3 [None; None; None] [None; None; None] = None.
Proof. split; reflexivity. Qed.
