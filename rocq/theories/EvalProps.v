(** C35: the numbers that evaluatePartition collects on every part are the numbers of the distributed graph, and the printed table is made of them. *)
From Verif Require Import Base GraphModel GraphSpec GraphTop GraphTop2 ConstructProofs AccessProofs Comm TagModel ConnModel ConnSpec ConnProps MetricsModel MetricsProofs MigrateModel MigrateSpec SidesProofs GraphProps TagProps WeightMigProps MigrateProps SidesProps MetricsProps TradSpec GraphIOProps SidesTradProps EvalModel.
From Verif Require TradProps.
From Coq Require Import Lqa.
Local Open Scope nat_scope.

(** ** Specification, in terms of the global graph *)
(** the vertex records that live on part r *)
Definition here (own : Z -> nat) (V : list (Z * (Z * Z))) (r : nat) := filter (fun v => Nat.eqb (own (fst v)) r) V.
(** the vertex lives elsewhere and is a pin of an edge (of any type) that has a pin on part r *)
Definition elsewhere (own : Z -> nat) (T : list (list (edge_input * Z))) (r : nat) (v : Z) : Prop :=
  own v <> r /\ exists E e, In E T /\ In e E /\ touches own r e = true /\ In v (snd (fst e)).
Definition elsewhereb (own : Z -> nat) (T : list (list (edge_input * Z))) (r : nat) (v : Z) : bool :=
  negb (own v =? r) && existsb (fun E => existsb (fun e => touches own r e && existsb (Z.eqb v) (snd (fst e))) E) T.
Lemma elsewhereb_iff own T r v : elsewhereb own T r v = true <-> elsewhere own T r v.
Proof.
  unfold elsewhereb, elsewhere. rewrite andb_true_iff, negb_true_iff, Nat.eqb_neq, existsb_exists. split.
  - intros (H & E & HE & X). apply existsb_exists in X as (e & He & X). apply andb_true_iff in X as (X1 & X2). apply existsb_exists in X2 as (u & Hu & X2). apply Z.eqb_eq in X2. subst u. split; auto. exists E, e. auto.
  - intros (H & E & e & HE & He & X1 & X2). split; auto. exists E. split; auto. apply existsb_exists. exists e. split; auto. rewrite X1. cbn. apply existsb_exists. exists v. split; auto. apply Z.eqb_refl.
Qed.
(** the parts (of n) that share an edge of E with part r *)
Definition neighbours (own : Z -> nat) (E : list (edge_input * Z)) (n r : nat) : list nat :=
  filter (fun q => negb (q =? r) && match on_both own r q E with [] => false | _ => true end) (seq 0 n).
(** the edges of E that are cut by the boundary of part r *)
Definition cut_at (own : Z -> nat) (r : nat) (E : list (edge_input * Z)) := filter (fun e => touches own r e && existsb (fun v => negb (own v =? r)) (snd (fst e))) E.
Definition vsum (val : Z -> Q) (V : list (Z * (Z * Z))) : Q := qsum (map (fun v => val (fst (snd v))) V).
Definition esum (val : Z -> Q) (E : list (edge_input * Z)) : Q := qsum (map (fun e => val (snd e)) E).

(** the values of part r of n: components minus one, neighbouring parts, local and total vertex weight; per edge type, weight and cut weight *)
Definition values_right (val : Z -> Q) (own : Z -> nat) (V : list (Z * (Z * Z))) (T : list (list (edge_input * Z))) (n r : nat) (v : list Q) : Prop :=
  length v = 4 + length T * 2 /\
  (forall E0, nth_error T 0 = Some E0 ->
     (exists k, classes (map fst (here own V r)) (linked (map fst (here own V r)) (map fst E0)) k /\ nth 0 v 0 == inject_Z (Z.of_nat k - 1))%Q /\
     (nth 1 v 0 == inject_Z (Z.of_nat (length (neighbours own E0 n r))))%Q) /\
  (nth 2 v 0 == vsum val (here own V r))%Q /\
  (nth 3 v 0 == vsum val (here own V r) + vsum val (filter (fun x => elsewhereb own T r (fst x)) V))%Q /\
  forall t E, nth_error T t = Some E ->
    (nth (4 + 2 * t) v 0 == esum val (filter (touches own r) E))%Q /\ (nth (5 + 2 * t) v 0 == esum val (cut_at own r E))%Q.

(** ** Lemmas *)
Lemma Qeq_refl_eq a b : a = b -> (a == b)%Q.
Proof. intros ->. reflexivity. Qed.
Lemma qsum_perm a b : Permutation a b -> (qsum a == qsum b)%Q.
Proof. induction 1; cbn [qsum]; try lra. Qed.
Lemma qsum_z (A : Type) (val : A -> Q) (f : A -> Z) l : (forall x, In x l -> val x == inject_Z (f x))%Q -> (inject_Z (zsum (map f l)) == qsum (map val l))%Q.
Proof.
  induction l as [|x l IH]; intros H; [reflexivity|]. cbn [map qsum]. unfold zsum. cbn [fold_right]. fold (zsum (map f l)). rewrite inject_Z_plus, IH by (intros; apply H; right; auto). rewrite (H x) by (left; auto). reflexivity.
Qed.
Lemma vrecs_w p : length (pd_vws p) <= length (pd_verts p) -> length (pd_oo p) = length (pd_verts p) -> map (fun v => fst (snd v)) (vrecs p) = vertex_weights (pd_verts p) (pd_vws p).
Proof.
  intros L1 L2. unfold vrecs. fold (vertex_weights (pd_verts p) (pd_vws p)). change (vweights p) with (vertex_weights (pd_verts p) (pd_vws p)).
  assert (L : length (vertex_weights (pd_verts p) (pd_vws p)) = length (pd_verts p)) by (unfold vertex_weights; rewrite app_length, repeat_length; lia).
  revert L L2. generalize (vertex_weights (pd_verts p) (pd_vws p)) as wl, (pd_oo p) as ol. generalize (pd_verts p) as vl. clear. intros vl. induction vl as [|v vl IH]; intros [|w wl] [|o ol] A B; try discriminate; [reflexivity|]. cbn in *. f_equal. apply IH; lia.
Qed.
Lemma vrecs_k p : length (pd_vws p) <= length (pd_verts p) -> length (pd_oo p) = length (pd_verts p) -> map fst (vrecs p) = pd_verts p.
Proof.
  intros L1 L2. unfold vrecs. change (vweights p) with (vertex_weights (pd_verts p) (pd_vws p)).
  assert (L : length (vertex_weights (pd_verts p) (pd_vws p)) = length (pd_verts p)) by (unfold vertex_weights; rewrite app_length, repeat_length; lia).
  revert L L2. generalize (vertex_weights (pd_verts p) (pd_vws p)) as wl, (pd_oo p) as ol. generalize (pd_verts p) as vl. clear. intros vl. induction vl as [|v vl IH]; intros [|w wl] [|o ol] A B; try discriminate; [reflexivity|]. cbn in *. f_equal. apply IH; lia.
Qed.
(** the weights of a duplicate-free list of vertices of V *)
Lemma weights_of val V (l : list Z) (b : Z -> bool) : NoDup (map fst V) -> NoDup l -> (forall v, In v l <-> In v (map fst V) /\ b v = true) ->
  exists ws, Forall2 (fun v w => exists o, In (v, (w, o)) V) l ws /\ (qsum (map val ws) == vsum val (filter (fun x => b (fst x)) V))%Q.
Proof.
  intros NV NL HI. assert (PM : Permutation l (map fst (filter (fun x => b (fst x)) V))).
  { apply NoDup_Permutation; auto.
    - revert NV. clear. induction V as [|x V IH]; intros H; [constructor|]. cbn [map filter] in *. apply NoDup_cons_iff in H as (H1 & H2). destruct (b (fst x)); auto. cbn [map]. constructor; auto.
      intros X. apply in_map_iff in X as (y & E & Y). apply filter_In in Y as (Y & _). apply H1. rewrite <- E. now apply in_map.
    - intros v. rewrite HI, !in_map_iff. split.
      + intros ((x & E & X) & B). exists x. split; auto. apply filter_In. subst. auto.
      + intros (x & E & X). apply filter_In in X as (X & B). subst. split; auto. exists x. auto. }
  destruct (Permutation_map_inv _ _ PM) as (R & EL & PR). exists (map (fun x => fst (snd x)) R). split.
  - assert (IR : forall x, In x R -> In x V). { intros x Hx. apply (Permutation_in _ (Permutation_sym PR)), filter_In in Hx. tauto. } subst l. revert IR. clear. induction R as [|(v, (w, o)) R IH]; intros IR; constructor; [exists o; apply IR; left; auto|]. apply IH. intros; apply IR; right; auto.
  - unfold vsum. rewrite map_map. apply qsum_perm, Permutation_map. now apply Permutation_sym.
Qed.

Lemma classes_same vs vs' (R R' : Z -> Z -> Prop) k : (forall v, In v vs <-> In v vs') -> (forall a b, R a b <-> R' a b) -> classes vs R k -> classes vs' R' k.
Proof.
  intros HV HR (reps & L & I & C & U). exists reps. split; auto. split; [intros x Hx; apply HV; auto|]. split.
  - intros v Hv. apply HV in Hv. destruct (C v Hv) as (r & Hr & X). exists r. split; auto. now apply HR.
  - intros i j r r' Hi Hj X. apply (U i j r r'); auto. now apply HR.
Qed.
Lemma linked_mono vs vs' es es' : (forall a b, joined vs es a b -> linked vs' es' a b) -> forall a b, linked vs es a b -> linked vs' es' a b.
Proof. intros H a b X. induction X; [auto|apply rst_refl|apply rst_sym; auto|eapply rst_trans; eauto]. Qed.
Lemma keys_of (A : Type) (d : list (Z * A)) n r (b : nat -> bool) : NoDup (map fst d) -> (forall q, In q (map fst d) <-> exists m, q = Z.of_nat m /\ m < n /\ m <> r /\ b m = true) ->
  length d = length (filter (fun q => negb (q =? r) && b q) (seq 0 n)).
Proof.
  intros ND H. rewrite <- (map_length fst d), <- (map_length Z.of_nat (filter _ _)). apply Permutation_length, NoDup_Permutation; auto.
  - apply FinFun.Injective_map_NoDup; [intros a c; lia|]. apply NoDup_filter, seq_NoDup.
  - intros q. rewrite H, in_map_iff. split.
    + intros (m & -> & L & N & B). exists m. split; auto. apply filter_In. split; [apply in_seq; lia|]. rewrite B, andb_true_r. apply negb_true_iff, Nat.eqb_neq. auto.
    + intros (m & <- & M). apply filter_In in M as (M & B). apply in_seq in M. apply andb_true_iff in B as (B1 & B2). apply negb_true_iff, Nat.eqb_neq in B1. exists m. repeat split; auto; lia.
Qed.
Lemma chas_keys (A : Type) (c : cont A) q : chas c q = true <-> In q (map fst (c_d c)).
Proof. unfold chas. rewrite zfind_key. destruct (zfind (c_d c) q); split; intros; congruence. Qed.
Lemma nth_flat2 (l : list (list Q)) : (forall x, In x l -> length x = 2) -> forall t x, nth_error l t = Some x -> nth (2 * t) (concat l) 0%Q = nth 0 x 0%Q /\ nth (1 + 2 * t) (concat l) 0%Q = nth 1 x 0%Q.
Proof.
  induction l as [|y l IH]; intros H t x Ht; [destruct t; discriminate|]. assert (L : length y = 2) by (apply H; left; auto). destruct y as [|y0 [|y1 [|]]]; try discriminate. destruct t as [|t]; cbn [nth_error] in Ht.
  - injection Ht as <-. split; reflexivity.
  - replace (2 * S t) with (S (S (2 * t))) by lia. cbn [concat app nth Nat.add]. apply (IH ltac:(intros; apply H; right; auto) t x Ht).
Qed.
Lemma len_flat2 (l : list (list Q)) : (forall x, In x l -> length x = 2) -> length (concat l) = length l * 2.
Proof. induction l as [|y l IH]; intros H; [reflexivity|]. cbn [concat]. rewrite app_length, (H y (or_introl eq_refl)), IH by (intros x Hx; apply H; right; auto). cbn [length]. lia. Qed.

(** what a part of a distributed hypergraph knows *)
Lemma ghosts_iff me hg p g : valid_input hg (pd_verts p) (pd_vws p) (pd_tys p) -> build_part me hg (pd_verts p) (pd_vws p) (pd_tys p) (pd_owns p) = Some g ->
  NoDup (ghosts_of (pd_verts p) (pd_tys p)) /\ forall v, In v (ghosts_of (pd_verts p) (pd_tys p)) <-> ~ In v (pd_verts p) /\ exists ty e, In ty (pd_tys p) /\ In e (fst ty) /\ In v (snd e).
Proof.
  intros HV HB. pose proof (p_constructed _ _ _ _ _ _ _ HV HB) as HC. pose proof (proj1 (constructed_rep _ _ _ _ _ _ HC)) as RP.
  pose proof (rp_nd _ _ _ _ _ RP) as N. apply NoDup_app_iff in N as (_ & N & DJ). split; auto. intros v. split.
  - intros Hv. assert (NI : ~ In v (pd_verts p)) by (intros X; apply (DJ v X Hv)). split; auto. 
    assert (X : In v (pd_verts p ++ ghosts_of (pd_verts p) (pd_tys p))) by (apply in_app_iff; auto). apply (c_gids_iff _ _ _ _ _ _ HC) in X as [X|X]; [contradiction|]. destruct X as (ty & e & X). exists ty, e. exact X.
  - intros (NI & ty & e & H1 & H2 & H3). assert (X : In v (pd_verts p ++ ghosts_of (pd_verts p) (pd_tys p))) by (apply (c_gids_iff _ _ _ _ _ _ HC); right; exists ty, e; auto). apply in_app_iff in X. tauto.
Qed.

(** Hypergraph: on every part the numbers are those of the distributed graph.  Hypotheses: edge weights are whole numbers (sides are int, C41), the ghost weights
    were exchanged (C14); the fuel only bounds the loops. *)
Theorem C35_values_hypergraph : forall val f own V T ps r p g tag,
  distributed own V T ps -> nth_error ps r = Some p -> build_part (Z.of_nat r) true (pd_verts p) (pd_vws p) (pd_tys p) (pd_owns p) = Some g -> T <> [] ->
  (forall E e, In E T -> In e E -> val (snd e) == inject_Z (f (snd e)))%Q ->
  (forall j v w o, nth_error (ghosts_of (pd_verts p) (pd_tys p)) j = Some v -> In (v, (w, o)) V -> aget tag j = Some w) ->
  exists N, forall fuel, N <= fuel -> exists v, my_vals val g (Some tag) fuel = Some v /\ values_right val own V T (length ps) r v.
Proof.
  intros val f own V T ps r p g tag HD Hr HB NT HI HT. pose proof HD as ((ND & WF) & OW & HP). destruct (HP r p Hr) as (HV & Lo & PV & LT & PE & HO).
  pose proof (p_constructed _ _ _ _ _ _ _ HV HB) as HC. assert (LW : length (pd_vws p) <= length (pd_verts p)) by apply HC.
  destruct (ghosts_iff _ _ _ _ HV HB) as (NG & GI).
  assert (VI : forall v, In v (pd_verts p) <-> In v (map fst (here own V r))).
  { intros v. rewrite <- (vrecs_k p LW Lo). split; apply Permutation_in; [|apply Permutation_sym]; apply Permutation_map; exact PV. }
  assert (VH : forall v, In v (map fst (here own V r)) <-> In v (map fst V) /\ own v = r).
  { intros v. rewrite !in_map_iff. split; [intros (x & E & X); apply filter_In in X as (X & B); apply Nat.eqb_eq in B; subst v; split; [exists x; auto|auto]|].
    intros ((x & E & X) & B). exists x. split; auto. apply filter_In. split; auto. apply Nat.eqb_eq. now subst v. }
  assert (EI : forall t es ws E, nth_error (pd_tys p) t = Some (es, ws) -> nth_error T t = Some E -> forall e, In e es <-> exists w, In (e, w) E /\ touches own r (e, w) = true).
  { intros t es ws E H1 H2 e. pose proof (PE t (es, ws) E H1 H2) as PM. pose proof (eweights_length _ _ _ _ _ _ HV (nth_error_In _ _ H1)) as LL. unfold erecs in PM. cbn [fst] in *. split.
    - intros He. apply In_nth_error in He as (i & Hi). destruct (nth_error (eweights (es, ws)) i) as [w|] eqn:Ew. 2:{ apply nth_error_None in Ew. assert (i < length es) by (apply nth_error_Some; congruence). lia. }
      exists w. assert (X : In (e, w) (combine es (eweights (es, ws)))). { revert Hi Ew. generalize es, (eweights (es, ws)). clear. induction i as [|i IH]; intros [|a l] [|b m] H1 H2; cbn in *; try discriminate; [left; congruence|right; auto]. }
      apply (Permutation_in _ PM), filter_In in X. exact X.
    - intros (w & Hw & B). assert (X : In (e, w) (filter (touches own r) E)) by (apply filter_In; auto). apply (Permutation_in _ (Permutation_sym PM)) in X. now apply in_combine_l in X. }
  assert (GE : forall v, In v (ghosts_of (pd_verts p) (pd_tys p)) <-> In v (map fst V) /\ elsewhereb own T r v = true).
  { intros v. rewrite GI, elsewhereb_iff. split.
    - intros (NI & (es, ws) & e & H1 & H2 & H3). cbn [fst] in H2. apply In_nth_error in H1 as (t & Ht). assert (t < length T) by (rewrite <- LT; apply nth_error_Some; congruence).
      destruct (nth_error T t) as [E|] eqn:HE; [|apply nth_error_None in HE; lia]. destruct (proj1 (EI t es ws E Ht HE e) H2) as (w & W1 & W2).
      assert (IV : In v (map fst V)) by (apply (proj2 (WF E (nth_error_In _ _ HE)) (e, w) v W1 H3)). split; auto. split; [intros Y; apply NI, VI, VH; auto|]. exists E, (e, w). repeat split; auto. eapply nth_error_In; eauto.
    - intros (IV & NO & E & (e, w) & H1 & H2 & H3 & H4). split; [intros X; apply VI, VH in X as (_ & X); auto|]. apply In_nth_error in H1 as (t & HE). assert (t < length (pd_tys p)) by (rewrite LT; apply nth_error_Some; congruence).
      destruct (nth_error (pd_tys p) t) as [(es, ws)|] eqn:Ht; [|apply nth_error_None in Ht; lia]. exists (es, ws), e. split; [eapply nth_error_In; eauto|]. split; auto. cbn [fst]. apply (EI t es ws E Ht HE). eauto. }
  destruct T as [|E0 T'] eqn:ET; [congruence|]. rewrite <- ET in *. assert (HE0 : nth_error T 0 = Some E0) by (rewrite ET; reflexivity).
  destruct (nth_error (pd_tys p) 0) as [(es0, ws0)|] eqn:Ht0. 2:{ apply nth_error_None in Ht0. assert (0 < length T) by (rewrite ET; cbn; lia). lia. }
  destruct (C36_components_hypergraph _ _ _ _ _ _ _ _ HV HB Ht0) as (k & N0 & CK & DK).
  { intros v Hv. unfold part_of. destruct (in_dec Z.eq_dec v (pd_verts p)) as [I|I]; [apply GI in Hv; tauto|]. rewrite (HO v Hv). apply GE in Hv as (Hv & B). apply elsewhereb_iff in B as (B & _). lia. }
  set (M := fold_right (fun E m => length E + m) 0 T). assert (ML : forall E, In E T -> length E <= M).
  { intros E X. unfold M. revert X. clear. induction T as [|F T IH]; intros []; cbn; [subst; lia|]. apply IH in H. cbn in *. lia. }
  assert (FL : forall (b : edge_input * Z -> bool) (l : list (edge_input * Z)), length (filter b l) <= length l) by (intros b l; induction l as [|x l IH]; cbn; [lia|destruct (b x); cbn; lia]).
  exists (N0 + S M + S (length (pd_verts p)) + S (length (ghosts_of (pd_verts p) (pd_tys p)))). intros fuel HF.
  unfold my_vals. rewrite (DK fuel) by lia. cbn [obind].
  destruct (C41_distributed_partial val f own V T ps r p g 0 E0 fuel HD Hr HE0 HB) as (s0 & -> & S1 & S2 & S3 & S4); [pose proof (ML E0 (nth_error_In _ _ HE0)); lia|intros e He; apply (HI E0); auto; eapply nth_error_In; eauto|]. cbn [obind].
  destruct (C34_vertex_weight val _ _ _ _ _ _ (Some tag) fuel HC) as (wv & -> & WV); [lia|]. cbn [obind].
  destruct (weights_of val V _ _ ND NG GE) as (gws & G1 & G2).
  destruct (C34_ghost_weight val _ _ _ _ _ _ tag gws fuel HC) as (wg & -> & WG); try lia.
  { symmetry. eapply Forall2_len; eauto. }
  { intros j x Hj. destruct (Forall2_nth_r _ _ _ _ _ _ _ G1 Hj) as (v & Hv & o & IV). eapply HT; eauto. }
  cbn [obind].
  assert (VW : (qsum (map val (vertex_weights (pd_verts p) (pd_vws p))) == vsum val (here own V r))%Q).
  { rewrite <- (vrecs_w p LW Lo), map_map. unfold vsum. apply qsum_perm, Permutation_map. exact PV. }
  assert (NTY : ntypes g = length T) by (rewrite <- LT; eapply c_ntypes; eauto).
  assert (PT : forall t E, nth_error T t = Some E -> exists w s, getWeight val g (Some tag) (Some t) false fuel = Some w /\ makeSides val g t fuel = Some s /\ (w == esum val (filter (touches own r) E))%Q /\ (inject_Z (c_total s) == esum val (cut_at own r E))%Q).
  { intros t E HE. destruct (nth_error (pd_tys p) t) as [(es, ws)|] eqn:Ht. 2:{ apply nth_error_None in Ht. assert (t < length T) by (apply nth_error_Some; congruence). lia. }
    pose proof (PE t (es, ws) E Ht HE) as PM. pose proof (ML E (nth_error_In _ _ HE)) as LE. pose proof (eweights_length _ _ _ _ _ _ HV (nth_error_In _ _ Ht)) as LL. cbn [fst] in LL.
    assert (L2 : length es <= length E). { apply Permutation_length in PM. unfold erecs in PM. cbn [fst] in PM. rewrite combine_length in PM. pose proof (FL (touches own r) E). lia. }
    destruct (C34_edge_weight val _ _ _ _ _ _ (Some tag) t (es, ws) fuel HC Ht) as (w & W1 & W2); [cbn; lia|].
    destruct (C41_distributed_partial val f own V T ps r p g t E fuel HD Hr HE HB) as (s & U1 & _ & _ & U3 & _); [lia|intros e He; apply (HI E); auto; eapply nth_error_In; eauto|].
    exists w, s. split; auto. split; auto. split.
    - rewrite W2. change (edge_weights (es, ws)) with (eweights (es, ws)). unfold esum. rewrite <- (qsum_perm _ _ (Permutation_map (fun e => val (snd e)) PM)). unfold erecs. cbn [fst]. rewrite <- (map_map snd val). rewrite snd_combine by auto. reflexivity.
    - rewrite U3. apply (qsum_z _ (fun e => val (snd e)) (fun e => f (snd e))). intros e He. apply filter_In in He as (He & _). apply (HI E); auto. eapply nth_error_In; eauto. }
  rewrite NTY. assert (EX : exists per, mapM (fun t => w <- getWeight val g (Some tag) (Some t) false fuel ;; s <- makeSides val g t fuel ;; Some [w; inject_Z (c_total s)]) (seq 0 (length T)) = Some per).
  { apply TagProps.mapM_forall. intros t Hin. apply in_seq in Hin. destruct (nth_error T t) as [E|] eqn:HE; [|apply nth_error_None in HE; lia]. destruct (PT t E HE) as (w & s & -> & -> & _). cbn. eauto. }
  destruct EX as (per & EP). rewrite EP. cbn [obind]. eexists. split; [reflexivity|].
  assert (PN : forall t E, nth_error T t = Some E -> exists w s, nth_error per t = Some [w; inject_Z (c_total s)] /\ (w == esum val (filter (touches own r) E))%Q /\ (inject_Z (c_total s) == esum val (cut_at own r E))%Q).
  { intros t E HE. assert (t < length T) by (apply nth_error_Some; congruence). destruct (mapM_nth _ _ _ _ _ t t EP) as (y & Y1 & Y2); [rewrite nth_error_seq by lia; reflexivity|]. cbv beta in Y2.
    destruct (PT t E HE) as (w & s & W & U & A & B). rewrite W, U in Y2. cbn in Y2. injection Y2 as <-. exists w, s. auto. }
  assert (P2 : forall x, In x per -> length x = 2).
  { intros x Hx. apply In_nth_error in Hx as (t & Ht). assert (t < length per) by (apply nth_error_Some; congruence). rewrite (mapM_length _ _ _ _ _ EP), seq_length in H. destruct (nth_error T t) as [E|] eqn:HE; [|apply nth_error_None in HE; lia].
    destruct (PN t E HE) as (w & s & Y & _). assert (x = [w; inject_Z (c_total s)]) by congruence. subst x. reflexivity. }
  split; [|split; [|split; [|split]]].
  - rewrite app_length, (len_flat2 per P2), (mapM_length _ _ _ _ _ EP), seq_length. reflexivity.
  - intros E1 HE1. assert (E1 = E0) by congruence. subst E1. split.
    + exists k. split; [|reflexivity]. revert CK. apply classes_same; [exact VI|].
      intros a b. split; apply linked_mono; intros x y (X & Y & e & He & Hx & Hy); apply rst_step; (split; [apply VI; auto|split; [apply VI; auto|]]).
      * apply (EI 0 es0 ws0 E0 Ht0 HE0) in He as (w & Hw & _). exists e. split; auto. apply in_map_iff. exists (e, w). auto.
      * apply in_map_iff in He as ((e', w) & E' & Hw). cbn in E'. subst e'. exists e. split; auto. apply (EI 0 es0 ws0 E0 Ht0 HE0). exists w. split; auto. unfold touches. cbn [fst]. apply existsb_exists. exists x. split; auto. apply VH in X as (_ & ->). apply Nat.eqb_refl.
    + cbn [app nth]. unfold csize. rewrite (keys_of _ (c_d s0) (length ps) r (fun q => match on_both own r q E0 with [] => false | _ => true end)); [reflexivity|auto|].
      intros q. rewrite <- chas_keys, S2. split.
      * intros (m & -> & Nm & NE). exists m. destruct (on_both own r m E0) as [|e l] eqn:O; [congruence|]. repeat split; auto. assert (X : In e (on_both own r m E0)) by (rewrite O; left; auto). apply filter_In in X as (X & B). apply andb_true_iff in B as (_ & B). unfold touches in B. apply existsb_exists in B as (v & Hv & B). apply Nat.eqb_eq in B. subst m. apply OW. apply (proj2 (WF E0 (nth_error_In _ _ HE0)) e v X Hv).
      * intros (m & -> & L & Nm & B). exists m. repeat split; auto. destruct (on_both own r m E0); [discriminate|congruence].
  - cbn [app nth]. rewrite WV. exact VW.
  - cbn [app nth]. rewrite WG, VW, G2. reflexivity.
  - intros t E HE. destruct (PN t E HE) as (w & s & Y & A & B). destruct (nth_flat2 per P2 t _ Y) as (Q1 & Q2). cbn [app nth Nat.add]. cbn [nth] in Q1, Q2. split; [transitivity w; [apply Qeq_refl_eq; exact Q1|exact A]|transitivity (inject_Z (c_total s)); [apply Qeq_refl_eq; exact Q2|exact B]].
Qed.
Print Assumptions C35_values_hypergraph.

(** ** Traditional graphs *)
(** the vertex lives elsewhere and an arc leads to it from a vertex on part r *)
Definition pointed (own : Z -> nat) (A : list arc) (r : nat) (v : Z) : bool := negb (own v =? r) && existsb (fun a => (own (fst a) =? r) && Z.eqb (snd a) v) A.
Definition arc_edges (A : list arc) : list edge_input := map (fun a => (0%Z, pin2 a)) A.
Definition trad_values_right (val : Z -> Q) (own : Z -> nat) (V : list (Z * (Z * Z))) (A : list arc) (w0 : Z) (n r : nat) (v : list Q) : Prop :=
  length v = 6 /\
  (exists k, classes (map fst (here own V r)) (linked (map fst (here own V r)) (arc_edges A)) k /\ nth 0 v 0 == inject_Z (Z.of_nat k - 1))%Q /\
  (nth 1 v 0 == inject_Z (Z.of_nat (length (filter (fun q => negb (q =? r) && match from_to own r q A with [] => false | _ => true end) (seq 0 n)))))%Q /\
  (nth 2 v 0 == vsum val (here own V r))%Q /\
  (nth 3 v 0 == vsum val (here own V r) + vsum val (filter (fun x => pointed own A r (fst x)) V))%Q /\
  (nth 4 v 0 == val w0 * inject_Z (Z.of_nat (length (filter (fun a => own (fst a) =? r) A))))%Q /\
  (nth 5 v 0 == val w0 * inject_Z (Z.of_nat (length (leaving own r A))))%Q.

Lemma out_dests_le v es : length (out_dests v es) <= length es.
Proof. unfold out_dests. induction es as [|e es IH]; [auto|]. cbn [flat_map length]. rewrite app_length. destruct (snd e) as [|a [|b l]]; cbn; try lia. destruct (Z.eqb a v); cbn; lia. Qed.
Lemma qsum_const (l : list Q) x : (forall y, In y l -> y == x)%Q -> (qsum l == x * inject_Z (Z.of_nat (length l)))%Q.
Proof.
  induction l as [|y l IH]; intros H; [cbn; ring|]. cbn [qsum length]. rewrite IH by (intros; apply H; right; auto). rewrite (H y) by (left; auto). rewrite Nat2Z.inj_succ, <- Z.add_1_l, inject_Z_plus. ring.
Qed.

(** Traditional graph in which every arc inside a part also goes the other way (without that the components are wrong, C36_directed_refuted) *)
Theorem C35_values_traditional : forall val f own V A w0 ps r p g tag,
  tdistributed own V A w0 ps -> nth_error ps r = Some p -> build_part (Z.of_nat r) false (pd_verts p) (pd_vws p) (pd_tys p) (pd_owns p) = Some g ->
  (forall a, In a A -> own (fst a) = r -> own (snd a) = r -> In (swap a) A) -> (val w0 == inject_Z (f w0))%Q ->
  (forall j v w o, nth_error (ghosts_of (pd_verts p) (pd_tys p)) j = Some v -> In (v, (w, o)) V -> aget tag j = Some w) ->
  exists N, forall fuel, N <= fuel -> exists v, my_vals val g (Some tag) fuel = Some v /\ trad_values_right val own V A w0 (length ps) r v.
Proof.
  intros val f own V A w0 ps r p g tag HD Hr HB SY HI HT. destruct (tdist_part own V A w0 ps r p g HD Hr HB) as (es & ws & ET & HV & LS & LA & W0 & PE & PO).
  pose proof HD as (((ND & WF) & OW & HP) & HG). destruct (HP r p Hr) as (_ & Lo & PV & _). specialize (HG p (nth_error_In _ _ Hr)).
  pose proof (p_constructed _ _ _ _ _ _ _ HV HB) as HC. assert (LW : length (pd_vws p) <= length (pd_verts p)) by apply HC.
  destruct (ghosts_iff _ _ _ _ HV HB) as (NG & GI). assert (Ht : nth_error (pd_tys p) 0 = Some (es, ws)) by (rewrite ET; reflexivity).
  assert (VI : forall v, In v (pd_verts p) <-> In v (map fst (here own V r))).
  { intros v. rewrite <- (vrecs_k p LW Lo). split; apply Permutation_in; [|apply Permutation_sym]; apply Permutation_map; exact PV. }
  assert (VH : forall v, In v (map fst (here own V r)) <-> In v (map fst V) /\ own v = r).
  { intros v. rewrite !in_map_iff. split; [intros (x & E & X); apply filter_In in X as (X & B); apply Nat.eqb_eq in B; subst v; split; [exists x; auto|auto]|].
    intros ((x & E & X) & B). exists x. split; auto. apply filter_In. split; auto. apply Nat.eqb_eq. now subst v. }
  assert (EI : forall u v, In [u; v] (map snd es) <-> In (u, v) A /\ own u = r).
  { intros u v. split.
    - intros H. apply (Permutation_in _ PE), in_map_iff in H as ((a, b) & E & X). unfold pin2 in E. cbn in E. injection E as -> ->. apply filter_In in X as (X & B). apply Nat.eqb_eq in B. auto.
    - intros (H & B). apply (Permutation_in _ (Permutation_sym PE)), in_map_iff. exists (u, v). split; auto. apply filter_In. split; auto. cbn. now apply Nat.eqb_eq. }
  assert (E2 : forall e, In e es -> exists u v, snd e = [u; v] /\ In (u, v) A /\ own u = r).
  { intros e He. assert (X : In (snd e) (map snd es)) by (apply in_map; auto). pose proof (Permutation_in _ PE X) as Y. apply in_map_iff in Y as ((u, v) & E & Y). exists u, v. split; [symmetry; exact E|]. apply filter_In in Y as (Y & B). apply Nat.eqb_eq in B. auto. }
  assert (GE : forall v, In v (ghosts_of (pd_verts p) (pd_tys p)) <-> In v (map fst V) /\ pointed own A r v = true).
  { intros v. rewrite GI. unfold pointed. rewrite andb_true_iff, negb_true_iff, Nat.eqb_neq, existsb_exists. split.
    - intros (NI & ty & e & H1 & H2 & H3). rewrite ET in H1. destruct H1 as [<-|[]]. cbn [fst] in H2. destruct (E2 e H2) as (u & w & EE & IA & OU). rewrite EE in H3. destruct (WF (u, w) IA) as (W1 & W2 & _). cbn in W1, W2.
      destruct H3 as [<-|[<-|[]]]; [exfalso; apply NI, VI, VH; auto|]. split; auto. split; [intros X; apply NI, VI, VH; auto|]. exists (u, w). cbn. rewrite OU, Nat.eqb_refl, Z.eqb_refl. auto.
    - intros (IV & NO & (u, w) & IA & B). cbn in B. apply andb_true_iff in B as (B1 & B2). apply Nat.eqb_eq in B1. apply Z.eqb_eq in B2. subst w. split; [intros X; apply VI, VH in X as (_ & X); auto|].
      assert (X : In [u; v] (map snd es)) by (apply EI; auto). apply in_map_iff in X as (e & X & He). exists (es, ws), e. rewrite ET. split; [left; auto|]. split; auto. rewrite X. cbn; auto. }
  exists (S (length A) + S (length es) + S (length (pd_verts p)) + S (length (ghosts_of (pd_verts p) (pd_tys p)))). intros fuel HF.
  destruct (C36_components_traditional_partial _ _ _ _ _ _ _ _ fuel HV HB Ht) as (k & CK & DK).
  { intros v Hv. unfold part_of. destruct (in_dec Z.eq_dec v (pd_verts p)) as [I|I]; [apply GI in Hv; tauto|]. rewrite (HG v Hv). apply GE in Hv as (Hv & B). unfold pointed in B. apply andb_true_iff in B as (B & _). apply negb_true_iff, Nat.eqb_neq in B. lia. }
  { intros a b Ia Ib X. apply VI, VH in Ia as (_ & Oa). apply VI, VH in Ib as (_ & Ob). unfold pins_of in *. apply EI in X as (X & _). apply EI. split; auto. apply (SY (a, b) X Oa Ob). }
  { lia. } { intros v _. pose proof (out_dests_le v es). lia. }
  unfold my_vals. rewrite DK. cbn [obind].
  destruct (C41_traditional_distributed_partial val f own V A w0 ps r p g fuel HD Hr HB) as (s0 & ES & S1 & S2 & S3 & S4); [lia|exact HI|]. rewrite ES. cbn [obind].
  destruct (C34_vertex_weight val _ _ _ _ _ _ (Some tag) fuel HC) as (wv & -> & WV); [lia|]. cbn [obind].
  destruct (weights_of val V _ _ ND NG GE) as (gws & G1 & G2).
  destruct (C34_ghost_weight val _ _ _ _ _ _ tag gws fuel HC) as (wg & -> & WG); try lia.
  { symmetry. eapply Forall2_len; eauto. }
  { intros j x Hj. destruct (Forall2_nth_r _ _ _ _ _ _ _ G1 Hj) as (v & Hv & o & IV). eapply HT; eauto. }
  cbn [obind].
  assert (VW : (qsum (map val (vertex_weights (pd_verts p) (pd_vws p))) == vsum val (here own V r))%Q).
  { rewrite <- (vrecs_w p LW Lo), map_map. unfold vsum. apply qsum_perm, Permutation_map. exact PV. }
  assert (NTY : ntypes g = 1) by (rewrite (c_ntypes _ _ _ _ _ _ HC), ET; reflexivity).
  destruct (C34_edge_weight val _ _ _ _ _ _ (Some tag) 0 (es, ws) fuel HC Ht) as (w & W1 & W2); [cbn; lia|].
  rewrite NTY. cbn [seq mapM]. rewrite W1, ES. cbn [obind concat app]. eexists. split; [reflexivity|]. unfold trad_values_right. cbn [nth length].
  split; [reflexivity|]. split; [|split; [|split; [|split; [|split]]]].
  - exists k. split; [|reflexivity]. revert CK. apply classes_same; [exact VI|].
    intros a b. split; apply linked_mono; intros x y (X & Y & e & He & Hx & Hy).
    + apply rst_step. split; [apply VI; auto|split; [apply VI; auto|]].
      destruct (E2 e He) as (u & v & EE & IA & OU). exists (0%Z, pin2 (u, v)). rewrite EE in Hx, Hy. split; [apply in_map_iff; exists (u, v); auto|]. cbn [snd]. auto.
    + apply in_map_iff in He as ((u, v) & <- & IA). cbn in Hx, Hy. pose proof (proj2 (proj1 (VH x) X)) as OX. pose proof (proj2 (proj1 (VH y) Y)) as OY.
      assert (OU : own u = r \/ x = y) by (destruct Hx as [<-|[<-|[]]]; destruct Hy as [<-|[<-|[]]]; auto).
      destruct OU as [OU|<-]; [|apply rst_refl]. apply rst_step. split; [apply VI; auto|split; [apply VI; auto|]].
      assert (Z : In [u; v] (map snd es)) by (apply EI; auto). apply in_map_iff in Z as (e & EE & Z). exists e. rewrite EE. cbn. auto.
  - unfold csize. rewrite (keys_of _ (c_d s0) (length ps) r (fun q => match from_to own r q A with [] => false | _ => true end)); [reflexivity|auto|].
    intros q. rewrite <- chas_keys, S2. split.
    + intros (m & -> & Nm & NE). exists m. destruct (from_to own r m A) as [|e l] eqn:O; [congruence|]. repeat split; auto. assert (X : In e (from_to own r m A)) by (rewrite O; left; auto). apply filter_In in X as (X & B). apply andb_true_iff in B as (_ & B). apply Nat.eqb_eq in B. subst m. apply OW. apply (WF e X).
    + intros (m & -> & L & Nm & B). exists m. repeat split; auto. destruct (from_to own r m A); [discriminate|congruence].
  - rewrite WV. exact VW.
  - rewrite WG, VW, G2. reflexivity.
  - rewrite W2. change (edge_weights (es, ws)) with (eweights (es, ws)). rewrite (qsum_const _ (val w0)).
    + rewrite map_length. assert (LL : length (eweights (es, ws)) = length (filter (fun a => own (fst a) =? r) A)); [|rewrite LL; reflexivity].
      etransitivity; [exact (eweights_length _ _ _ _ _ _ HV (nth_error_In _ _ Ht))|]. apply Permutation_length in PE. rewrite !map_length in PE. exact PE.
    + intros y Hy. apply in_map_iff in Hy as (z & <- & Hz). rewrite Forall_forall in W0. rewrite (W0 z Hz). reflexivity.
  - rewrite S3, inject_Z_mult, HI. reflexivity.
Qed.
Print Assumptions C35_values_traditional.

(** ** The whole call *)
(** the table printed for the values of all parts *)
Definition table_right (nt : nat) (vals : list (list Q)) (r : report) : Prop :=
  rp_empty r = Z.of_nat (length (filter (fun v => Qeq_bool (nth 3 v 0%Q) 0) vals)) /\
  max_sum (column 0 vals) (rp_dis r) /\ row_ok (column 1 vals) (rp_nb r) /\ row_ok (column 2 vals) (rp_vtx r) /\ row_ok (column 3 vals) (rp_tot r) /\
  length (rp_edges r) = nt /\
  forall t row cut, nth_error (rp_edges r) t = Some (row, cut) -> row_ok (column (4 + 2 * t) vals) row /\ max_sum (column (5 + 2 * t) vals) cut.
Lemma all_parts (A : Type) (ps : list A) (R : nat -> nat -> list Q -> Prop) (mv : nat -> nat -> option (list Q)) :
  (forall r, r < length ps -> exists N, forall fuel, N <= fuel -> exists v, mv fuel r = Some v /\ R fuel r v) ->
  exists N, forall fuel, N <= fuel -> exists vals, mapM (mv fuel) (seq 0 (length ps)) = Some vals /\ length vals = length ps /\ forall r v, nth_error vals r = Some v -> R fuel r v.
Proof.
  intros H. assert (B : forall n, n <= length ps -> exists N, forall fuel, N <= fuel -> forall r, r < n -> exists v, mv fuel r = Some v /\ R fuel r v).
  { induction n as [|n IH]; intros L; [exists 0; intros; lia|]. destruct IH as (N & IH); [lia|]. destruct (H n) as (M & HM); [lia|]. exists (N + M). intros fuel HF r Hr. destruct (Nat.eq_dec r n) as [->|]; [apply HM; lia|apply IH; lia]. }
  destruct (B _ (le_n _)) as (N & HN). exists N. intros fuel HF. assert (EX : exists vals, mapM (mv fuel) (seq 0 (length ps)) = Some vals).
  { apply TagProps.mapM_forall. intros r Hr. apply in_seq in Hr. destruct (HN fuel HF r) as (v & E & _); [lia|]. eauto. }
  destruct EX as (vals & E). exists vals. pose proof (mapM_length _ _ _ _ _ E) as L. rewrite seq_length in L. split; auto. split; auto.
  intros r v Hr. assert (r < length ps) by (rewrite <- L; apply nth_error_Some; congruence). destruct (mapM_nth _ _ _ _ _ r r E) as (y & Y1 & Y2); [rewrite nth_error_seq by lia; reflexivity|]. destruct (HN fuel HF r H0) as (v' & E' & X).
  assert (v' = v) by congruence. subst. exact X.
Qed.
(** One call of evaluatePartition on all parts of a distributed hypergraph with one or two edge types: the values of part r are the numbers of the graph on part r, and the
    table shows their maxima, minima, averages and totals.  [_partial]: three or more types are refuted above, none too; names longer than five characters below. *)
Theorem C35_report_hypergraph_partial : forall val f own V T ps gs tags,
  distributed own V T ps -> ps <> [] -> length T = 1 \/ length T = 2 -> length gs = length ps -> length tags = length ps ->
  (forall r p g, nth_error ps r = Some p -> nth_error gs r = Some g -> build_part (Z.of_nat r) true (pd_verts p) (pd_vws p) (pd_tys p) (pd_owns p) = Some g) ->
  (forall E e, In E T -> In e E -> val (snd e) == inject_Z (f (snd e)))%Q ->
  (forall r p tag j v w o, nth_error ps r = Some p -> nth_error tags r = Some tag -> nth_error (ghosts_of (pd_verts p) (pd_tys p)) j = Some v -> In (v, (w, o)) V -> aget tag j = Some w) ->
  exists N, forall fuel, N <= fuel -> exists vals rep,
    mapM (fun r => g <- nth_error gs r ;; tag <- nth_error tags r ;; my_vals val g (Some tag) fuel) (seq 0 (length ps)) = Some vals /\
    length vals = length ps /\ (forall r v, nth_error vals r = Some v -> values_right val own V T (length ps) r v) /\
    evaluatePartition (length T) vals = Some rep /\ table_right (length T) vals rep.
Proof.
  intros val f own V T ps gs tags HD NE LT Lg Lt HB HI HT.
  destruct (all_parts _ ps (fun _ r v => values_right val own V T (length ps) r v) (fun fuel r => g <- nth_error gs r ;; tag <- nth_error tags r ;; my_vals val g (Some tag) fuel)) as (N & HN).
  { intros r Hr. destruct (nth_error ps r) as [p|] eqn:Ep; [|apply nth_error_None in Ep; lia]. destruct (nth_error gs r) as [g|] eqn:Eg; [|apply nth_error_None in Eg; lia]. destruct (nth_error tags r) as [tag|] eqn:Et; [|apply nth_error_None in Et; lia].
    cbn [obind]. apply (C35_values_hypergraph val f own V T ps r p g tag HD Ep (HB _ _ _ Ep Eg)); auto; [intros X; rewrite X in LT; cbn in LT; lia|]. intros j v w o. apply (HT r p tag j v w o Ep Et). }
  exists N. intros fuel HF. destruct (HN fuel HF) as (vals & E & L & R). destruct (C35_table_partial (length T) vals LT) as (rep & ER & TR).
  - destruct vals; [destruct ps; [congruence|discriminate]|discriminate].
  - intros v Hv. apply In_nth_error in Hv as (r & Hr). apply (R r v Hr).
  - exists vals, rep. auto.
Qed.
Print Assumptions C35_report_hypergraph_partial.
Theorem C35_report_traditional_partial : forall val f own V A w0 ps gs tags,
  tdistributed own V A w0 ps -> ps <> [] -> length gs = length ps -> length tags = length ps ->
  (forall r p g, nth_error ps r = Some p -> nth_error gs r = Some g -> build_part (Z.of_nat r) false (pd_verts p) (pd_vws p) (pd_tys p) (pd_owns p) = Some g) ->
  (forall a, In a A -> own (fst a) = own (snd a) -> In (swap a) A) -> (val w0 == inject_Z (f w0))%Q ->
  (forall r p tag j v w o, nth_error ps r = Some p -> nth_error tags r = Some tag -> nth_error (ghosts_of (pd_verts p) (pd_tys p)) j = Some v -> In (v, (w, o)) V -> aget tag j = Some w) ->
  exists N, forall fuel, N <= fuel -> exists vals rep,
    mapM (fun r => g <- nth_error gs r ;; tag <- nth_error tags r ;; my_vals val g (Some tag) fuel) (seq 0 (length ps)) = Some vals /\
    length vals = length ps /\ (forall r v, nth_error vals r = Some v -> trad_values_right val own V A w0 (length ps) r v) /\
    evaluatePartition 1 vals = Some rep /\ table_right 1 vals rep.
Proof.
  intros val f own V A w0 ps gs tags HD NE Lg Lt HB SY HI HT.
  destruct (all_parts _ ps (fun _ r v => trad_values_right val own V A w0 (length ps) r v) (fun fuel r => g <- nth_error gs r ;; tag <- nth_error tags r ;; my_vals val g (Some tag) fuel)) as (N & HN).
  { intros r Hr. destruct (nth_error ps r) as [p|] eqn:Ep; [|apply nth_error_None in Ep; lia]. destruct (nth_error gs r) as [g|] eqn:Eg; [|apply nth_error_None in Eg; lia]. destruct (nth_error tags r) as [tag|] eqn:Et; [|apply nth_error_None in Et; lia].
    cbn [obind]. apply (C35_values_traditional val f own V A w0 ps r p g tag HD Ep (HB _ _ _ Ep Eg)); auto; [intros a Ha O1 O2; apply SY; auto; congruence|]. intros j v w o. apply (HT r p tag j v w o Ep Et). }
  exists N. intros fuel HF. destruct (HN fuel HF) as (vals & E & L & R). destruct (C35_table_partial 1 vals (or_introl eq_refl)) as (rep & ER & TR).
  - destruct vals; [destruct ps; [congruence|discriminate]|discriminate].
  - intros v Hv. apply In_nth_error in Hv as (r & Hr). apply (R r v Hr).
  - exists vals, rep. auto.
Qed.
Print Assumptions C35_report_traditional_partial.

(** ** Concrete cases *)
Definition ev_val (z : Z) : Q := inject_Z z.
Definition ev_tags : list (arr Z) := [[Some 7; Some 1]; [Some 6; Some 5]]%Z.
Definition ev_vals (hg : bool) (ps : list pdesc) (tags : list (arr Z)) (fuel : nat) : option (list (list Q)) :=
  gs <- mapM (fun rp => build_part (Z.of_nat (fst rp)) hg (pd_verts (snd rp)) (pd_vws (snd rp)) (pd_tys (snd rp)) (pd_owns (snd rp))) (combine (seq 0 (length ps)) ps) ;;
  vals <- mapM (fun r => g <- nth_error gs r ;; tag <- nth_error tags r ;; my_vals ev_val g (Some tag) fuel) (seq 0 (length ps)) ;;
  Some (map (map Qred) vals).
(** two parts that share two of three edges: no extra component on part 0, vertices 11 + 8, edges 9, cut 7; and so on *)
Example C35_hypergraph_example : distributed ex_own ex_V [ex_E] MigrateProps.ex_ps /\
  (forall r p tag j v w o, nth_error MigrateProps.ex_ps r = Some p -> nth_error ev_tags r = Some tag -> nth_error (ghosts_of (pd_verts p) (pd_tys p)) j = Some v -> In (v, (w, o)) ex_V -> aget tag j = Some w) /\
  ev_vals true MigrateProps.ex_ps ev_tags 50 = Some [[0; 1; 11; 19; 9; 7]; [0; 1; 8; 19; 7; 7]]%Q.
Proof.
  split; [apply distributedb_ok; vm_compute; reflexivity|]. split; [|vm_compute; reflexivity].
  intros [|[|r]] p tag j v w o Hp Ht Hj Hv; cbn in Hp, Ht; try discriminate; [| |destruct r; discriminate]; injection Hp as <-; injection Ht as <-; vm_compute in Hj;
    (destruct j as [|[|[|j]]]; try discriminate; cbn in Hj; injection Hj as <-; cbn in Hv; repeat (destruct Hv as [Hv|Hv]; [try discriminate; injection Hv as <- <-; reflexivity|]); destruct Hv).
Qed.
Example C35_traditional_example : tdistributed TradProps.tex_own TradProps.tex_V TradProps.tex_A 1 TradProps.tex_ps /\
  (forall a, In a TradProps.tex_A -> TradProps.tex_own (fst a) = TradProps.tex_own (snd a) -> In (swap a) TradProps.tex_A) /\
  ev_vals false TradProps.tex_ps [[Some 7%Z]; [Some 6%Z]; []] 50 = Some [[0; 1; 11; 18; 3; 1]; [0; 1; 15; 21; 3; 1]; [-1 # 1; 0; 0; 0; 0; 0]]%Q.
Proof.
  split; [apply TradProps.tdistributedb_ok; vm_compute; reflexivity|]. split; [|vm_compute; reflexivity].
  intros a Ha _. cbn in Ha. repeat (destruct Ha as [<-|Ha]; [cbn; tauto|]). destruct Ha.
Qed.

(** ** The labels *)
From Coq Require Import String Ascii.
Local Open Scope string_scope.
Lemma slen_app a b : String.length (a ++ b) = (String.length a + String.length b)%nat.
Proof. induction a as [|c a IH]; cbn; auto. Qed.
(** names of at most five characters are printed in full in front of every line *)
Theorem C35_labels_partial : forall nt name, (String.length name <= 5)%nat ->
  eval_labels nt name = Some (List.app (map (fun s => "PARTITION " ++ name ++ s) [": Empty Parts:"; ": Disconnected Components:"; ": Neighbors:"; ": Local Vertex:"; ": Total Vertex:"])
    (flat_map (fun t => ["PARTITION " ++ name ++ ": Edges type " ++ digit t ++ ":"; "PARTITION " ++ name ++ ": Edges type " ++ digit t ++ " Cut:"]) (seq 0 nt))).
Proof.
  intros nt name L. unfold eval_labels, eval_prefix, put_text. rewrite slen_app. change (String.length "PARTITION ") with 10. destruct (Nat.leb_spec (10 + String.length name + 1) 100); [|lia]. cbn [obind].
  assert (ASC : forall a b c : string, (a ++ b) ++ c = a ++ b ++ c) by (induction a as [|x a IH]; intros; cbn; [auto|now rewrite IH]).
  assert (E : mapM (fun i => e <- eval_edge_name ("PARTITION " ++ name) i ;; Some [e ++ ":"; e ++ " Cut:"]) (seq 0 nt) = Some (map (fun t => ["PARTITION " ++ name ++ ": Edges type " ++ digit t ++ ":"; "PARTITION " ++ name ++ ": Edges type " ++ digit t ++ " Cut:"]) (seq 0 nt))).
  { generalize (seq 0 nt). induction l as [|t l IH]; [reflexivity|]. cbn [mapM map]. unfold eval_edge_name at 1, put_text. rewrite !slen_app. change (String.length "PARTITION ") with 10. change (String.length ": Edges type ") with 13. change (String.length (digit t)) with 1.
    destruct (Nat.leb_spec (10 + String.length name + (13 + 1) + 1) 30); [|lia]. cbn [obind]. rewrite IH. cbn [obind]. do 2 f_equal. rewrite !ASC. reflexivity. }
  rewrite E. cbn [obind]. rewrite flat_map_concat_map. apply (f_equal Some). apply (f_equal (fun x => List.app x _)). apply map_ext. intros s. apply ASC.
Qed.
Print Assumptions C35_labels_partial.
(** any longer name overruns edge_name as soon as there is an edge type ("Before" is such a name) *)
Theorem C35_long_name_refuted : forall nt name, (1 <= nt)%nat -> (6 <= String.length name)%nat -> eval_labels nt name = None.
Proof.
  intros nt name Hn L. unfold eval_labels. destruct (eval_prefix name) as [p|] eqn:E; [|reflexivity]. unfold eval_prefix, put_text in E. rewrite slen_app in E. change (String.length "PARTITION ") with 10 in E. destruct (Nat.leb_spec (10 + String.length name + 1) 100); [|discriminate]. assert (EP : String.length p = (10 + String.length name)%nat) by (assert (X : "PARTITION " ++ name = p) by congruence; rewrite <- X; apply slen_app). cbn [obind].
  destruct nt as [|nt]; [lia|]. cbn [seq mapM]. unfold eval_edge_name at 1, put_text. rewrite !slen_app, EP. change (String.length ": Edges type ") with 13. change (String.length (digit 0)) with 1.
  destruct (Nat.leb_spec (10 + String.length name + (13 + 1) + 1) 30); [lia|reflexivity].
Qed.
Print Assumptions C35_long_name_refuted.
Example C35_labels_example : eval_labels 1 "After" = Some ["PARTITION After: Empty Parts:"; "PARTITION After: Disconnected Components:"; "PARTITION After: Neighbors:"; "PARTITION After: Local Vertex:"; "PARTITION After: Total Vertex:"; "PARTITION After: Edges type 0:"; "PARTITION After: Edges type 0 Cut:"] /\
  eval_labels 1 "Before" = None.
Proof. split; reflexivity. Qed.
