(** trim and cancel on a distributed hypergraph. *)
From Verif Require Import Base GraphModel GraphSpec ConstructProofs GraphTop GraphTop2 AccessProofs Comm TagModel TagProps MetricsModel MetricsProofs MetricsProps MigrateModel MigrateSpec MigrateProofs5 MigrateTop SidesProofs SidesProps SecondAdjProps SelectorModel SelectorProofs.
From Coq Require Import Lqa.
Local Open Scope nat_scope.

(** ** generic *)
Lemma mapM_choice A B (f : A -> option B) (P : nat -> A -> B -> Prop) l : (forall i a, nth_error l i = Some a -> exists b, f a = Some b /\ P i a b) ->
  exists r, mapM f l = Some r /\ length r = length l /\ forall i a b, nth_error l i = Some a -> nth_error r i = Some b -> P i a b.
Proof.
  intros H. destruct (mapM_forall f l) as (r & E). { intros x Hx. apply In_nth_error in Hx as (i & Hi). destruct (H i x Hi) as (b & Eb & _). eauto. }
  exists r. split; auto. split; [eapply mapM_length; eauto|]. intros i a b Ha Hb. destruct (mapM_nth _ _ _ _ _ _ _ E Ha) as (y & Hy & Ey). destruct (H i a Ha) as (b' & Eb & HP). congruence.
Qed.
Lemma par2_choice A B C (f : A -> B -> option C) (P : nat -> A -> B -> C -> Prop) l1 l2 : length l2 = length l1 ->
  (forall i a b, nth_error l1 i = Some a -> nth_error l2 i = Some b -> exists c, f a b = Some c /\ P i a b c) ->
  exists r, par2 (fun _ => f) 0 l1 l2 = Some r /\ length r = length l1 /\ forall i a b c, nth_error l1 i = Some a -> nth_error l2 i = Some b -> nth_error r i = Some c -> P i a b c.
Proof.
  intros L H. destruct (par2_total _ _ _ (fun _ => f) 0 l1 l2 L) as (r & E). { intros i a b Ha Hb. destruct (H i a b Ha Hb) as (c & Ec & _). eauto. }
  exists r. split; auto. split; [exact (proj1 (par2_length _ _ _ _ _ _ _ _ E))|]. intros i a b c Ha Hb Hc. destruct (par2_nth _ _ _ _ _ _ _ _ _ _ E Hc) as (a' & b' & Ha' & Hb' & Ec). destruct (H i a b Ha Hb) as (c' & Ec' & HP). congruence.
Qed.
Lemma filter_key_le1 (M : Type) (ms : list (Z * M)) q : NoDup (map fst ms) -> length (filter (fun m => Z.eqb (fst m) q) ms) <= 1.
Proof.
  induction ms as [|m ms IH]; intros N; cbn [filter]; [cbn; lia|]. cbn in N. inversion N; subst. destruct (Z.eqb_spec (fst m) q) as [E|]; [|auto].
  cbn [length]. assert (F : filter (fun m => Z.eqb (fst m) q) ms = []); [|rewrite F; cbn; lia]. clear - H1 E. induction ms as [|x ms IH]; [reflexivity|]. cbn [filter]. destruct (Z.eqb_spec (fst x) q); [exfalso; apply H1; left; congruence|]. apply IH. intros I. apply H1. right; auto.
Qed.
Lemma addressed_nodup (M : Type) q (sent : list (list (Z * M))) : (forall ms, In ms sent -> NoDup (map fst ms)) -> NoDup (map fst (addressed q sent)).
Proof.
  unfold addressed. generalize 0. induction sent as [|ms sent IH]; intros k H; cbn [length seq combine flat_map map]; [constructor|]. cbn [fst snd]. rewrite map_app, map_map. cbn [fst].
  pose proof (filter_key_le1 M ms (Z.of_nat q) (H ms (or_introl eq_refl))) as L1. apply NoDup_app_iff. split; [|split].
  - destruct (filter _ ms) as [|a [|b r]]; cbn in *; [constructor|constructor; [intros []|constructor]|lia].
  - apply IH. intros; apply H; right; auto.
  - intros x Hx Hy. apply in_map_iff in Hx as (m & <- & _). apply in_map_iff in Hy as (y & E & Hy). apply in_flat_map in Hy as ((i, ms') & Hi & Hy). apply in_combine_l in Hi. apply in_seq in Hi. apply in_map_iff in Hy as (m' & <- & _). cbn in E. lia.
Qed.
Lemma gather_find r d take : NoDup (map fst r) -> zfind (gather r) d = Some take <-> In (d, take) r.
Proof.
  unfold gather. assert (G : forall r m, NoDup (map fst r) -> (forall k, In k (map fst r) -> zfind m k = None) -> (zfind (fold_left (fun m (x : Z * list Q) => zput m (fst x) (snd x)) r m) d = Some take <-> In (d, take) r \/ zfind m d = Some take)).
  { clear. induction r as [|[k x] r IH]; intros m N HN; cbn [fold_left fst snd]; [cbn; tauto|]. cbn in N. inversion N; subst. rewrite IH; auto.
    - rewrite zfind_zput. cbn [In]. destruct (Z.eqb_spec k d) as [->|].
      + pose proof (HN d (or_introl eq_refl)). split; [intros [A|A]; [auto|inversion A; subst; auto]|]. intros [[A|A]|A]; [inversion A; auto|auto|congruence].
      + split; [tauto|]. intros [[A|A]|A]; auto. congruence.
    - intros j Hj. rewrite zfind_zput. destruct (Z.eqb_spec k j) as [->|]; [contradiction|]. apply HN. right; auto. }
  intros N. rewrite G; auto. cbn. split; [intros [A|A]; [auto|discriminate]|auto].
Qed.
(** sum of looked up values *)
Lemma lookup_sum acc i n : NoDup (map fst acc) -> (forall k, In k (map fst acc) -> (0 <= k < Z.of_nat n)%Z) ->
  (qsum (map (fun p => match zfind acc (Z.of_nat p) with Some t => nthq t i | None => 0 end) (seq 0 n)) == given acc i)%Q.
Proof.
  induction acc as [|[k t] acc IH]; intros N R; unfold given; cbn [map qsum snd].
  - rewrite (qsum_eq _ 0%Q); [ring|]. intros x Hx. apply in_map_iff in Hx as (p & <- & _). reflexivity.
  - cbn in N. inversion N as [|? ? NI N']; subst. change (qsum (map (fun m => nthq (snd m) i) acc)) with (given acc i). rewrite <- IH; auto; [|intros; apply R; right; auto].
    assert (B : (0 <= k < Z.of_nat n)%Z) by (apply R; left; auto).
    assert (G : forall a m, (qsum (map (fun p => match zfind ((k, t) :: acc) (Z.of_nat p) with Some t => nthq t i | None => 0 end) (seq a m)) ==
       (if (Z.of_nat a <=? k)%Z && (k <? Z.of_nat (a + m))%Z then nthq t i else 0) + qsum (map (fun p => match zfind acc (Z.of_nat p) with Some t => nthq t i | None => 0 end) (seq a m)))%Q).
    { intros a m. revert a. induction m as [|m IHm]; intros a; cbn [seq map qsum].
      - destruct (Z.leb_spec (Z.of_nat a) k), (Z.ltb_spec k (Z.of_nat (a + 0))); cbn [andb]; try ring; lia.
      - rewrite IHm. cbn [zfind]. destruct (Z.eqb_spec (Z.of_nat a) k) as [E|E].
        + assert (F : zfind acc (Z.of_nat a) = None). { destruct (zfind acc (Z.of_nat a)) eqn:Z0; auto. exfalso. apply NI. rewrite <- E. apply zfind_key. congruence. } rewrite F.
          destruct (Z.leb_spec (Z.of_nat (S a)) k), (Z.leb_spec (Z.of_nat a) k), (Z.ltb_spec k (Z.of_nat (S a + m))), (Z.ltb_spec k (Z.of_nat (a + S m))); cbn [andb]; try ring; lia.
        + destruct (Z.leb_spec (Z.of_nat (S a)) k), (Z.leb_spec (Z.of_nat a) k), (Z.ltb_spec k (Z.of_nat (S a + m))), (Z.ltb_spec k (Z.of_nat (a + S m))); cbn [andb]; try ring; lia. }
    rewrite G. cbn [Nat.add]. destruct (Z.leb_spec (Z.of_nat 0) k), (Z.ltb_spec k (Z.of_nat n)); cbn [andb]; try reflexivity; lia.
Qed.
Definition fsum {A} (w : A -> Q) (b : A -> bool) (l : list A) : Q := qsum (map (fun x => if b x then w x else 0%Q) l).
Lemma fsum_filter A (w : A -> Q) b l : (qsum (map w (filter b l)) == fsum w b l)%Q.
Proof. unfold fsum. induction l as [|x l IH]; [reflexivity|]. cbn [filter map qsum]. destruct (b x); cbn [map qsum]; rewrite IH; ring. Qed.
Lemma qsum_perm l l' : Permutation l l' -> (qsum l == qsum l')%Q.
Proof. intros P. induction P; cbn [qsum]; [reflexivity|rewrite IHP; reflexivity|ring|etransitivity; eauto]. Qed.
Lemma fsum_cover A (w : A -> Q) b' b (N : nat -> A -> bool) n l : (forall x, In x l -> 0 <= w x)%Q ->
  (forall x, In x l -> b' x = true -> b x = false -> exists p, p < n /\ N p x = true) ->
  (fsum w b' l <= fsum w b l + qsum (map (fun p => fsum w (N p) l) (seq 0 n)))%Q.
Proof.
  intros HW HC. unfold fsum. induction l as [|x l IH].
  - cbn [map qsum]. rewrite (qsum_eq _ 0%Q); [lra|]. intros y Hy. apply in_map_iff in Hy as (p & <- & _). reflexivity.
  - cbn [map qsum]. assert (IH' := IH ltac:(intros; apply HW; right; auto) ltac:(intros; apply HC; auto; right; auto)). clear IH.
    assert (SP : (qsum (map (fun p => (if N p x then w x else 0) + qsum (map (fun y => if N p y then w y else 0) l)) (seq 0 n)) ==
       qsum (map (fun p => if N p x then w x else 0) (seq 0 n)) + qsum (map (fun p => qsum (map (fun y => if N p y then w y else 0) l)) (seq 0 n)))%Q).
    { generalize (seq 0 n). induction l0 as [|p r IHr]; cbn [map qsum]; [ring|]. rewrite IHr. ring. }
    rewrite SP. assert (W0 : (0 <= w x)%Q) by (apply HW; left; auto).
    assert (P0 : (0 <= qsum (map (fun p => if N p x then w x else 0) (seq 0 n)))%Q). { apply qsum_nonneg. intros y Hy. apply in_map_iff in Hy as (p & <- & _). destruct (N p x); lra. }
    destruct (b' x) eqn:E'; destruct (b x) eqn:E; try lra. destruct (HC x (or_introl eq_refl) E' E) as (p & Lp & Np).
    assert (w x <= qsum (map (fun p => if N p x then w x else 0) (seq 0 n)))%Q; [|lra]. apply (qsum_elem (map (fun p => if N p x then w x else 0%Q) (seq 0 n))).
    + intros y Hy. apply in_map_iff in Hy as (p' & <- & _). destruct (N p' x); lra.
    + apply in_map_iff. exists p. rewrite Np. split; auto. apply in_seq. lia.
Qed.
Lemma qsum_le_map A (f h : A -> Q) l : (forall x, In x l -> f x <= h x)%Q -> (qsum (map f l) <= qsum (map h l))%Q.
Proof. induction l as [|x l IH]; intros H; cbn [map qsum]; [lra|]. assert (f x <= h x)%Q by (apply H; left; auto). assert (qsum (map f l) <= qsum (map h l))%Q by (apply IH; intros; apply H; right; auto). lra. Qed.
(** selecting positions of a list *)
Lemma fsum_index A (w : A -> Q) b l (f : nat -> nat) (ew : nat -> Q) : (forall i x, nth_error l i = Some x -> ew (f i) = w x) ->
  (fsum w b l == qsum (map ew (map f (filter (fun i => match nth_error l i with Some x => b x | None => false end) (seq 0 (length l))))))%Q.
Proof.
  intros H. rewrite map_map. rewrite (fsum_filter nat (fun i => ew (f i))). unfold fsum.
  assert (G : forall l' k, (forall i x, nth_error l' i = Some x -> nth_error l (k + i) = Some x) -> (qsum (map (fun x => if b x then w x else 0) l') == qsum (map (fun i => if match nth_error l i with Some x => b x | None => false end then ew (f i) else 0) (seq k (length l'))))%Q).
  { induction l' as [|x l' IH]; intros k HK; [reflexivity|]. cbn [length seq map qsum]. pose proof (HK 0 x eq_refl) as H0. rewrite Nat.add_0_r in H0. rewrite H0, (H _ _ H0). rewrite <- (IH (S k)); [reflexivity|]. intros i y Hy. rewrite Nat.add_succ_l, <- Nat.add_succ_r. now apply HK. }
  apply (G l 0). auto.
Qed.

(** ** the weight of part q: of its vertices, or of the edges of one type that touch it *)
Definition part_weight (val : Z -> Q) (own : Z -> nat) (V : list (Z * (Z * Z))) (T : list (list (edge_input * Z))) (q : nat) (x : option nat) : Q :=
  match x with
  | None => qsum (map (fun v => val (fst (snd v))) (filter (fun v => own (fst v) =? q) V))
  | Some t => qsum (map (fun e => val (snd e)) (filter (touches own q) (nth t T [])))
  end.
Definition weights_pos (val : Z -> Q) (V : list (Z * (Z * Z))) (T : list (list (edge_input * Z))) : Prop :=
  (forall v, In v V -> 0 <= val (fst (snd v)))%Q /\ forall E e, In E T -> In e E -> (0 <= val (snd e))%Q.

Lemma vrec_nth p l x : nth_error (vrecs p) l = Some x -> nth_error (pd_verts p) l = Some (fst x) /\ nth_error (vweights p) l = Some (fst (snd x)).
Proof.
  unfold vrecs. intros H. assert (G : forall A B (a : list A) (b : list B) l x, nth_error (combine a b) l = Some x -> nth_error a l = Some (fst x) /\ nth_error b l = Some (snd x)).
  { clear. induction a as [|y a IH]; intros [|z b] [|l] x H; cbn in *; try discriminate; [inversion H; auto|auto]. }
  apply G in H as (A & B). apply G in B as (B & _). auto.
Qed.
Lemma erec_nth ty i x : nth_error (erecs ty) i = Some x -> nth_error (fst ty) i = Some (fst x) /\ nth_error (eweights ty) i = Some (snd x).
Proof.
  unfold erecs. assert (G : forall A B (a : list A) (b : list B) l x, nth_error (combine a b) l = Some x -> nth_error a l = Some (fst x) /\ nth_error b l = Some (snd x)).
  { clear. induction a as [|y a IH]; intros [|z b] [|l] x H; cbn in *; try discriminate; [inversion H; auto|auto]. }
  apply G.
Qed.
Lemma vrecs_length p : length (pd_vws p) <= length (pd_verts p) -> length (pd_oo p) = length (pd_verts p) -> length (vrecs p) = length (pd_verts p).
Proof. intros A B. unfold vrecs, vweights. rewrite !combine_length, app_length, repeat_length. lia. Qed.
Lemma getWeight_part val own V T ps r p g gw x fuel : distributed own V T ps -> nth_error ps r = Some p -> build_part (Z.of_nat r) true (pd_verts p) (pd_vws p) (pd_tys p) (pd_owns p) = Some g ->
  big_enough fuel V T -> match x with Some t => t < length T | None => True end ->
  exists w, getWeight val g gw x false fuel = Some w /\ (w == part_weight val own V T r x)%Q.
Proof.
  intros HD Hp HB HF Hx. assert (FO : fuel_ok fuel p) by (eapply fuel_global; eauto; eapply nth_error_In; eauto). pose proof HD as (_ & _ & HP). destruct (HP r p Hp) as (HV & Lo & PV & LT & PE & _).
  pose proof (p_constructed _ _ _ _ _ _ _ HV HB) as HC. destruct x as [t|]; cbn [part_weight].
  - assert (nth_error (pd_tys p) t <> None) by (apply nth_error_Some; lia). destruct (nth_error (pd_tys p) t) as [ty|] eqn:Et; [|congruence].
    assert (nth_error T t <> None) by (apply nth_error_Some; lia). destruct (nth_error T t) as [E|] eqn:ET; [|congruence].
    destruct (C34_edge_weight val _ _ _ _ _ g gw t ty fuel HC Et) as (w & Ew & W); [apply FO; eapply nth_error_In; eauto|]. exists w. split; auto. rewrite W. rewrite (nth_error_nth _ _ _ ET).
    assert (EQ : map val (edge_weights ty) = map (fun e => val (snd e)) (erecs ty)).
    { change (edge_weights ty) with (eweights ty). pose proof (eweights_length _ _ _ _ (fst ty) (snd ty) HV) as L. rewrite <- surjective_pairing in L. specialize (L (nth_error_In _ _ Et)). unfold erecs.
      revert L. generalize (eweights ty) (fst ty). clear. intros l es. revert es. induction l as [|w l IH]; intros [|e es] L; try discriminate; [reflexivity|]. cbn. f_equal. apply IH. cbn in L. lia. }
    rewrite EQ. apply qsum_perm, Permutation_map. eapply PE; eauto.
  - destruct (C34_vertex_weight val _ _ _ _ _ g gw fuel HC) as (w & Ew & W); [apply FO|]. exists w. split; auto. rewrite W.
    assert (LW : length (pd_vws p) <= length (pd_verts p)) by apply HV.
    assert (EQ : map val (vertex_weights (pd_verts p) (pd_vws p)) = map (fun v => val (fst (snd v))) (vrecs p)).
    { change (vertex_weights (pd_verts p) (pd_vws p)) with (vweights p). unfold vrecs. assert (L1 : length (vweights p) = length (pd_verts p)) by (unfold vweights; rewrite app_length, repeat_length; lia). revert L1 Lo. generalize (vweights p) (pd_oo p) (pd_verts p). clear.
      induction l as [|w l IH]; intros [|o lo] [|v lv] L1 L2; cbn in *; try discriminate; [reflexivity|]. f_equal. apply IH; lia. }
    rewrite EQ. apply qsum_perm, Permutation_map, PV.
Qed.

(** ** one part *)
Section Part.
Variables (val : Z -> Q) (own : Z -> nat) (V : list (Z * (Z * Z))) (T : list (list (edge_input * Z))) (ps : list pdesc) (r : nat) (p : pdesc) (g : graph) (gw : option (arr Z)) (fuel : nat).
Hypothesis HD : distributed own V T ps.
Hypothesis Hp : nth_error ps r = Some p.
Hypothesis HB : build_part (Z.of_nat r) true (pd_verts p) (pd_vws p) (pd_tys p) (pd_owns p) = Some g.
Hypothesis HF : big_enough fuel V T.
Hypothesis HW : weights_pos val V T.
Lemma HH : holds own V T r p. Proof. exact (proj2 (proj2 HD) r p Hp). Qed.
Lemma HV : valid_input true (pd_verts p) (pd_vws p) (pd_tys p). Proof. exact (proj1 HH). Qed.
Lemma HC : constructed (Z.of_nat r) true (pd_verts p) (pd_vws p) (pd_tys p) g. Proof. exact (p_constructed _ _ _ _ _ _ _ HV HB). Qed.
Lemma FO : fuel_ok fuel p. Proof. exact (fuel_global own V T ps fuel p HD HF (nth_error_In _ _ Hp)). Qed.

Definition il (t h : nat) : list nat :=
  match h with 0 => [] | S l => match nth_error (pd_verts p) l, nth_error (pd_tys p) t with Some v, Some ty => map (fun i => getEdge (ntypes g) i t) (incident v (fst ty)) | _, _ => [] end end.
Definition res (e : nat) (d : Z) : bool := match isResidentOn g e d with Some b => b | None => false end.
Definition ew (e : nat) : Q := match eweight g e with Some x => val x | None => 0%Q end.
Definition vw (h : nat) : Q := match weight_of val g gw h with Some x => x | None => 0%Q end.
Definition loc (h : nat) : Prop := exists l, h = getVertex l /\ l < length (pd_verts p).
Definition tok (t : nat) : Prop := t < length T.
Lemma s_nlv : nlv g = length (pd_verts p). Proof. apply (rp_nlv _ _ _ _ _ (proj1 (constructed_rep _ _ _ _ _ _ HC))). Qed.
Lemma s_lens : length (pd_vws p) <= length (pd_verts p) /\ length (pd_oo p) = length (pd_verts p) /\ length (pd_tys p) = length T.
Proof. split; [apply HV|]. destruct HH as (_ & A & _ & B & _). auto. Qed.
Lemma s_ty t : tok t -> exists ty E, nth_error (pd_tys p) t = Some ty /\ nth_error T t = Some E /\ Permutation (erecs ty) (filter (touches own r) E).
Proof.
  unfold tok. intros L. destruct HH as (_ & _ & _ & LT & PE & _). assert (A : nth_error (pd_tys p) t <> None) by (apply nth_error_Some; lia). assert (B : nth_error T t <> None) by (apply nth_error_Some; lia).
  destruct (nth_error (pd_tys p) t) as [ty|] eqn:E1; [|congruence]. destruct (nth_error T t) as [E|] eqn:E2; [|congruence]. exists ty, E. split; [auto|]. split; [auto|]. eapply PE; eauto.
Qed.
Lemma s_il h t : loc h -> tok t -> vertex_edges g h t fuel = Some (il t h).
Proof.
  intros (l & -> & L) Ht. destruct (s_ty t Ht) as (ty & E & Et & _). destruct ty as [es ws]. destruct (nth_error (pd_verts p) l) as [v|] eqn:Ev; [|apply nth_error_None in Ev; lia].
  unfold il. unfold getVertex at 2. rewrite Nat.add_1_r. rewrite Ev, Et. cbn [fst]. refine (proj1 (c_incident _ _ _ _ _ _ HC t es ws l v fuel eq_refl Et Ev _)).
  destruct FO as (_ & F). destruct (F (es, ws) (nth_error_In _ _ Et)) as (_ & _ & F3). destruct (F3 v) as (F4 & _). cbn [fst] in F4. eapply Nat.le_lt_trans; [|exact F4].
  assert (G : forall ns, (forall i, In i ns -> In i (incident v es)) -> length ns <= length (flat_map (fun i => match nth_error es i with Some e => snd e | None => [] end) ns)).
  { clear. induction ns as [|i ns IH]; intros H; cbn [length flat_map]; [lia|]. rewrite app_length. assert (I := H i (or_introl eq_refl)). apply SecondAdjProps.incident_in in I as (e & Ee & Hv). rewrite Ee. assert (1 <= length (snd e)) by (destruct (snd e); [destruct Hv|cbn; lia]).
    assert (length ns <= length (flat_map (fun i => match nth_error es i with Some e => snd e | None => [] end) ns)) by (apply IH; intros; apply H; right; auto). lia. }
  apply G; auto.
Qed.
Lemma s_edge h t e : tok t -> In e (il t h) -> exists ty i x l v, nth_error (pd_tys p) t = Some ty /\ e = getEdge (ntypes g) i t /\ nth_error (erecs ty) i = Some x /\ h = getVertex l /\ nth_error (pd_verts p) l = Some v /\ In v (snd (fst x)).
Proof.
  intros Ht H. destruct (s_ty t Ht) as (ty & E & Et & _). unfold il in H. destruct h as [|l]; [destruct H|]. destruct (nth_error (pd_verts p) l) as [v|] eqn:Ev; [|destruct H]. rewrite Et in H.
  apply in_map_iff in H as (i & <- & Hi). apply SecondAdjProps.incident_in in Hi as (e & Ee & Hv). pose proof (eweights_length _ _ _ _ (fst ty) (snd ty) HV) as LW. destruct ty as [es ws]. cbn [fst snd] in *. specialize (LW (nth_error_In _ _ Et)).
  assert (Li : i < length (eweights (es, ws))). { rewrite LW. apply nth_error_Some. congruence. } destruct (nth_error (eweights (es, ws)) i) as [w|] eqn:Ew; [|apply nth_error_None in Ew; lia].
  exists (es, ws), i, (e, w), l, v. repeat split; auto; [|unfold getVertex; lia]. unfold erecs. cbn [fst]. clear - Ee Ew. revert Ee Ew. generalize (eweights (es, ws)). intros lw. revert i lw. induction es as [|y es IH]; intros [|i] [|z lw] A B; cbn in *; try discriminate; [congruence|auto].
Qed.
Lemma s_eweight t ty i x : nth_error (pd_tys p) t = Some ty -> nth_error (erecs ty) i = Some x -> eweight g (getEdge (ntypes g) i t) = Some (snd x).
Proof.
  intros Et Hx. destruct (erec_nth _ _ _ Hx) as (A & B). destruct ty as [es ws]. cbn [fst] in A. rewrite (w_edge _ _ _ _ _ _ HC t es ws i (fst x) Et A). unfold eweights in B. cbn [fst snd] in B. destruct ws; [|exact B].
  apply nth_error_In, repeat_spec in B. now rewrite B.
Qed.
Lemma s_resident t ty i x d : nth_error (pd_tys p) t = Some ty -> nth_error (erecs ty) i = Some x -> isResidentOn g (getEdge (ntypes g) i t) d = Some (res (getEdge (ntypes g) i t) d) /\
  (res (getEdge (ntypes g) i t) d = true <-> exists v, In v (snd (fst x)) /\ Z.of_nat (own v) = d).
Proof.
  intros Et Hx. destruct (erec_nth _ _ _ Hx) as (A & _). destruct ty as [es ws]. destruct x as [[gid pins] w]. cbn [fst snd] in *.
  destruct (p_resident _ _ _ _ _ _ _ HV HB eq_refl t es ws i gid pins Et A d) as (b & E & S). unfold res. rewrite E. split; auto. rewrite S.
  assert (PH : forall v, In v pins -> part_of (Z.of_nat r) (pd_verts p) (pd_owns p) v = Z.of_nat (own v)). { intros v Hv. eapply pin_home; eauto; [eapply nth_error_In; exact A|exact Hv]. }
  split; intros (v & Hv & Ev); exists v; split; auto; rewrite (PH v Hv) in *; auto.
Qed.
Lemma s_res h t e d : loc h -> tok t -> In e (il t h) -> isResidentOn g e d = Some (res e d).
Proof. intros _ Ht H. destruct (s_edge h t e Ht H) as (ty & i & x & l & v & Et & -> & Hx & _). eapply s_resident; eauto. Qed.
Lemma s_ew h t e : loc h -> tok t -> In e (il t h) -> exists x, eweight g e = Some x /\ val x = ew e.
Proof. intros _ Ht H. destruct (s_edge h t e Ht H) as (ty & i & x & l & v & Et & -> & Hx & _). unfold ew. rewrite (s_eweight t ty i x Et Hx). eauto. Qed.
Lemma s_erec_pos t ty i x : nth_error (pd_tys p) t = Some ty -> nth_error (erecs ty) i = Some x -> (0 <= val (snd x))%Q.
Proof.
  intros Et Hx. assert (Lt : tok t). { unfold tok. destruct s_lens as (_ & _ & <-). apply nth_error_Some. congruence. } destruct (s_ty t Lt) as (ty' & E & Et' & ET & P). assert (ty' = ty) by congruence. subst ty'.
  apply nth_error_In in Hx. apply (Permutation_in _ P) in Hx. apply filter_In in Hx as (Hx & _). destruct HW as (_ & WE). apply (WE E); auto. eapply nth_error_In; eauto.
Qed.
Lemma s_epos h t e : loc h -> tok t -> In e (il t h) -> (0 <= ew e)%Q.
Proof. intros _ Ht H. destruct (s_edge h t e Ht H) as (ty & i & x & l & v & Et & -> & Hx & _). unfold ew. rewrite (s_eweight t ty i x Et Hx). eapply s_erec_pos; eauto. Qed.
Lemma s_weight l x : nth_error (vrecs p) l = Some x -> weight_of val g gw (getVertex l) = Some (val (fst (snd x))).
Proof.
  intros Hx. destruct (vrec_nth _ _ _ Hx) as (A & B). assert (L : l < length (pd_verts p)) by (apply nth_error_Some; congruence). unfold weight_of. unfold getVertex at 1. rewrite Nat.add_1_r. cbn [vlid obind]. rewrite s_nlv. destruct (Nat.ltb_spec l (length (pd_verts p))); [|lia].
  rewrite (w_vertex _ _ _ _ _ _ HC l _ A). cbn [obind]. do 2 f_equal. unfold vweights in B. destruct (Nat.lt_ge_cases l (length (pd_vws p))).
  - rewrite nth_error_app1 in B by auto. now rewrite B.
  - rewrite (proj2 (nth_error_None (pd_vws p) l)) by auto. rewrite nth_error_app2 in B by auto. apply nth_error_In, repeat_spec in B. auto.
Qed.
Lemma s_vrec l : l < length (pd_verts p) -> exists x, nth_error (vrecs p) l = Some x.
Proof. intros L. destruct s_lens as (A & B & _). destruct (nth_error (vrecs p) l) eqn:E; eauto. apply nth_error_None in E. rewrite vrecs_length in E by auto. lia. Qed.
Lemma s_vw h : loc h -> weight_of val g gw h = Some (vw h).
Proof. intros (l & -> & L). destruct (s_vrec l L) as (x & Hx). unfold vw. now rewrite (s_weight l x Hx). Qed.
Lemma s_vpos h : loc h -> (0 <= vw h)%Q.
Proof.
  intros (l & -> & L). destruct (s_vrec l L) as (x & Hx). unfold vw. rewrite (s_weight l x Hx). destruct HH as (_ & _ & PV & _). apply nth_error_In in Hx. apply (Permutation_in _ PV) in Hx. apply filter_In in Hx as (Hx & _). now apply HW.
Qed.

(** *** the plan of the part *)
Variables (cs : list plan_op) (plan : mplan).
Hypothesis HP : made_plan fuel g cs plan.
Hypothesis HO : forall o, In o cs -> call_ok g (length ps) o.
Definition handles (m : list (nat * Z)) : list (nat * Z) := map (fun e => (getVertex (fst e), snd e)) m.
Lemma ops_ok o : call_ok g (length ps) o -> op_ok g o. Proof. destruct o; cbn; auto. lia. Qed.
Lemma s_pinv cs' plan' : made_plan fuel g cs' plan' -> (forall o, In o cs' -> call_ok g (length ps) o) -> PInv g plan' (fm_run cs').
Proof.
  intros (p0 & E1 & E2) Ho. destruct (plan_run _ _ _ _ _ g cs' fuel HC) as (q0 & q & F1 & F2 & F3); [apply FO|intros o Hin; apply ops_ok, Ho, Hin|]. assert (q0 = p0) by congruence. subst q0. assert (q = plan') by congruence. now subst.
Qed.
Lemma fm_in_get (m : list (nat * Z)) : NoDup (map fst m) -> forall l d, In (l, d) m <-> fm_get m l = Some d.
Proof.
  induction m as [|(k, x) m IH]; intros N l d; cbn [fm_get In]; [split; [intros []|discriminate]|]. cbn in N. inversion N; subst. destruct (Nat.eqb_spec k l) as [->|].
  - split; [intros [E|I]; [congruence|exfalso; apply H1; apply (in_map fst) in I; exact I]|]. intros E. inversion E. auto.
  - rewrite <- IH by auto. split; [intros [E|I]; [congruence|auto]|auto].
Qed.
Lemma s_run k : In k (handles (fm_run cs)) -> exists l, k = (getVertex l, snd k) /\ l < length (pd_verts p) /\ planned cs l = Some (snd k) /\ (0 <= snd k < Z.of_nat (length ps))%Z.
Proof.
  unfold handles. intros H. apply in_map_iff in H as ((l, d) & <- & H). cbn [fst snd]. exists l. split; auto. apply (fm_in_get _ (fm_run_nodup cs)) in H. rewrite planned_get in H. split; [|split; auto].
  - apply planned_in in H. apply HO in H. destruct H as (H & _). now rewrite s_nlv in H.
  - apply planned_in in H. apply HO in H. apply H.
Qed.
Lemma s_locals : locals loc (handles (fm_run cs)).
Proof. intros k Hk. destruct (s_run k Hk) as (l & E & L & _). rewrite E. cbn. exists l. auto. Qed.
Lemma s_get k : In k (handles (fm_run cs)) -> plan_get g plan (fst k) = Some (snd k).
Proof.
  intros Hk. destruct (s_run k Hk) as (l & E & L & EP & _). rewrite E. cbn [fst snd]. unfold plan_get. destruct (s_pinv cs plan HP HO) as (_ & _ & _ & _ & A). rewrite get_vtag_local by (rewrite s_nlv; auto). rewrite A by (rewrite s_nlv; auto). now rewrite planned_get, EP.
Qed.
Lemma s_sending : pl_sending plan = map fst (handles (fm_run cs)).
Proof. destruct (s_pinv cs plan HP HO) as (_ & A & _). rewrite A. unfold handles. rewrite map_map. reflexivity. Qed.
Lemma handles_nodup : NoDup (map fst (handles (fm_run cs))).
Proof.
  unfold handles. rewrite map_map. cbn [fst]. pose proof (fm_run_nodup cs) as N. revert N. generalize (fm_run cs). induction l as [|x l IH]; intros N; cbn [map] in *; [constructor|]. inversion N; subst. constructor; auto.
  intros I. apply in_map_iff in I as (y & E & Hy). apply H1. unfold getVertex in E. assert (fst y = fst x) by lia. rewrite <- H. now apply in_map.
Qed.

(** trim_send *)
Definition P0 := handles (fm_run cs).
Lemma s_trim_send dims : dims <> [] -> Forall (dim_ok tok) dims -> exists out, trim_send val fuel dims (mkSP g gw plan) = Some out /\ NoDup (map fst out) /\ (forall d, In d (map fst out) <-> In d (map snd P0)) /\
  forall m, In m out -> Forall2 (fun x w => w == load il res ew vw dims P0 (fst m) x)%Q dims (snd m).
Proof.
  intros ND HDm. unfold trim_send. cbn [sp_g sp_gw sp_plan].
  destruct (plan_weights_ok val g gw fuel il res vw loc tok s_il s_res s_vw dims plan P0 HDm s_sending s_locals s_get) as (l & nbs & E & LI & N & M). rewrite E. cbn [obind]. destruct dims as [|x0 dims0]; [congruence|]. set (dims := x0 :: dims0) in *. clear ND.
  destruct (mapM_choice Z (Z * list Q) (fun d => ws <- mapM (load_of val g l d) (combine dims (l_edges l)) ;; Some (d, ws)) (fun _ d m => fst m = d /\ Forall2 (fun x w => w == load il res ew vw dims P0 d x)%Q dims (snd m)) nbs) as (out & Eo & Lo & Ho).
  { intros i d _. destruct (loads_ok val g il res ew vw loc tok s_ew dims P0 l d LI HDm s_locals) as (ws & Ew & FW). rewrite Ew. cbn [obind]. eexists. split; [reflexivity|]. auto. }
  exists out. assert (KO : map fst out = nbs). { clear - Eo Lo Ho. apply nth_error_ext. intros i. rewrite nth_error_map. destruct (nth_error out i) as [m|] eqn:Em.
    - assert (Li : i < length nbs) by (rewrite <- Lo; apply nth_error_Some; congruence). destruct (nth_error nbs i) as [d|] eqn:Ed; [|apply nth_error_None in Ed; lia]. cbn. f_equal. apply (Ho i d m Ed Em).
    - cbn. symmetry. apply nth_error_None. apply nth_error_None in Em. lia. }
  split; [exact Eo|]. rewrite KO. split; auto. split; auto. intros m Hm. apply In_nth_error in Hm as (i & Hi). assert (Li : i < length nbs) by (rewrite <- Lo; apply nth_error_Some; congruence). destruct (nth_error nbs i) as [d|] eqn:Ed; [|apply nth_error_None in Ed; lia]. destruct (Ho i d m Ed Hi) as (-> & A). exact A.
Qed.
(** cancel *)
Lemma handles_filter b m : filter (fun k => b (fst k)) (handles m) = handles (filter (fun e => b (getVertex (fst e))) m).
Proof. unfold handles. induction m as [|e m IH]; [reflexivity|]. cbn [map filter fst]. destruct (b (getVertex (fst e))); cbn [map]; now rewrite IH. Qed.
Lemma s_cancel dims cap : Forall (dim_ok tok) dims -> (forall k, In k P0 -> exists cs, zfind cap (snd k) = Some cs /\ length cs = length dims) ->
  exists plan' m, cancel val fuel dims (mkSP g gw plan) cap = Some plan' /\ (exists b, m = filter b (fm_run cs)) /\ kept il res ew vw dims cap P0 (handles m) /\
    made_plan fuel g (cs ++ Clr :: map (fun e => Ins (fst e) (snd e)) m) plan' /\ fm_run (cs ++ Clr :: map (fun e => Ins (fst e) (snd e)) m) = m.
Proof.
  intros HDm HCp. unfold cancel. cbn [sp_g sp_gw sp_plan]. rewrite s_sending. fold P0.
  destruct (cancel_keeps val g gw fuel il res ew vw loc tok s_il s_res s_ew s_vw dims plan P0 cap HDm s_locals s_get HCp) as (l & K & E & HK). rewrite E. cbn [obind].
  destruct (kept_filter _ _ _ _ _ _ _ _ HK handles_nodup) as (b & EK). unfold P0 in EK. rewrite handles_filter in EK. set (m := filter (fun e => b (getVertex (fst e))) (fm_run cs)) in *.
  assert (HO' : forall o, In o (cs ++ Clr :: map (fun e => Ins (fst e) (snd e)) m) -> call_ok g (length ps) o).
  { intros o Ho. apply in_app_iff in Ho as [Ho|[<-|Ho]]; [auto|exact I|]. apply in_map_iff in Ho as ((l0, d) & <- & He). unfold m in He. apply filter_In in He as (He & _). apply (fm_in_get _ (fm_run_nodup cs)) in He. rewrite planned_get in He. apply planned_in in He. cbn [fst snd]. auto. }
  destruct (plan_run _ _ _ _ _ g (cs ++ Clr :: map (fun e => Ins (fst e) (snd e)) m) fuel HC) as (q0 & q & F1 & F2 & F3); [apply FO|intros o Ho; apply ops_ok, HO', Ho|].
  assert (F4 := F2). rewrite foldM_app in F2. destruct HP as (p0 & E1 & E2). assert (q0 = p0) by congruence. subst q0. rewrite E2 in F2. cbn [obind foldM do_op] in F2. destruct (plan_clear plan) as [pc|] eqn:EC; [|discriminate]. cbn [obind] in F2 |- *.
  exists q, m. split.
  - rewrite EK. unfold handles. rewrite foldM_map in F2 |- *. rewrite <- F2. apply foldM_ext. intros s e. reflexivity.
  - split; [eexists; reflexivity|]. split; [rewrite <- EK; exact HK|]. split; [exists p0; auto|].
    unfold fm_run at 1. rewrite fold_left_app. cbn [fold_left fm_op]. assert (N : NoDup (map fst m)). { unfold m. pose proof (fm_run_nodup cs) as N. revert N. generalize (fm_run cs). clear. induction l as [|e l IH]; intros N; cbn [filter map]; [constructor|]. cbn in N. inversion N; subst. destruct (b (getVertex (fst e))); auto. cbn [map]. constructor; auto. intros I. apply H1. apply in_map_iff in I as (x & Ex & Hx). apply filter_In in Hx as (Hx & _). rewrite <- Ex. now apply in_map. }
    assert (G : forall a c, NoDup (map fst (a ++ c)) -> fold_left fm_op (map (fun e : nat * Z => Ins (fst e) (snd e)) c) a = a ++ c).
    { clear. intros a c. revert a. induction c as [|e c IH]; intros a N; cbn [map fold_left fm_op]; [now rewrite app_nil_r|].
      assert (FP : fm_put a (fst e) (snd e) = a ++ [e]). { assert (NI : ~ In (fst e) (map fst a)). { rewrite map_app in N. apply NoDup_app_iff in N as (_ & _ & N). intros I. apply (N _ I). left; auto. } clear - NI. induction a as [|(k, x) a IH]; [destruct e; reflexivity|]. cbn [fm_put app]. destruct (Nat.eqb_spec k (fst e)); [exfalso; apply NI; left; auto|]. f_equal. apply IH. intros I. apply NI. right; auto. }
      rewrite FP, IH; rewrite <- app_assoc; cbn; auto. }
    now rewrite G.
Qed.

(** *** what the kept plan brings to part q, in terms of the whole hypergraph *)
Variables (own' : Z -> nat) (m : list (nat * Z)).
Hypothesis HM : forall l v, nth_error (pd_verts p) l = Some v -> match fm_get m l with Some d => d = Z.of_nat (own' v) | None => own' v = r end.
Hypothesis Hmk : forall l, In l (map fst m) -> l < length (pd_verts p).
Lemma s_brings q x : q <> r -> dim_ok tok x ->
  (match x with
   | Some t => fsum (fun e => val (snd e)) (fun e => touches own r e && (negb (touches own q e) && existsb (fun v => (own v =? r) && (own' v =? q)) (snd (fst e)))) (nth t T [])
   | None => fsum (fun v => val (fst (snd v))) (fun v => (own (fst v) =? r) && (own' (fst v) =? q)) V
   end <= true_load il res ew vw (handles m) (Z.of_nat q) x)%Q.
Proof.
  intros Nq Hx. assert (MV : forall l v, nth_error (pd_verts p) l = Some v -> own' v = q -> In (getVertex l, Z.of_nat q) (handles m)).
  { intros l v Hv E. specialize (HM l v Hv). unfold handles. apply in_map_iff. exists (l, Z.of_nat q). split; [reflexivity|]. destruct (fm_get m l) as [d|] eqn:F; [|congruence]. rewrite E in HM. subst d. clear - F. induction m as [|(k, y) m' IH]; cbn in *; [discriminate|]. destruct (Nat.eqb_spec k l) as [->|]; [inversion F; auto|auto]. }
  assert (AND : forall (A : Type) (w : A -> Q) a b l, (fsum w (fun x => a x && b x) l == fsum w b (filter a l))%Q).
  { intros A w a b l. unfold fsum. induction l as [|y l IH]; [reflexivity|]. cbn [map qsum filter]. destruct (a y); cbn [map qsum andb]; rewrite IH; ring. }
  destruct x as [t|]; cbn [true_load].
  - cbn in Hx. destruct (s_ty t Hx) as (ty & E & Et & ET & PE). rewrite (nth_error_nth _ _ _ ET), AND. unfold fsum. rewrite <- (qsum_perm _ _ (Permutation_map _ PE)). fold (fsum (fun e : edge_input * Z => val (snd e)) (fun e => negb (touches own q e) && existsb (fun v => (own v =? r) && (own' v =? q)) (snd (fst e))) (erecs ty)).
    rewrite (fsum_index _ _ _ _ (fun i => getEdge (ntypes g) i t) ew). 2:{ intros i y Hy. unfold ew. now rewrite (s_eweight t ty i y Et Hy). }
    apply wsum_incl.
    + apply FinFun.Injective_map_NoDup; [|apply NoDup_filter, seq_NoDup]. intros i j H. unfold getEdge in H. assert (NT : 0 < ntypes g). { pose proof (c_ntypes _ _ _ _ _ _ HC) as CN. rewrite CN. destruct s_lens as (_ & _ & ->). unfold tok in Hx. lia. } assert (ntypes g * i = ntypes g * j) by lia. apply Nat.mul_cancel_l in H0; lia.
    + intros h Hh. apply in_map_iff in Hh as (i & <- & Hi). apply filter_In in Hi as (_ & Hi). destruct (nth_error (erecs ty) i) as [y|] eqn:Ey; [|discriminate]. apply andb_true_iff in Hi as (A & B). apply existsb_exists in B as (v & Hv & B). apply andb_true_iff in B as (B & C). apply Nat.eqb_eq in B, C.
      assert (VV : In v (pd_verts p)). { destruct HD as ((NV & WF) & _). assert (IV : In v (map fst V)). { apply (WF E (nth_error_In _ _ ET)) with (e := y); auto. apply nth_error_In in Ey. apply (Permutation_in _ PE) in Ey. now apply filter_In in Ey. }
        apply in_map_iff in IV as (u & Eu & Hu). destruct HH as (_ & _ & PV & _). assert (I : In u (vrecs p)). { apply (Permutation_in _ (Permutation_sym PV)). apply filter_In. split; auto. rewrite Eu. now apply Nat.eqb_eq. } apply In_nth_error in I as (k & Hk). destruct (vrec_nth _ _ _ Hk) as (Z1 & _). rewrite Eu in Z1. eapply nth_error_In; eauto. }
      apply In_nth_error in VV as (l & Hl). apply eset_in. exists (getVertex l). split; [eapply MV; eauto|]. split.
      * unfold il, getVertex. rewrite Nat.add_1_r, Hl, Et. apply (in_map (fun i => getEdge (ntypes g) i t)). apply SecondAdjProps.incident_in. destruct (erec_nth _ _ _ Ey) as (Z1 & _). exists (fst y). auto.
      * destruct (s_resident t ty i y (Z.of_nat q) Et Ey) as (_ & R). destruct (res (getEdge (ntypes g) i t) (Z.of_nat q)); auto. exfalso. destruct (proj1 R eq_refl) as (u & Hu & Eu). apply negb_true_iff in A. assert (touches own q y = true); [|congruence]. unfold touches. apply existsb_exists. exists u. split; auto. apply Nat.eqb_eq. lia.
    + intros e He. apply eset_in in He as (v & A & B & _). destruct (s_edge v t e Hx B) as (ty' & i & y & l & u & Et' & -> & Hy & _). unfold ew. rewrite (s_eweight t ty' i y Et' Hy). eapply s_erec_pos; eauto.
  - rewrite AND. unfold fsum. destruct HH as (_ & _ & PV & _). rewrite <- (qsum_perm _ _ (Permutation_map _ PV)). fold (fsum (fun v : Z * (Z * Z) => val (fst (snd v))) (fun v => own' (fst v) =? q) (vrecs p)).
    rewrite (fsum_index _ _ _ _ getVertex vw). 2:{ intros i y Hy. unfold vw. now rewrite (s_weight i y Hy). }
    unfold vload. change (qsum (map vw (map getVertex (filter (fun i => match nth_error (vrecs p) i with Some x => own' (fst x) =? q | None => false end) (seq 0 (length (vrecs p)))))) <= wsum vw (sent_to (Z.of_nat q) (handles m)))%Q.
    apply wsum_incl.
    + apply FinFun.Injective_map_NoDup; [|apply NoDup_filter, seq_NoDup]. intros i j H. unfold getVertex in H. lia.
    + intros h Hh. apply in_map_iff in Hh as (i & <- & Hi). apply filter_In in Hi as (_ & Hi). destruct (nth_error (vrecs p) i) as [y|] eqn:Ey; [|discriminate]. apply Nat.eqb_eq in Hi. destruct (vrec_nth _ _ _ Ey) as (A & _). unfold sent_to. apply in_map_iff. exists (getVertex i, Z.of_nat q). split; auto. apply filter_In. split; [eapply MV; eauto|apply Z.eqb_refl].
    + intros h Hh. destruct (weight_of val g gw h) as [w|] eqn:Ew; [|unfold vw; rewrite Ew; lra]. unfold sent_to in Hh. apply in_map_iff in Hh as (k & <- & Hk). apply filter_In in Hk as (Hk & _). unfold handles in Hk. apply in_map_iff in Hk as (e & <- & He). cbn [fst] in *.
      destruct (Nat.lt_ge_cases (fst e) (length (pd_verts p))) as [L|L]; [apply s_vpos; exists (fst e); auto|].
      exfalso. assert (X : In (fst e) (map fst m)) by now apply in_map. apply Hmk in X. lia.
Qed.
Lemma s_home l v : nth_error (pd_verts p) l = Some v -> own v = r.
Proof.
  intros Hl. assert (L : l < length (pd_verts p)) by (apply nth_error_Some; congruence). destruct (s_vrec l L) as (x & Hx). destruct (vrec_nth _ _ _ Hx) as (A & _). assert (E : fst x = v) by congruence. destruct HH as (_ & _ & PV & _). apply nth_error_In in Hx. apply (Permutation_in _ PV) in Hx. apply filter_In in Hx as (_ & B). apply Nat.eqb_eq in B. congruence.
Qed.
Lemma fsum_pos A (w : A -> Q) b l : (forall x, In x l -> 0 <= w x)%Q -> (0 <= fsum w b l)%Q.
Proof. intros H. apply qsum_nonneg. intros y Hy. apply in_map_iff in Hy as (x & <- & Hx). destruct (b x); [apply H; auto|lra]. Qed.
Hypothesis Nm : NoDup (map fst m).
Lemma s_asks q x : dim_ok tok x -> (q = r -> sent_to (Z.of_nat q) (handles m) = []) ->
  (true_load il res ew vw (handles m) (Z.of_nat q) x <=
   match x with
   | Some t => fsum (fun e => val (snd e)) (fun e => touches own r e && (negb (touches own q e) && existsb (fun v => (own v =? r) && (own' v =? q)) (snd (fst e)))) (nth t T [])
   | None => fsum (fun v => val (fst (snd v))) (fun v => (own (fst v) =? r) && (own' (fst v) =? q)) V
   end)%Q.
Proof.
  intros Hx HS. assert (MV : forall l v, nth_error (pd_verts p) l = Some v -> In (getVertex l, Z.of_nat q) (handles m) -> own' v = q).
  { intros l v Hv I. specialize (HM l v Hv). unfold handles in I. apply in_map_iff in I as ((k, d) & E & I). cbn [fst snd] in E. unfold getVertex in E. assert (k = l) by (inversion E; lia). assert (d = Z.of_nat q) by (inversion E; auto). subst k d. apply (fm_in_get _ Nm) in I. rewrite I in HM. lia. }
  assert (AND : forall (A : Type) (w : A -> Q) a b l, (fsum w (fun x => a x && b x) l == fsum w b (filter a l))%Q).
  { intros A w a b l. unfold fsum. induction l as [|y l IH]; [reflexivity|]. cbn [map qsum filter]. destruct (a y); cbn [map qsum andb]; rewrite IH; ring. }
  destruct x as [t|]; cbn [true_load].
  - cbn in Hx. destruct (s_ty t Hx) as (ty & E & Et & ET & PE). rewrite (nth_error_nth _ _ _ ET), AND. unfold fsum. rewrite <- (qsum_perm _ _ (Permutation_map _ PE)). fold (fsum (fun e : edge_input * Z => val (snd e)) (fun e => negb (touches own q e) && existsb (fun v => (own v =? r) && (own' v =? q)) (snd (fst e))) (erecs ty)).
    rewrite (fsum_index _ _ _ _ (fun i => getEdge (ntypes g) i t) ew). 2:{ intros i y Hy. unfold ew. now rewrite (s_eweight t ty i y Et Hy). }
    apply wsum_incl.
    + apply eset_nodup.
    + intros e He. apply eset_in in He as (v & A & B & R). destruct (s_edge v t e Hx B) as (ty' & i & y & l & u & Et' & -> & Hy & -> & Hu & Iu). assert (ty' = ty) by congruence. subst ty'. apply in_map_iff. exists i. split; auto. apply filter_In. split; [apply in_seq; split; [lia|]; apply nth_error_Some; congruence|]. rewrite Hy. apply andb_true_iff. split.
      * apply negb_true_iff. destruct (touches own q y) eqn:Tq; auto. exfalso. unfold touches in Tq. apply existsb_exists in Tq as (z & Hz & Ez). apply Nat.eqb_eq in Ez. destruct (s_resident t ty i y (Z.of_nat q) Et Hy) as (_ & RR). rewrite R in RR. assert (false = true); [|discriminate]. apply RR. exists z. split; [auto|]. now rewrite Ez.
      * apply existsb_exists. exists u. split; auto. rewrite (s_home l u Hu), (MV l u Hu A), !Nat.eqb_refl. reflexivity.
    + intros e He. apply in_map_iff in He as (i & <- & Hi). apply filter_In in Hi as (_ & Hi). destruct (nth_error (erecs ty) i) as [y|] eqn:Ey; [|discriminate]. unfold ew. rewrite (s_eweight t ty i y Et Ey). eapply s_erec_pos; eauto.
  - rewrite AND. unfold fsum. destruct HH as (_ & _ & PV & _). rewrite <- (qsum_perm _ _ (Permutation_map _ PV)). fold (fsum (fun v : Z * (Z * Z) => val (fst (snd v))) (fun v => own' (fst v) =? q) (vrecs p)).
    rewrite (fsum_index _ _ _ _ getVertex vw). 2:{ intros i y Hy. unfold vw. now rewrite (s_weight i y Hy). }
    unfold vload. change (wsum vw (sent_to (Z.of_nat q) (handles m)) <= wsum vw (map getVertex (filter (fun i => match nth_error (vrecs p) i with Some x => own' (fst x) =? q | None => false end) (seq 0 (length (vrecs p))))))%Q.
    apply wsum_incl.
    + unfold sent_to. assert (N : NoDup (map fst (handles m))). { unfold handles. rewrite map_map. cbn [fst]. revert Nm. generalize m. clear. intros m0. induction m0 as [|x m0 IH]; intros N; cbn [map] in *; [constructor|]. inversion N; subst. constructor; auto. intros I. apply in_map_iff in I as (y & E & Hy). apply H1. unfold getVertex in E. assert (fst y = fst x) by lia. rewrite <- H. now apply in_map. }
      revert N. generalize (handles m). clear. induction l as [|e l IH]; intros N; cbn [filter map]; [constructor|]. cbn in N. inversion N; subst. destruct (Z.eqb (snd e) (Z.of_nat q)); auto. cbn [map]. constructor; auto. intros I. apply H1. apply in_map_iff in I as (x & Ex & Hx). apply filter_In in Hx as (Hx & _). rewrite <- Ex. now apply in_map.
    + intros h Hh. unfold sent_to in Hh. apply in_map_iff in Hh as ((h', d) & E & Hk). cbn [fst] in E. subst h'. apply filter_In in Hk as (Hk & Ed). cbn [snd] in Ed. apply Z.eqb_eq in Ed. subst d. assert (Hk' := Hk). unfold handles in Hk'. apply in_map_iff in Hk' as (e & Ee & He). assert (L : fst e < length (pd_verts p)) by (apply Hmk; now apply in_map). assert (Eh : h = getVertex (fst e)) by congruence. subst h.
      destruct (s_vrec _ L) as (x & Hx'). destruct (vrec_nth _ _ _ Hx') as (A & _). apply in_map. apply filter_In. split; [apply in_seq; split; [lia|]; apply nth_error_Some; congruence|]. rewrite Hx'. apply Nat.eqb_eq. eapply MV; eauto.
    + intros h Hh. apply in_map_iff in Hh as (i & <- & Hi). apply filter_In in Hi as (Hi & _). apply in_seq in Hi. destruct s_lens as (A & B & _). apply s_vpos. exists i. split; auto. rewrite <- vrecs_length by auto. lia.
Qed.
End Part.
