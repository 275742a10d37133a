(** A step of the diffusive balancer on a distributed hypergraph. *)
From Verif Require Import Base GraphModel GraphSpec ConstructProofs GraphTop GraphTop2 AccessProofs Comm TagModel TagProps MetricsModel MetricsProofs MetricsProps SdModel QueueModel QueueProps SearchView BfsProps DistProps MigrateModel MigrateSpec MigrateProofs1 MigrateProofs5 MigrateTop MigrateProps RepartModel SidesProofs SidesProps SelectorModel SelectorTop SelectorTop2 SelectorProps SelectProps BalanceProps StepModel.
From Verif Require GraphIOProps SplitProps.
From Coq Require Import Lqa Qround.
Local Open Scope nat_scope.

(** n parts that hold the hypergraph (V, E0), vertex v on part [own v] *)
Definition settled (n : nat) (V : list (Z * (Z * Z))) (E0 : list (edge_input * Z)) (own : Z -> nat) (ps : list pdesc) (w : world) : Prop :=
  length ps = n /\ length w = n /\ distributed own V [E0] ps /\ forall r p s, nth_error ps r = Some p -> nth_error w r = Some s -> built_from true r p s.
(** every set of edges that contains with an edge all the edges that share a vertex with it is empty or has at least three edges *)
Definition big_components (E0 : list (edge_input * Z)) : Prop :=
  forall f : edge_input * Z -> bool, (forall a b v, In a E0 -> In b E0 -> f a = true -> In v (snd (fst a)) -> In v (snd (fst b)) -> f b = true) ->
    (exists e, In e E0 /\ f e = true) -> 3 <= length (filter f E0).
(** what the run needs of the hypergraph *)
Record suitable (val : Z -> Q) (fuel : nat) (inp : dinput) (V : list (Z * (Z * Z))) (E0 : list (edge_input * Z)) : Prop := mkSuit {
  su_fuel : big_enough fuel V [E0];
  su_fuel2 : length V + length E0 + total_pins E0 < fuel /\ 2 * length E0 + 4 <= fuel;
  su_vw : forall v, In v V -> (0 <= val (fst (snd v)))%Q;
  su_ew : forall e, In e E0 -> (1 <= val (snd e))%Q;
  su_100 : forall e, In e E0 -> length (nodup Z.eq_dec (snd (fst e))) < 100;
  su_side : i_side inp = 0;
  su_min : i_min inp <= 1;
  su_big : i_dist inp = true -> big_components E0 }.
(** the dimensions there are *)
Definition dim_known (d : option nat) : Prop := match d with Some t => t = 0 | None => True end.
(** the whole hypergraph has weight in the dimension *)
Definition heavy (val : Z -> Q) (V : list (Z * (Z * Z))) (E0 : list (edge_input * Z)) (d : option nat) : Prop :=
  match d with None => exists v, In v V /\ (0 < val (fst (snd v)))%Q | Some _ => exists e, In e E0 /\ snd (fst e) <> [] end.

Section Step.
Variables (val : Z -> Q) (fuel : nat) (inp : dinput) (V : list (Z * (Z * Z))) (E0 : list (edge_input * Z)) (n : nat).
Hypothesis SU : suitable val fuel inp V E0.
Notation pw own r d := (part_weight val own V [E0] r d).
Notation settled := (settled n V E0).

Lemma s_wpos : weights_pos val V [E0].
Proof. split; [exact (su_vw _ _ _ _ _ SU)|]. intros E e [<-|[]] He. apply (su_ew _ _ _ _ _ SU) in He. lra. Qed.
Lemma s_dim d : dim_known d -> match d with Some t => t < length [E0] | None => True end.
Proof. destruct d; cbn; intros; subst; auto. Qed.
Lemma s_at own ps w r : settled own ps w -> r < n -> exists p s, nth_error ps r = Some p /\ nth_error w r = Some s /\ built_from true r p s.
Proof.
  intros (Lp & Lw & _ & B) Lr. destruct (nth_error ps r) as [p|] eqn:Ep; [|apply nth_error_None in Ep; lia]. destruct (nth_error w r) as [s|] eqn:Es; [|apply nth_error_None in Es; lia]. eauto 6.
Qed.
Lemma s_lt A (l : list A) r x : length l = n -> nth_error l r = Some x -> r < n.
Proof. intros L H. rewrite <- L. apply nth_error_Some. congruence. Qed.

(** ** weights *)
Lemma weights_all own ps w d : settled own ps w -> dim_known d -> exists ws, weights_of val fuel d w = Some ws /\ length ws = n /\ forall r x, nth_error ws r = Some x -> (x == pw own r d)%Q.
Proof.
  intros HS Hd. pose proof HS as (Lp & Lw & HD & _). unfold weights_of. change (local (fun s => getWeight val (fst s) None d false fuel) w (fun ws => length ws = n /\ forall r x, nth_error ws r = Some x -> (x == pw own r d)%Q)).
  apply local_intro with (PB := fun r x => (x == pw own r d)%Q).
  - intros r s Hs. destruct (s_at own ps w r HS (s_lt _ _ _ _ Lw Hs)) as (p & s' & Ep & Es & B & _). assert (s' = s) by congruence. subst s'.
    eapply getWeight_part; eauto; [apply SU|now apply s_dim].
  - intros ws L H. split; [congruence|auto].
Qed.

(** ** sides *)
Definition nb (own : Z -> nat) (r q : nat) : Prop := r <> q /\ r < n /\ q < n /\ exists e, In e E0 /\ touches own r e = true /\ touches own q e = true.
Lemma nb_sym own r q : nb own r q -> nb own q r.
Proof. intros (A & B & C & e & He & T1 & T2). repeat split; auto. exists e. auto. Qed.
Definition side_ok (own : Z -> nat) (r : nat) (s : cont Z) : Prop :=
  NoDup (map fst (c_d s)) /\ ((exists p, chas s p = true) -> c_total s <> 0%Z) /\ forall z, chas s z = true <-> exists q, z = Z.of_nat q /\ nb own r q.
Lemma sides_all own ps w : settled own ps w -> exists ss, sides_of val fuel inp w = Some ss /\ length ss = n /\ forall r s, nth_error ss r = Some s -> side_ok own r s.
Proof.
  intros HS. pose proof HS as (Lp & Lw & HD & _). unfold sides_of. change (local (fun s => makeSides val (fst s) (i_side inp) fuel) w (fun ss => length ss = n /\ forall r s, nth_error ss r = Some s -> side_ok own r s)).
  apply local_intro with (PB := fun r s => side_ok own r s); [|intros ss L H; split; [congruence|auto]].
  intros r s0 Hs. pose proof (s_lt _ _ _ _ Lw Hs) as Lr. destruct (s_at own ps w r HS Lr) as (p & s' & Ep & Es & B & _). assert (s' = s0) by congruence. subst s'. rewrite (su_side _ _ _ _ _ SU).
  pose proof HD as ((NV & WF) & OB & HP). destruct (HP r p Ep) as (HV & Lo & PV & LT & PE & HO). destruct (nth_error (pd_tys p) 0) as [[es ws]|] eqn:Ht; [|apply nth_error_None in Ht; cbn in LT; lia].
  pose proof (PE 0 (es, ws) E0 Ht eq_refl) as PM. assert (FO : fuel_ok fuel p) by (eapply fuel_global; eauto; [apply SU|eapply nth_error_In; eauto]).
  assert (WP : forall e, In e (erecs (es, ws)) -> In e E0 /\ touches own r e = true) by (intros e He; apply (Permutation_in _ PM) in He; now apply filter_In in He).
  destruct (C41_truncated val (Z.of_nat r) (pd_verts p) (pd_vws p) (pd_tys p) (pd_owns p) (fst s0) 0 (es, ws) fuel HV B Ht) as (s & E & R); [apply (proj2 FO (es, ws)); eapply nth_error_In; eauto|intros e He; apply WP in He as (He & _); apply (su_ew _ _ _ _ _ SU) in He; lra|].
  exists s. split; auto. destruct (C42_sides_fit _ _ _ _ _ R) as (ND & _ & TP).
  { intros e He. apply WP in He as (He & _). apply (su_ew _ _ _ _ _ SU) in He. apply Qfloor_resp_le in He. change (Qfloor 1) with 1%Z in He. lia. }
  destruct R as (_ & _ & HH & _). split; auto. split; [intros H; specialize (TP H); lia|].
  assert (HM : forall e, In e (erecs (es, ws)) -> homes (Z.of_nat r) (pd_verts p) (pd_owns p) e = map (fun v => Z.of_nat (own v)) (snd (fst e))).
  { intros e He. unfold homes. apply map_ext_in. intros v Hv. eapply pin_home; eauto. unfold erecs in He. destruct e as [e w0]. apply in_combine_l in He. exact He. }
  intros z. rewrite HH. split.
  - intros (Nz & e & He & _ & I). rewrite (HM e He) in I. apply in_map_iff in I as (v & <- & Hv). destruct (WP e He) as (HE & T). exists (own v). split; auto. split; [lia|]. split; auto. split; [rewrite <- Lp; apply OB; apply (WF E0 (or_introl eq_refl)) with (e := e); auto|].
    exists e. split; auto. split; auto. unfold touches. apply existsb_exists. exists v. split; auto. apply Nat.eqb_refl.
  - intros (q & -> & Nq & _ & _ & e & He & T1 & T2). split; [lia|]. assert (Hi : In e (erecs (es, ws))) by (apply (Permutation_in _ (Permutation_sym PM)), filter_In; auto). exists e. split; auto. rewrite (HM e Hi).
    apply existsb_exists in T1 as (v1 & I1 & X1). apply existsb_exists in T2 as (v2 & I2 & X2). apply Nat.eqb_eq in X1, X2. split; [exists (Z.of_nat (own v1)), (Z.of_nat (own v2)); split; [apply in_map_iff; eauto|]; split; [apply in_map_iff; eauto|lia]|]. apply in_map_iff. exists v2. split; [lia|auto].
Qed.

(** ** the weights of the neighbours *)
Definition knows (own : Z -> nat) (d : option nat) (r : nat) (c : cont Q) : Prop := forall q, nb own r q -> (cget 0%Q c (Z.of_nat q) == pw own q d)%Q.
Lemma makeWeights_ok own ps w ss d : settled own ps w -> dim_known d -> length ss = n -> (forall r s, nth_error ss r = Some s -> side_ok own r s) ->
  makeWeights val fuel d w ss (fun tw => length tw = n /\ forall r x, nth_error tw r = Some x -> (fst x == pw own r d)%Q /\ knows own d r (snd x)).
Proof.
  intros HS Hd Ls HSS. destruct (weights_all own ps w d HS Hd) as (ws & Ew & Lw & HW). exists ws. split; auto.
  assert (LC : length (combine ss ws) = n) by (rewrite combine_length; lia).
  apply phase_intro with (PB := fun r x => (fst x == pw own r d)%Q /\ knows own d r (snd x)).
  - intros i [s x] Hi. eexists. split; [reflexivity|]. intros m Hm. apply combine_nth_inv in Hi as (Hi & _). cbn [fst snd] in *. unfold weights_sent in Hm. apply in_map_iff in Hm as ((z, y) & <- & Hm). cbn [fst]. rewrite LC.
    destruct (HSS i s Hi) as (ND & _ & HK). assert (chas s z = true). { unfold chas. rewrite (zfind_in _ _ z y); auto. } apply HK in H as (q & -> & _ & _ & Lq & _). lia.
  - intros sent rcv Es Dl i [s x] r Hi Hr. apply combine_nth_inv in Hi as (Hi & Hx). cbn [fst snd] in *. eexists. split; [reflexivity|]. cbn [fst snd]. split; [now apply HW|].
    intros q Hq. assert (SS : sent = map (fun x => weights_sent (fst x) (snd x)) (combine ss ws)).
    { enough (X : Some sent = Some (map (fun x => weights_sent (fst x) (snd x)) (combine ss ws))) by congruence. rewrite <- Es. apply mapM_some. reflexivity. } subst sent.
    assert (NDS : forall s, In s ss -> NoDup (map fst (c_d s))) by (intros s1 H1; apply In_nth_error in H1 as (j & Hj); apply (HSS j s1 Hj)).
    destruct (C42_weights ss ws rcv i r (weights_recv r)) as (H1 & _); auto; [congruence|]. pose proof Hq as (_ & _ & Lq & _).
    destruct (nth_error ss q) as [sq|] eqn:Eq; [|apply nth_error_None in Eq; lia]. destruct (nth_error ws q) as [xq|] eqn:Ex; [|apply nth_error_None in Ex; lia].
    destruct (H1 q sq xq Eq Ex) as (_ & ->); [|now apply HW]. apply (HSS q sq Eq). exists i. split; auto. now apply nb_sym.
  - intros tw L H. split; [congruence|auto].
Qed.
Lemma makeWeights_mono d w ss (Q1 Q2 : list (Q * cont Q) -> Prop) : (forall x, Q1 x -> Q2 x) -> makeWeights val fuel d w ss Q1 -> makeWeights val fuel d w ss Q2.
Proof. intros H (ws & E & P). exists ws. split; auto. revert P. now apply phase_mono. Qed.
Lemma completed_mono ds : forall w ss (Q1 Q2 : list (list (cont Q)) -> Prop), (forall x, Q1 x -> Q2 x) -> completed val fuel ds w ss Q1 -> completed val fuel ds w ss Q2.
Proof. induction ds as [|d ds IH]; intros w ss Q1 Q2 H; cbn [completed]; auto. apply makeWeights_mono. intros c. apply IH. intros cs. apply H. Qed.
Lemma completed_ok own ps w ss ds : settled own ps w -> Forall dim_known ds -> length ss = n -> (forall r s, nth_error ss r = Some s -> side_ok own r s) ->
  completed val fuel ds w ss (fun cs => Forall2 (fun d c => length c = n /\ forall r x, nth_error c r = Some x -> knows own d r x) ds cs).
Proof.
  intros HS HK Ls HSS. induction HK as [|d ds Hd HK IH]; cbn [completed]; [constructor|]. eapply makeWeights_mono; [|apply (makeWeights_ok own ps w ss d); auto].
  intros tw (Lt & HT). eapply completed_mono; [|exact IH]. intros cs HC. constructor; auto. split; [now rewrite map_length|]. intros r x Hx. rewrite nth_error_map in Hx. destruct (nth_error tw r) as [y|] eqn:Ey; [|discriminate]. inversion Hx; subst x. now apply (HT r y).
Qed.

(** ** targets *)
(** a part that may receive from r: lighter, and with room in the completed dimensions *)
Definition lighter (own : Z -> nat) (d : option nat) (ds : list done) (r q : nat) : Prop :=
  r <> q /\ q < n /\ (pw own q d < pw own r d)%Q /\ forall x, In x ds -> (pw own q (dn_dim x) < dn_lim x)%Q.
Lemma targets_ok own d ds sideTol cs r g s x : r < n -> side_ok own r s -> (fst x == pw own r d)%Q -> knows own d r (snd x) ->
  Forall2 (fun d c => length c = n /\ forall r x, nth_error c r = Some x -> knows own d r x) (map dn_dim ds) cs ->
  exists T, part_targets inp n sideTol cs (map dn_lim ds) r g s x = Some T /\ NoDup (map fst (c_d T)) /\ forall z, chas T z = true -> exists q, z = Z.of_nat q /\ lighter own d ds r q.
Proof.
  intros Lr (ND & TZ & HK) Hm HN HC. assert (COL : exists col, mapM (fun c => nth_error c r) cs = Some col /\ Forall2 (fun d x => knows own d r x) (map dn_dim ds) col).
  { clear - HC Lr. revert HC. generalize (map dn_dim ds). intros l HC. induction HC as [|d0 c l cs (L & H) HC (col & E & F)]; [exists []; split; [reflexivity|constructor]|]. destruct (nth_error c r) as [x|] eqn:Ex; [|apply nth_error_None in Ex; lia]. exists (x :: col). cbn [mapM]. rewrite Ex. cbn [obind]. rewrite E. split; [reflexivity|]. constructor; auto. }
  destruct COL as (col & EC & FC). unfold part_targets. rewrite EC. cbn [obind]. assert (CM : forall q, nb own r q -> forall y, In y ds -> exists c, In (c, dn_lim y) (combine col (map dn_lim ds)) /\ (cget 0%Q c (Z.of_nat q) == pw own q (dn_dim y))%Q).
  { clear - FC. intros q Hq. remember (map dn_dim ds) as l eqn:El. revert ds El. induction FC as [|d0 c l col H FC IH]; intros [|y0 ds] El y Hy; try discriminate; [destruct Hy|]. inversion El; subst. destruct Hy as [<-|Hy].
    - exists c. split; [left; reflexivity|]. now apply H.
    - destruct (IH ds eq_refl y Hy) as (c' & I & E). exists c'. split; [right; exact I|auto]. }
  destruct (c_d s) as [|kv rest] eqn:Ed.
  - unfold makeTargets. rewrite Ed. cbn [foldM]. eexists. split; [reflexivity|]. cbn. split; [constructor|]. intros z H. discriminate.
  - assert (TN : c_total s <> 0%Z). { apply TZ. exists (fst kv). unfold chas. rewrite Ed. cbn [zfind]. destruct kv as [k y]. cbn [fst]. rewrite Z.eqb_refl. reflexivity. }
    rewrite <- Ed in ND. destruct (C42_targets (hyper g) n (i_step inp) s (snd x) (fst x) sideTol (combine col (map dn_lim ds)) ND TN) as (T & ET & NT & _ & HT & _). exists T. split; auto. split; auto.
    intros z Hz. apply HT in Hz as (Hs & (_ & MR) & LT). apply HK in Hs as (q & -> & Nq). exists q. split; auto. pose proof Nq as (A & _ & B & _). split; auto. split; auto. split; [rewrite <- (HN q Nq), <- Hm; exact LT|].
    intros y Hy. destruct (CM q Nq y Hy) as (c & I & <-). now apply MR in I.
Qed.

(** ** the queue *)
Lemma waiting_fits q l : waiting q l -> length l <= capacity q.
Proof.
  intros (_ & W). destruct (le_lt_dec (length l) (capacity q)) as [|G]; auto. exfalso. specialize (W (capacity q) G). unfold aget, capacity in W, G. rewrite (proj2 (nth_error_None (sa_next q) _)) in W by lia. symmetry in W. apply nth_error_None in W. lia.
Qed.
Lemma sa_add_square q e q' : sa_add q e = Some q' -> length (sa_next q) = length (sa_cur q) -> length (sa_next q') = length (sa_cur q').
Proof.
  unfold sa_add. destruct (aset (sa_next q) (sa_nsize q) e) as [a|] eqn:E; [|discriminate]. cbn [obind]. intros H L. inversion H. cbn [sa_next sa_cur]. unfold aset in E. destruct (_ <? _); [|discriminate]. inversion E. now rewrite upd_length.
Qed.
Lemma fill_square g s q q' : fill_queue g s q = Some q' -> length (sa_next q) = length (sa_cur q) -> length (sa_next q') = length (sa_cur q').
Proof.
  unfold fill_queue. revert q. induction (rev (seq 0 (in_n s))) as [|i l IH]; intros q; cbn [foldM]; [intros H; now inversion H; subst|].
  destruct (aget (in_seeds s) i) as [x|]; [|discriminate]. cbn [obind]. destruct (getResidence g (getEdge (ntypes g) x 0)) as [rs|]; [|discriminate]. cbn [obind]. destruct (1 <? _).
  - destruct (sa_add q _) as [q1|] eqn:E; [|discriminate]. cbn [obind]. intros H L. eapply IH; eauto. eapply sa_add_square; eauto.
  - cbn [obind]. apply IH.
Qed.
Lemma distance_square push g q : createDistanceQueue push g fuel = Some q -> capacity q = length (sa_cur q).
Proof.
  unfold createDistanceQueue. destruct (num_edges g 0) as [ne|]; [|discriminate]. cbn [obind]. destruct (ne =? 0); [intros H; inversion H; reflexivity|]. destruct (gtype g 0) as [ed|]; [|discriminate]. cbn [obind]. destruct (first_seeds g ed) as [[sd k]|]; [|discriminate]. cbn [obind]. destruct (k =? 0); [intros H; inversion H; reflexivity|].
  destruct (search _ _ _ _ _ _ _) as [[s1 x]|]; [|discriminate]. cbn [obind]. destruct (layers _ _ _ _ _ _ _ _) as [s2|]; [|discriminate]. cbn [obind]. intros H. apply fill_square in H; [exact H|]. reflexivity.
Qed.
Lemma in_filter_le A (b : A -> bool) l : length (filter b l) <= length l.
Proof. induction l as [|x l IH]; cbn; [lia|]. destruct (b x); cbn; lia. Qed.
Lemma nsum_filter A (f : A -> nat) b l : nsum (map f (filter b l)) <= nsum (map f l).
Proof. induction l as [|x l IH]; cbn [filter map]; [lia|]. destruct (b x); cbn [map]; unfold nsum in *; cbn [fold_right]; lia. Qed.
Lemma nsum_perm l l' : Permutation l l' -> nsum l = nsum l'.
Proof. intros P. unfold nsum. induction P; cbn [fold_right]; lia. Qed.
Lemma queue_ok own ps w r p g : settled own ps w -> nth_error ps r = Some p -> build_part (Z.of_nat r) true (pd_verts p) (pd_vws p) (pd_tys p) (pd_owns p) = Some g ->
  exists q es, (if i_dist inp then createDistanceQueue (i_push inp) g fuel else createIterationQueue g fuel) = Some q /\ waiting q es /\ capacity q = length (sa_cur q) /\
    forall e, In e es -> exists i x, nth_error (edges0 p) i = Some x /\ e = getEdge (ntypes g) i 0.
Proof.
  intros HS Ep B. pose proof HS as (Lp & _ & HD & _). pose proof HD as ((NV & WF) & OB & HP). destruct (HP r p Ep) as (HV & Lo & PV & LT & PE & HO). destruct (nth_error (pd_tys p) 0) as [[es ws]|] eqn:Ht; [|apply nth_error_None in Ht; cbn in LT; lia].
  pose proof (PE 0 (es, ws) E0 Ht eq_refl) as PM. assert (FO : fuel_ok fuel p) by (eapply fuel_global; eauto; [apply SU|eapply nth_error_In; eauto]).
  assert (ED : edges0 p = es) by (unfold edges0; now rewrite Ht). rewrite ED.
  assert (LW : length (eweights (es, ws)) = length es) by (eapply eweights_length; eauto; eapply nth_error_In; eauto).
  assert (EE : map fst (erecs (es, ws)) = es). { unfold erecs. cbn [fst]. apply map_fst_combine. lia. }
  assert (LE : length es <= length E0). { rewrite <- EE, map_length, (Permutation_length PM). apply in_filter_le. }
  assert (EN : enough (pd_verts p) es fuel).
  { unfold enough. assert (A : length (pd_verts p) <= length V). { rewrite <- (vr_fst own V E0 [] ps HD r p Ep), map_length, (Permutation_length PV). apply in_filter_le. }
    assert (C : nsum (map (fun e : edge_input => length (snd e)) es) <= total_pins E0). { rewrite <- EE, map_map. rewrite (nsum_perm _ _ (Permutation_map _ PM)). apply nsum_filter. }
    destruct (su_fuel2 _ _ _ _ _ SU). lia. }
  assert (F4 : 2 * length es + 4 <= fuel) by (destruct (su_fuel2 _ _ _ _ _ SU); lia).
  destruct (i_dist inp) eqn:Di.
  - destruct (ghosts_of (pd_verts p) (pd_tys p)) as [|gh ghs] eqn:EG.
    + destruct (C40_serial (i_push inp) (Z.of_nat r) (pd_verts p) (pd_vws p) (pd_tys p) (pd_owns p) g es ws fuel HV B Ht EG) as (q & Eq & Wq); auto.
      { destruct (filter (touches own r) E0) as [|e0 rest] eqn:EF; [left; rewrite <- EE, map_length, (Permutation_length PM); reflexivity|right]. rewrite <- EF in PM.
        rewrite <- EE, map_length, (Permutation_length PM). apply (su_big _ _ _ _ _ SU Di).
        - intros a b v Ha Hb Ta Va Vb. assert (Ra : In a (erecs (es, ws))) by (apply (Permutation_in _ (Permutation_sym PM)), filter_In; auto).
          assert (Iv : In v (pd_verts p)).
          { destruct (in_dec Z.eq_dec v (pd_verts p)) as [|N]; auto. exfalso. assert (X : In v (ghosts_of (pd_verts p) (pd_tys p))); [|rewrite EG in X; destruct X].
            eapply GraphIOProps.pin_ghost; eauto. exists es, ws, (fst a). split; [eapply nth_error_In; eauto|]. split; auto. rewrite <- EE. now apply in_map. }
          apply (in_verts own V E0 [] ps HD r p v Ep) in Iv as (_ & Ov). unfold touches. apply existsb_exists. exists v. split; auto. now apply Nat.eqb_eq.
        - exists e0. assert (I : In e0 (filter (touches own r) E0)) by (rewrite EF; left; auto). now apply filter_In in I. }
      exists q, []. split; auto. split; auto. split; [eapply distance_square; eauto|]. intros e [].
    + destruct (C40_queue (i_push inp) (Z.of_nat r) (pd_verts p) (pd_vws p) (pd_tys p) (pd_owns p) g es ws fuel HV B Ht) as (q & l & Eq & Wq & Pl & _); auto; [|congruence|].
      { intros v Hv. unfold part_of. destruct (in_dec Z.eq_dec v (pd_verts p)) as [I|N].
        - exfalso. now apply (GraphIOProps.ghost_pin _ _ _ _ _ _ _ HV B) in Hv.
        - assert (Hv2 := Hv). rewrite EG in Hv2. rewrite (HO v Hv2). intros X. apply N. apply (in_verts own V E0 [] ps HD r p v Ep). split; [|lia]. eapply SplitProps.ghost_known; eauto. apply HD. }
      eexists q, _. split; [exact Eq|]. split; [exact Wq|]. split; [eapply distance_square; eauto|]. intros e He. apply in_map_iff in He as (i & <- & Hi). apply (Permutation_in _ Pl) in Hi. apply filter_In in Hi as (Hi & _). apply in_seq in Hi. destruct (nth_error es i) as [x|] eqn:Ei; [eauto|apply nth_error_None in Ei; lia].
  - destruct (C37_hypergraph (Z.of_nat r) (pd_verts p) (pd_vws p) (pd_tys p) (pd_owns p) g es ws fuel HV B Ht) as (q & Eq & Lq & Wq); [apply (proj2 FO (es, ws)); eapply nth_error_In; eauto|].
    eexists q, _. split; [exact Eq|]. split; [exact Wq|]. split; [congruence|]. intros e He. apply in_map_iff in He as ((i, x) & <- & Hi). apply filter_In in Hi as (Hi & _). exists i, x. cbn [fst]. split; auto.
    apply In_nth_error in Hi as (k & Hk). apply combine_nth_inv in Hk as (A & C). cbn [fst snd] in *. assert (k < length es) by (apply nth_error_Some; congruence). rewrite nth_error_nth' with (d := 0) in A by (rewrite seq_length; auto). rewrite seq_nth in A by auto. inversion A. now subst.
Qed.

(** ** the plan of a part *)
Lemma bounded A (f : A -> Q) l : exists M, (0 <= M)%Q /\ forall x, In x l -> (f x <= M)%Q.
Proof.
  induction l as [|a l (M & P & H)]; [exists 0%Q; split; [lra|intros x []]|]. destruct (Qlt_le_dec M (f a)) as [L|L].
  - exists (f a). split; [lra|]. intros x [<-|I]; [lra|]. specialize (H x I). lra.
  - exists M. split; auto. intros x [<-|I]; auto.
Qed.
Lemma part_plan_ok own ps w r p s d ds T o : settled own ps w -> nth_error ps r = Some p -> nth_error w r = Some s -> dim_known d -> NoDup (map fst (c_d T)) ->
  (forall z, chas T z = true -> exists q, z = Z.of_nat q /\ lighter own d ds r q) -> fair o ->
  exists m cs, part_plan val fuel inp o d r s T = Some m /\ mp_g m = fst s /\ mp_oo m = snd s /\ made_plan fuel (fst s) cs (mp_plan m) /\
    forall x, In x cs -> exists l z, x = Ins l z /\ l < nlv (fst s) /\ chas T z = true.
Proof.
  intros HS Ep Es Hd NT HT HO. pose proof HS as (Lp & Lw & HD & HB). destruct (HB r p s Ep Es) as (B & _). destruct (queue_ok own ps w r p (fst s) HS Ep B) as (q & es & Eq & Wq & Cq & Hes).
  assert (HV : valid_input true (pd_verts p) (pd_vws p) (pd_tys p)) by (destruct HD as (_ & _ & HX); apply (HX r p Ep)).
  pose proof (p_constructed _ _ _ _ _ _ _ HV B) as HC. assert (FO : fuel_ok fuel p) by (eapply fuel_global; eauto; [apply SU|eapply nth_error_In; eauto]).
  destruct (plan_run _ _ _ _ _ (fst s) [] fuel HC (proj1 FO)) as (p0 & _ & EP & _); [intros x []|].
  destruct (bounded Z (vertex_load val p d) (pd_verts p)) as (M & M0 & HM).
  destruct (C43_select val own V [E0] ps r p (fst s) None fuel (fst (o r)) (snd (o r)) T (i_growth inp) d M p0 q es HD Ep B (su_fuel _ _ _ _ _ SU) s_wpos) as (s0 & st & cs & E1 & E2 & MP & CC & _); auto.
  - apply HO.
  - now apply s_dim.
  - intros z Hz. destruct (HT z Hz) as (k & -> & A & C & _). lia.
  - split; auto. now apply waiting_fits.
  - intros x Hx. assert (Hx' : exists e, In e E0 /\ fst e = x).
    { destruct HD as (_ & _ & HX). destruct (HX r p Ep) as (_ & _ & _ & LT & PE & _). unfold edges0 in Hx. destruct (nth_error (pd_tys p) 0) as [[es0 ws0]|] eqn:Ht; [|destruct Hx]. pose proof (PE 0 _ E0 Ht eq_refl) as PM. cbn [fst] in Hx.
      assert (LWt : length (eweights (es0, ws0)) = length es0) by (eapply eweights_length; eauto; eapply nth_error_In; eauto). rewrite <- (map_fst_combine _ _ es0 (eweights (es0, ws0))) in Hx by lia. apply in_map_iff in Hx as (e & <- & He). exists e. split; auto. apply (Permutation_in _ PM) in He. now apply filter_In in He. }
    destruct Hx' as (e & He & <-). eapply Nat.le_lt_trans; [|apply (su_100 _ _ _ _ _ SU e He)]. unfold on_part. apply NoDup_incl_length; [apply NoDup_nodup|]. intros v Hv. apply nodup_In in Hv. apply filter_In in Hv as (Hv & _). now apply nodup_In.
  - exists (mkMP (fst s) (snd s) (s_plan st)), cs. unfold part_plan. rewrite Eq. cbn [obind]. rewrite EP. cbn [obind]. rewrite E1. cbn [obind]. rewrite E2. cbn [obind]. unfold selectDisconnected. rewrite (proj2 (Nat.leb_le _ _) (su_min _ _ _ _ _ SU)). cbn [obind mp_g mp_oo mp_plan].
    do 4 (split; auto). intros x Hx. destruct (CC x Hx) as (l & z & v & i & e & -> & Hz & Hl & _). exists l, z. split; auto. split; auto. destruct (c_counts _ _ _ _ _ _ HC) as (-> & _). apply nth_error_Some. congruence.
Qed.
(** ** the plan of a step *)
(** the vertices planned by [calls] go to lighter parts, and do not push any part over a limit *)
Definition good_plan (own : Z -> nat) (ps : list pdesc) (d : option nat) (ds : list done) (calls : list (list plan_op)) (mps : list mpart) : Prop :=
  ready true fuel ps calls mps /\
  (forall r cs l z, nth_error calls r = Some cs -> planned cs l = Some z -> exists q, z = Z.of_nat q /\ lighter own d ds r q) /\
  forall own', moved_to own' ps calls -> forall q x, q < n -> In x ds -> (pw own' q (dn_dim x) <= dn_lim x \/ pw own' q (dn_dim x) <= pw own q (dn_dim x))%Q.
Lemma with_none mps k : length mps = k -> map (fun m => mkSP (mp_g m) None (mp_plan m)) mps = with_weights mps (repeat None k).
Proof. intros <-. unfold with_weights. induction mps as [|m l IH]; [reflexivity|]. cbn [length repeat combine map fst snd]. now rewrite IH. Qed.
Lemma trimmed_ok own ps d ds calls mps : distributed own V [E0] ps -> length ps = n -> Forall dim_known (map dn_dim ds) -> length ds <= 5 -> ready true fuel ps calls mps ->
  (forall r cs l z, nth_error calls r = Some cs -> planned cs l = Some z -> exists q, z = Z.of_nat q /\ lighter own d ds r q) ->
  trimmed val fuel ds mps (fun mps' => exists calls', good_plan own ps d ds calls' mps').
Proof.
  intros HD Lp HK L5 HR HL. unfold trimmed. destruct ds as [|x ds0].
  - exists calls. split; auto. split; auto. intros own' _ q y _ [].
  - set (ds := x :: ds0) in *. assert (L0 : 0 < length ds) by (cbn; lia). clearbody ds. assert (LM : length mps = n) by (destruct HR as (A & _); rewrite A; exact Lp). rewrite (with_none mps n LM).
    apply (trim_cancel_mono val fuel (map dn_dim ds) (map dn_lim ds) _ (fun plans => length plans = length ps /\
      exists calls', ready true fuel ps calls' (replan mps plans) /\ (forall r cs cs' l, nth_error calls r = Some cs -> nth_error calls' r = Some cs' -> planned cs' l = None \/ planned cs' l = planned cs l) /\
      forall own', moved_to own' ps calls' -> forall q i x lim, q < length ps -> nth_error (map dn_dim ds) i = Some x -> nth_error (map dn_lim ds) i = Some lim -> (pw own' q x <= lim \/ pw own' q x <= pw own q x)%Q)).
    + intros plans (LP & calls' & HR' & SUB & LIM). exists calls'. split; [exact HR'|]. split.
      * intros r cs' l z Hc Hz. pose proof HR as (_ & LC & _). pose proof HR' as (_ & LC' & _). destruct (nth_error calls r) as [cs|] eqn:Ec. 2:{ apply nth_error_None in Ec. assert (r < length calls') by (apply nth_error_Some; congruence). lia. }
        destruct (SUB r cs cs' l Ec Hc) as [N|N]; [congruence|]. apply (HL r cs l z Ec). congruence.
      * intros own' HM q y Lq Hy. apply In_nth_error in Hy as (i & Hi). apply (LIM own' HM q i (dn_dim y) (dn_lim y)); [lia|rewrite nth_error_map, Hi; reflexivity|rewrite nth_error_map, Hi; reflexivity].
    + apply (C44_limits val own V [E0] ps calls mps (repeat None n) fuel (map dn_dim ds) (map dn_lim ds) HD HR (su_fuel _ _ _ _ _ SU) s_wpos).
      * eapply Forall_impl; [|exact HK]. intros y. apply s_dim.
      * now rewrite !map_length.
      * now rewrite map_length.
      * now rewrite map_length.
      * rewrite repeat_length. now symmetry.
Qed.
Lemma planning_ok own ps w d sideTol ds : settled own ps w -> dim_known d -> Forall dim_known (map dn_dim ds) -> length ds <= 5 ->
  planning val fuel inp d sideTol ds w (fun mps => exists calls, good_plan own ps d ds calls mps).
Proof.
  intros HS Hd HK L5. pose proof HS as (Lp & Lw & HD & HB). destruct (sides_all own ps w HS) as (ss & Es & Ls & HSS). exists ss. split; auto.
  eapply makeWeights_mono; [|apply (makeWeights_ok own ps w ss d); auto]. intros tw (Lt & HT). eapply completed_mono; [|apply (completed_ok own ps w ss (map dn_dim ds)); auto]. intros cs HC.
  assert (X : forall r s x, nth_error w r = Some s -> nth_error (combine ss tw) r = Some x -> exists T, part_targets inp (length w) sideTol cs (map dn_lim ds) r (fst s) (fst x) (snd x) = Some T /\
     NoDup (map fst (c_d T)) /\ forall z, chas T z = true -> exists q, z = Z.of_nat q /\ lighter own d ds r q).
  { intros r s x Hs Hx. apply combine_nth_inv in Hx as (H1 & H2). rewrite Lw. destruct (HT r _ H2) as (A & C). apply (targets_ok own d ds sideTol cs r (fst s) (fst x) (snd x)); auto. eapply s_lt; eauto. }
  destruct (par2_total _ _ _ (fun r s x => part_targets inp (length w) sideTol cs (map dn_lim ds) r (fst s) (fst x) (snd x)) 0 w (combine ss tw)) as (tgts & ET).
  { rewrite combine_length. lia. }
  { intros i a b Ha Hb. destruct (X i a b Ha Hb) as (T & E & _). eauto. }
  exists tgts. split; [exact ET|]. intros o FO. pose proof (par2_length _ _ _ _ _ _ _ _ ET) as (LT & _).
  assert (Y : forall r s T, nth_error w r = Some s -> nth_error tgts r = Some T -> exists m, part_plan val fuel inp o d r s T = Some m /\ exists cs, mp_g m = fst s /\ mp_oo m = snd s /\ made_plan fuel (fst s) cs (mp_plan m) /\
    forall x, In x cs -> exists l z, x = Ins l z /\ l < nlv (fst s) /\ exists q, z = Z.of_nat q /\ lighter own d ds r q).
  { intros r s T Hs HTg. destruct (par2_nth _ _ _ _ _ _ _ _ _ _ ET HTg) as (s' & x & Hs' & Hx & E). assert (s' = s) by congruence. subst s'. destruct (X r s x Hs Hx) as (T' & E' & NT & HTT). assert (T' = T) by (cbn [plus] in E; congruence). subst T'.
    destruct (s_at own ps w r HS (s_lt _ _ _ _ Lw Hs)) as (p & s' & Ep & _). destruct (part_plan_ok own ps w r p s d ds T o HS Ep Hs Hd NT HTT FO) as (m & cl & Em & G & O & MP & CC). exists m. split; auto. exists cl. do 3 (split; auto). intros y Hy. destruct (CC y Hy) as (l & z & -> & Hl & Hz). eauto 8. }
  destruct (par2_total _ _ _ (fun r s t => part_plan val fuel inp o d r s t) 0 w tgts LT) as (mps & EM).
  { intros i a b Ha Hb. destruct (Y i a b Ha Hb) as (m & E & _). eauto. }
  exists mps. split; [exact EM|]. pose proof (par2_length _ _ _ _ _ _ _ _ EM) as (LM & _).
  assert (CALLS : exists calls, length calls = n /\ forall r cs s m, nth_error calls r = Some cs -> nth_error w r = Some s -> nth_error mps r = Some m -> mp_g m = fst s /\ mp_oo m = snd s /\ made_plan fuel (fst s) cs (mp_plan m) /\
    forall x, In x cs -> exists l z, x = Ins l z /\ l < nlv (fst s) /\ exists q, z = Z.of_nat q /\ lighter own d ds r q).
  { assert (G : forall k, k <= n -> exists calls, length calls = k /\ forall r cs s m, nth_error calls r = Some cs -> nth_error w r = Some s -> nth_error mps r = Some m -> mp_g m = fst s /\ mp_oo m = snd s /\ made_plan fuel (fst s) cs (mp_plan m) /\
      forall x, In x cs -> exists l z, x = Ins l z /\ l < nlv (fst s) /\ exists q, z = Z.of_nat q /\ lighter own d ds r q).
    { induction k as [|k IH]; intros Lk; [exists []; split; auto; intros [|r]; discriminate|]. destruct IH as (calls & Lc & HCl); [lia|].
      destruct (nth_error w k) as [s|] eqn:Es'; [|apply nth_error_None in Es'; lia]. destruct (nth_error tgts k) as [T|] eqn:Etg; [|apply nth_error_None in Etg; lia]. destruct (Y k s T Es' Etg) as (m & Em & cl & Hcl).
      exists (calls ++ [cl]). split; [rewrite app_length; cbn; lia|]. intros r cs0 s0 m0 Hc Hs Hm. destruct (Nat.eq_dec r k) as [->|Nr].
      - rewrite nth_error_app2, Lc, Nat.sub_diag in Hc by lia. inversion Hc; subst cs0. assert (s0 = s) by congruence. subst s0. destruct (par2_nth _ _ _ _ _ _ _ _ _ _ EM Hm) as (s1 & T1 & A1 & A2 & A3). cbn [plus] in A3. assert (m0 = m) by congruence. subst m0. exact Hcl.
      - assert (r < length (calls ++ [cl])) by (apply nth_error_Some; congruence). rewrite app_length in H. cbn in H. rewrite nth_error_app1 in Hc by lia. eapply HCl; eauto. }
    apply (G n); auto. }
  destruct CALLS as (calls & Lc & HCl). eapply trimmed_ok with (calls := calls); eauto.
  - split; [congruence|]. split; [congruence|]. intros r p cs0 m Hp Hc Hm. destruct (s_at own ps w r HS (s_lt _ _ _ _ Lp Hp)) as (p' & s & Ep & Es' & BF). assert (p' = p) by congruence. subst p'. destruct (HCl r cs0 s m Hc Es' Hm) as (-> & -> & MP & CC). split; [destruct s; exact BF|]. split; auto.
    intros x Hx. destruct (CC x Hx) as (l & z & -> & Hl & q & -> & _ & Lq & _). split; auto. lia.
  - intros r cs0 l z Hc Hz. apply planned_in in Hz. pose proof (s_lt _ _ _ _ Lc Hc) as Lr. destruct (nth_error w r) as [s|] eqn:Es'; [|apply nth_error_None in Es'; lia]. destruct (nth_error mps r) as [m|] eqn:Em; [|apply nth_error_None in Em; lia].
    destruct (HCl r cs0 s m Hc Es' Em) as (_ & _ & _ & CC). destruct (CC _ Hz) as (l' & z' & E & _ & q & -> & Hq). inversion E; subst. eauto.
Qed.

(** ** monotonicity *)
Lemma trimmed_mono ds mps (Q1 Q2 : list mpart -> Prop) : (forall x, Q1 x -> Q2 x) -> trimmed val fuel ds mps Q1 -> trimmed val fuel ds mps Q2.
Proof. intros H. unfold trimmed. destruct ds; [apply H|]. apply trim_cancel_mono. intros plans. apply H. Qed.
Lemma planning_mono d sideTol ds w (Q1 Q2 : list mpart -> Prop) : (forall x, Q1 x -> Q2 x) -> planning val fuel inp d sideTol ds w Q1 -> planning val fuel inp d sideTol ds w Q2.
Proof.
  intros H (ss & E & P). exists ss. split; auto. revert P. apply makeWeights_mono. intros tw. apply completed_mono. intros cs (tg & ET & F). exists tg. split; auto. intros o FO. destruct (F o FO) as (mps & EM & TR). exists mps. split; auto. revert TR. now apply trimmed_mono.
Qed.
Lemma runStep_mono d tol sideTol ds s w (Q1 Q2 : Z -> sd -> world -> Prop) : (forall a b c, Q1 a b c -> Q2 a b c) -> runStep val fuel inp d tol sideTol ds s w Q1 -> runStep val fuel inp d tol sideTol ds s w Q2.
Proof.
  intros H (ws & imb & E1 & E2 & P). exists ws, imb. split; auto. split; auto. destruct (qlt imb tol); auto. destruct P as (s' & stop & E3 & E4 & P). exists s', stop. split; auto. split; auto. destruct stop; auto. revert P. apply planning_mono. intros mps. destruct (0 <? _); auto. apply migrate_mono. intros w'. apply H.
Qed.
Lemma diffuse_mono k : forall d tol sideTol ds inner step s w (Q1 Q2 : Z -> Z -> world -> Prop), (forall a b c, Q1 a b c -> Q2 a b c) -> diffuse val fuel inp k d tol sideTol ds inner step s w Q1 -> diffuse val fuel inp k d tol sideTol ds inner step s w Q2.
Proof.
  induction k as [|k IH]; intros d tol sideTol ds inner step s w Q1 Q2 H; cbn [diffuse]; auto. apply runStep_mono. intros rc s' w'. destruct (Z.eqb rc 0); auto. destruct (inner <? i_per inp)%Z; auto. destruct (step <? i_max inp)%Z; auto. now apply IH.
Qed.

(** ** a step *)
Definition within (own : Z -> nat) (ds : list done) : Prop := forall x q, In x ds -> q < n -> (pw own q (dn_dim x) <= dn_lim x)%Q.
Definition all_weights (own : Z -> nat) (d : option nat) : list Q := map (fun r => pw own r d) (seq 0 n).
Definition balanced (own : Z -> nat) (d : option nat) (tol : Q) : Prop := forall r, r < n -> (pw own r d < tol * (qsum (all_weights own d) / inject_Z (Z.of_nat n)))%Q.
Lemma pw_pos own r d : dim_known d -> (0 <= pw own r d)%Q.
Proof.
  intros Hd. pose proof s_wpos as (W1 & W2). destruct d as [t|]; cbn [part_weight]; apply qsum_nonneg; intros y Hy; apply in_map_iff in Hy as (z & <- & Hz); apply filter_In in Hz as (Hz & _); [|auto]. cbn in Hd. subst t. cbn [nth] in Hz. apply (W2 E0); cbn; auto.
Qed.
Lemma sum_pos own ps w d : settled own ps w -> dim_known d -> heavy val V E0 d -> (0 < qsum (all_weights own d))%Q.
Proof.
  intros HS Hd HH. pose proof HS as (Lp & _ & ((_ & WF) & OB & _) & _). assert (X : exists r, r < n /\ (0 < pw own r d)%Q).
  { destruct d as [t|]; cbn in Hd, HH.
    - subst t. destruct HH as (e & He & NP). destruct (snd (fst e)) as [|v l] eqn:Ee; [congruence|]. assert (Iv : In v (snd (fst e))) by (rewrite Ee; left; auto). exists (own v). split; [rewrite <- Lp; apply OB; apply (WF E0 (or_introl eq_refl)) with (e := e); auto|].
      apply Qlt_le_trans with (val (snd e)); [apply (su_ew _ _ _ _ _ SU) in He; lra|]. cbn [part_weight nth]. apply qsum_elem.
      + intros y Hy. apply in_map_iff in Hy as (z & <- & Hz). apply filter_In in Hz as (Hz & _). apply (su_ew _ _ _ _ _ SU) in Hz. lra.
      + apply in_map_iff. exists e. split; auto. apply filter_In. split; auto. unfold touches. apply existsb_exists. exists v. split; auto. apply Nat.eqb_refl.
    - destruct HH as (v & Hv & P). exists (own (fst v)). split; [rewrite <- Lp; apply OB; now apply in_map|]. eapply Qlt_le_trans; [exact P|]. cbn [part_weight]. apply qsum_elem.
      + intros y Hy. apply in_map_iff in Hy as (z & <- & Hz). apply filter_In in Hz as (Hz & _). now apply (su_vw _ _ _ _ _ SU).
      + apply in_map_iff. exists v. split; auto. apply filter_In. split; auto. apply Nat.eqb_refl. }
  destruct X as (r & Lr & P). eapply Qlt_le_trans; [exact P|]. apply qsum_elem.
  - intros y Hy. apply in_map_iff in Hy as (z & <- & _). now apply pw_pos.
  - apply in_map_iff. exists r. split; auto. apply in_seq. lia.
Qed.
Lemma weights_sum own d ws : length ws = n -> (forall r x, nth_error ws r = Some x -> (x == pw own r d)%Q) -> (qsum ws == qsum (all_weights own d))%Q.
Proof.
  intros L H. unfold all_weights. rewrite <- L. assert (G : forall l k, (forall i x, nth_error l i = Some x -> (x == pw own (k + i) d)%Q) -> (qsum l == qsum (map (fun r => pw own r d) (seq k (length l))))%Q).
  { induction l as [|x l IH]; intros k HK; [reflexivity|]. cbn [length seq map qsum]. rewrite (HK 0 x eq_refl), Nat.add_0_r. rewrite (IH (Datatypes.S k)); [reflexivity|]. intros i y Hy. rewrite Nat.add_succ_l, <- Nat.add_succ_r. now apply HK. }
  apply (G ws 0). auto.
Qed.
Lemma qlt_spec a b : qlt a b = true <-> (a < b)%Q.
Proof. unfold qlt. destruct (Qle_bool b a) eqn:E; cbn; [apply Qle_bool_iff in E; split; [discriminate|intros; lra]|]. split; auto. intros _. destruct (Qlt_le_dec a b) as [|G]; auto. apply Qle_bool_iff in G. congruence. Qed.

(** what a migrating step does to the vertices *)
Definition moves_down (own own' : Z -> nat) (d : option nat) (ds : list done) : Prop :=
  (forall v, In v (map fst V) -> own' v = own v \/ lighter own d ds (own v) (own' v)) /\ exists v, In v (map fst V) /\ own' v <> own v.
Definition step_post (own : Z -> nat) (d : option nat) (tol : Q) (ds : list done) (w : world) (rc : Z) (w' : world) : Prop :=
  (rc = 1%Z /\ w' = w /\ balanced own d tol) \/ ((rc = 2%Z \/ rc = 3%Z) /\ w' = w) \/
  (rc = 0%Z /\ exists own' ps', settled own' ps' w' /\ within own' ds /\ moves_down own own' d ds).
Lemma runStep_ok own ps w d tol sideTol ds s : settled own ps w -> dim_known d -> heavy val V E0 d -> Forall dim_known (map dn_dim ds) -> length ds <= 5 -> within own ds -> sd_reach s ->
  runStep val fuel inp d tol sideTol ds s w (fun rc s' w' => sd_reach s' /\ step_post own d tol ds w rc w').
Proof.
  intros HS Hd HH HK L5 HW SR. destruct (weights_all own ps w d HS Hd) as (ws & Ew & Lw & HWs). pose proof (weights_sum own d ws Lw HWs) as SW. pose proof (sum_pos own ps w d HS Hd HH) as SP.
  destruct (C34_imbalance ws) as (imb & m & Ei & IM & Eq & _); [rewrite SW; exact SP|]. exists ws, imb. split; auto. split; auto.
  destruct (qlt imb tol) eqn:Ql.
  - split; auto. left. split; auto. split; auto. apply qlt_spec in Ql. rewrite Eq in Ql. intros r Lr. destruct (nth_error ws r) as [x|] eqn:Ex; [|apply nth_error_None in Ex; lia]. rewrite <- (HWs r x Ex). destruct IM as (_ & MX). specialize (MX x (nth_error_In _ _ Ex)). eapply Qle_lt_trans; [exact MX|].
    rewrite Lw, SW in Ql. assert (AP : (0 < qsum (all_weights own d) / inject_Z (Z.of_nat n))%Q). { apply Qlt_shift_div_l; [|rewrite Qmult_0_l; exact SP]. change 0%Q with (inject_Z 0). rewrite <- Zlt_Qlt. lia. }
    revert Ql AP. generalize (qsum (all_weights own d) / inject_Z (Z.of_nat n))%Q. intros a Ql AP. apply (Qmult_lt_r _ _ a AP) in Ql. rewrite (Qmult_comm (m / a)), Qmult_div_r in Ql by lra. exact Ql.
  - destruct (push_reach s imb SR) as (s' & Es & SR' & SL). exists s'. assert (ST : exists stop, (if sd_full s' then m0 <- sd_slope s' ;; Some (qlt 0 m0) else Some false) = Some stop) by (destruct (sd_full s'); [destruct (SL eq_refl) as (m0 & ->); cbn; eauto|eauto]). destruct ST as (stop & ST).
    exists stop. split; auto. split; auto. destruct stop; [split; auto; right; left; auto|]. eapply planning_mono; [|apply (planning_ok own ps w d sideTol ds HS Hd HK L5)]. intros mps (calls & HR & DW & LM).
    destruct (0 <? nsum _) eqn:Ns; [|split; auto; right; left; auto]. pose proof HS as (Lp & _ & HD & _). pose proof (new_home_moved own V E0 ps calls mps fuel HD HR) as HM. set (own' := new_home own ps calls) in *. clearbody own'.
    eapply migrate_mono; [|apply (one_step own own' V E0 ps calls mps fuel HD HR HM (su_fuel _ _ _ _ _ SU))]. intros w' (ps' & Lp' & Lw' & HD' & HB'). split; auto. right; right. split; auto. exists own', ps'. split; [split; [congruence|]; split; [congruence|]; split; auto|].
    split; [intros x q Hx Lq; destruct (LM own' HM q x Lq Hx) as [A|A]; auto; specialize (HW x q Hx Lq); lra|]. split.
    + intros v Hv. destruct (part_of_v own V E0 [] ps HD v Hv) as (p & Ep & Iv). apply In_nth_error in Iv as (l & Hl). pose proof HR as (_ & LC & _). destruct (nth_error calls (own v)) as [cs|] eqn:Ec; [|apply nth_error_None in Ec; assert (own v < length ps) by (apply nth_error_Some; congruence); lia].
      pose proof (HM (own v) p cs l v Ep Ec Hl) as X. destruct (planned cs l) as [z|] eqn:Pz; [|auto]. right. destruct (DW (own v) cs l z Ec Pz) as (q & Zq & LT). assert (q = own' v) by lia. congruence.
    + apply Nat.ltb_lt in Ns. assert (X : exists r m0, nth_error mps r = Some m0 /\ pl_sending (mp_plan m0) <> []).
      { clear - Ns. induction mps as [|m0 mps IH]; [cbn in Ns; lia|]. destruct (pl_sending (mp_plan m0)) as [|h t] eqn:Em.
        - destruct IH as (r & m1 & A & B); [cbn [map nsum fold_right] in Ns; unfold nsum in *; cbn [map fold_right] in Ns; rewrite Em in Ns; cbn in Ns; exact Ns|]. exists (Datatypes.S r), m1. auto.
        - exists 0, m0. split; auto. congruence. }
      destruct X as (r & m0 & Hm & NE). pose proof HR as (LS & LC & HX). assert (Lr : r < length ps) by (rewrite <- LS; apply nth_error_Some; congruence). destruct (nth_error ps r) as [p|] eqn:Ep; [|apply nth_error_None in Ep; lia]. destruct (nth_error calls r) as [cs|] eqn:Ec; [|apply nth_error_None in Ec; lia].
      destruct (HX r p cs m0 Ep Ec Hm) as ((B & _) & (p0 & MP1 & MP2) & OK). cbn [fst] in B. assert (HV : valid_input true (pd_verts p) (pd_vws p) (pd_tys p)) by (destruct HD as (_ & _ & HX0); apply (HX0 r p Ep)). pose proof (p_constructed _ _ _ _ _ _ _ HV B) as HC.
      assert (FO : fuel_ok fuel p) by exact (fuel_global own V [E0] ps fuel p HD (su_fuel _ _ _ _ _ SU) (nth_error_In _ _ Ep)). destruct (plan_run _ _ _ _ _ (mp_g m0) cs fuel HC (proj1 FO)) as (p1 & pl & A1 & A2 & PI).
      { intros o Ho. apply OK in Ho. destruct o; cbn in *; auto. split; [tauto|lia]. }
      assert (p1 = p0) by congruence. subst p1. assert (pl = mp_plan m0) by congruence. subst pl. destruct PI as (_ & PS & PL & _). rewrite PS in NE. destruct (fm_run cs) as [|(l, z) rest] eqn:Ef; [cbn in NE; congruence|].
      assert (Pl : planned cs l = Some z). { rewrite <- planned_get, Ef. cbn. now rewrite Nat.eqb_refl. } assert (Ll : l < nlv (mp_g m0)) by (apply PL; left; reflexivity). destruct (c_counts _ _ _ _ _ _ HC) as (Cn & _). destruct (nth_error (pd_verts p) l) as [v|] eqn:Ev; [|apply nth_error_None in Ev; lia].
      exists v. pose proof (HM r p cs l v Ep Ec Ev) as X. rewrite Pl in X. destruct (DW r cs l z Ec Pl) as (q & Zq & NQ & _). pose proof (in_verts own V E0 [] ps HD r p v Ep) as IV. destruct (proj1 IV (nth_error_In _ _ Ev)) as (Iv & Ov). split; auto. lia.
Qed.
(** ** the loop for one dimension *)
Lemma diffuse_ok k : forall d tol sideTol ds inner step s own ps w, settled own ps w -> dim_known d -> heavy val V E0 d -> Forall dim_known (map dn_dim ds) -> length ds <= 5 -> within own ds -> sd_reach s -> (0 <= inner)%Z -> Z.to_nat (i_per inp - inner) < k ->
  diffuse val fuel inp k d tol sideTol ds inner step s w (fun rc step' w' => exists own' ps', settled own' ps' w' /\ within own' ds /\ (rc = 1%Z -> balanced own' d tol)).
Proof.
  induction k as [|k IH]; intros d tol sideTol ds inner step s own ps w HS Hd HH HK L5 HW SR I0 F; [lia|]. cbn [diffuse]. eapply runStep_mono; [|apply (runStep_ok own ps w d tol sideTol ds s HS Hd HH HK L5 HW SR)].
  intros rc s' w' (SR' & [(-> & -> & BL)|[([->| ->] & ->)|(-> & own' & ps' & HS' & HW' & _)]]); cbn [Z.eqb].
  - exists own, ps. auto.
  - exists own, ps. split; auto. split; auto. discriminate.
  - exists own, ps. split; auto. split; auto. discriminate.
  - assert (X : exists own0 ps0, settled own0 ps0 w' /\ within own0 ds /\ (0%Z = 1%Z -> balanced own0 d tol)) by (exists own', ps'; split; auto; split; auto; discriminate).
    destruct (Z.ltb_spec inner (i_per inp)) as [L|G]; [|exact X]. destruct (step <? i_max inp)%Z; [|exact X]. eapply IH; eauto; lia.
Qed.
End Step.
