(** What trim and cancel compute on one part, and how a receiver hands out its capacity. *)
From Verif Require Import Base GraphModel Comm TagModel TagProps MetricsModel MetricsProofs SidesProofs MigrateModel SelectorModel.
From Coq Require Import Lqa.
Local Open Scope nat_scope.

(** ** sets *)
Definition addall (s l : list nat) : list nat := fold_left sadd l s.
Lemma smem_in s x : smem s x = true <-> In x s.
Proof. unfold smem. rewrite existsb_exists. split; [intros (y & H & E); apply Nat.eqb_eq in E; now subst|]. intros H. exists x. split; auto. apply Nat.eqb_refl. Qed.
Lemma smem_no s x : smem s x = false <-> ~ In x s.
Proof. rewrite <- smem_in. destruct (smem s x); split; congruence. Qed.
Lemma sadd_in s x y : In y (sadd s x) <-> In y s \/ y = x.
Proof. unfold sadd. destruct (smem s x) eqn:E; [apply smem_in in E; split; [auto|intros [H| ->]; auto]|]. rewrite in_app_iff. cbn. intuition. Qed.
Lemma sadd_nodup s x : NoDup s -> NoDup (sadd s x).
Proof. unfold sadd. destruct (smem s x) eqn:E; auto. apply smem_no in E. intros H. apply NoDup_app_iff. split; auto. split; [constructor; [intros []|constructor]|]. intros y Hy [<-|[]]. auto. Qed.
Lemma addall_app s a b : addall s (a ++ b) = addall (addall s a) b. Proof. apply fold_left_app. Qed.
Lemma addall_in l : forall s y, In y (addall s l) <-> In y s \/ In y l.
Proof. induction l as [|x l IH]; intros s y; cbn [addall fold_left]; [cbn; tauto|]. fold (addall (sadd s x) l). rewrite IH, sadd_in. cbn. intuition. Qed.
Lemma addall_nodup l : forall s, NoDup s -> NoDup (addall s l).
Proof. induction l as [|x l IH]; intros s H; cbn [addall fold_left]; auto. apply IH, sadd_nodup, H. Qed.
Lemma addall_split s l : addall s l = s ++ addall [] (filter (fun x => negb (smem s x)) l).
Proof.
  induction l as [|x l IH] using rev_ind; [cbn; now rewrite app_nil_r|]. rewrite filter_app, !addall_app, IH. cbn [filter].
  set (A := addall [] (filter (fun x => negb (smem s x)) l)). cbn [addall fold_left]. unfold sadd at 1. unfold smem at 1. rewrite existsb_app. fold (smem s x) (smem A x).
  destruct (smem s x) eqn:E; cbn [orb negb]; [reflexivity|]. cbn [addall fold_left]. unfold sadd. destruct (smem A x); [reflexivity|]. now rewrite app_assoc.
Qed.
Lemma addall_fresh s l : (forall x, In x l -> ~ In x s) -> NoDup l -> addall s l = s ++ l.
Proof.
  revert s. induction l as [|x l IH]; intros s H N; cbn [addall fold_left]; [now rewrite app_nil_r|]. inversion N; subst.
  assert (E : sadd s x = s ++ [x]) by (unfold sadd; rewrite (proj2 (smem_no s x)) by (apply H; left; auto); reflexivity).
  rewrite E. change (fold_left sadd l (s ++ [x])) with (addall (s ++ [x]) l). rewrite IH; [now rewrite <- app_assoc| |auto].
  intros y Hy I. apply in_app_iff in I as [I|[->|[]]]; [apply (H y); [right|]; auto|auto].
Qed.
Lemma addall_new s l : addall s (addall [] (filter (fun x => negb (smem s x)) l)) = addall s l.
Proof.
  rewrite addall_fresh; [now rewrite <- addall_split| |apply addall_nodup; constructor]. intros x Hx. apply addall_in in Hx as [[]|Hx]. apply filter_In in Hx as (_ & Hx). apply smem_no. now destruct (smem s x).
Qed.
Lemma at_set_put m d s k : at_set (zput m d s) k = if Z.eqb d k then s else at_set m k.
Proof. unfold at_set. rewrite zfind_zput. now destruct (Z.eqb d k). Qed.
Lemma at_wgt_put m d s k : at_wgt (zput m d s) k = if Z.eqb d k then s else at_wgt m k.
Proof. unfold at_wgt. rewrite zfind_zput. now destruct (Z.eqb d k). Qed.

(** ** loads of one part *)
Section Local.
Variables (val : Z -> Q) (g : graph) (gw : option (arr Z)) (fuel : nat).
Variables (il : nat -> nat -> list nat) (res : nat -> Z -> bool) (ew vw : nat -> Q) (loc tok : nat -> Prop).
Hypothesis H_il : forall h t, loc h -> tok t -> vertex_edges g h t fuel = Some (il t h).
Hypothesis H_res : forall h t e d, loc h -> tok t -> In e (il t h) -> isResidentOn g e d = Some (res e d).
Hypothesis H_ew : forall h t e, loc h -> tok t -> In e (il t h) -> exists x, eweight g e = Some x /\ val x = ew e.
Hypothesis H_vw : forall h, loc h -> weight_of val g gw h = Some (vw h).

(** edges of v that are not on part d yet *)
Definition news (t : nat) (d : Z) (v : nat) : list nat := filter (fun e => negb (res e d)) (il t v).
Lemma interior_ok v d t s : loc v -> tok t -> interior g fuel v d t s = Some (addall s (news t d v)).
Proof.
  intros Hv Ht. unfold interior. rewrite (H_il v t Hv Ht). cbn [obind]. unfold news. assert (G : forall e, In e (il t v) -> isResidentOn g e d = Some (res e d)) by (intros; eapply H_res; eauto).
  revert s G. generalize (il t v). induction l as [|e l IH]; intros s G; [reflexivity|]. cbn [foldM]. rewrite (G e) by (left; auto). cbn [obind filter]. destruct (res e d); cbn [negb]; apply IH; intros; apply G; right; auto.
Qed.
Lemma temp_ok v d t s : loc v -> tok t -> temp_interior g fuel v d t s = Some (addall [] (filter (fun e => negb (smem s e)) (news t d v))).
Proof.
  intros Hv Ht. unfold temp_interior. rewrite (H_il v t Hv Ht). cbn [obind]. unfold news. assert (G : forall e, In e (il t v) -> isResidentOn g e d = Some (res e d)) by (intros; eapply H_res; eauto).
  revert G. generalize (@nil nat). generalize (il t v). induction l as [|e l IH]; intros a G; [reflexivity|]. cbn [foldM filter].
  destruct (smem s e) eqn:E.
  - cbn [obind]. rewrite IH by (intros; apply G; right; auto). destruct (res e d); cbn [negb filter]; [reflexivity|]. rewrite E. reflexivity.
  - rewrite (G e) by (left; auto). cbn [obind]. rewrite IH by (intros; apply G; right; auto). destruct (res e d); cbn [negb filter]; [reflexivity|]. rewrite E. reflexivity.
Qed.
Definition wsum (l : list nat) : Q := qsum (map ew l).
Lemma set_weight_ok l : (forall e, In e l -> exists h t, loc h /\ tok t /\ In e (il t h)) -> exists w, set_weight val g l = Some w /\ (w == wsum l)%Q.
Proof.
  intros H. unfold set_weight, wsum. destruct (foldM_qsum nat (fun e => x <- eweight g e ;; Some (val x)) l 0%Q (map ew l)) as (r & E & R).
  - induction l as [|e l IH]; [reflexivity|]. cbn [mapM map]. destruct (H e) as (h & t & A & B & C); [left; auto|]. destruct (H_ew h t e A B C) as (x & -> & X). cbn [obind]. rewrite IH by (intros; apply H; right; auto). cbn [obind]. now rewrite X.
  - exists r. split; [|rewrite R; ring]. rewrite <- E. apply foldM_ext. intros s e. destruct (eweight g e); reflexivity.
Qed.

(** what a plan K, a list of (vertex, destination), brings to part d *)
Definition sent_to (d : Z) (K : list (nat * Z)) : list nat := map fst (filter (fun k => Z.eqb (snd k) d) K).
Definition eset (t : nat) (d : Z) (K : list (nat * Z)) : list nat := addall [] (flat_map (news t d) (sent_to d K)).
Definition vload (d : Z) (K : list (nat * Z)) : Q := qsum (map vw (sent_to d K)).
Lemma sent_snoc d K v x : sent_to d (K ++ [(v, x)]) = sent_to d K ++ if Z.eqb x d then [v] else [].
Proof. unfold sent_to. rewrite filter_app, map_app. cbn. now destruct (Z.eqb x d). Qed.
Lemma eset_snoc t d K v x : eset t d (K ++ [(v, x)]) = if Z.eqb x d then addall (eset t d K) (news t d v) else eset t d K.
Proof. unfold eset. rewrite sent_snoc. destruct (Z.eqb x d); [|now rewrite app_nil_r]. rewrite flat_map_app, addall_app. cbn [flat_map]. now rewrite app_nil_r. Qed.
Lemma vload_snoc d K v x : (vload d (K ++ [(v, x)]) == vload d K + if Z.eqb x d then vw v else 0)%Q.
Proof. unfold vload. rewrite sent_snoc, map_app, qsum_app. destruct (Z.eqb x d); cbn; ring. Qed.
Lemma eset_in t d K e : In e (eset t d K) <-> exists v, In (v, d) K /\ In e (il t v) /\ res e d = false.
Proof.
  unfold eset. rewrite addall_in, in_flat_map. unfold sent_to, news. split.
  - intros [[]|(v & Hv & H)]. apply in_map_iff in Hv as ((v', d') & <- & Hv). apply filter_In in Hv as (Hv & E). cbn in *. apply Z.eqb_eq in E. subst. apply filter_In in H as (H & R). exists v'. repeat split; auto. now destruct (res e d).
  - intros (v & A & B & C). right. exists v. split; [apply in_map_iff; exists (v, d); split; auto; apply filter_In; split; auto; apply Z.eqb_refl|]. apply filter_In. split; auto. now rewrite C.
Qed.
Lemma eset_nodup t d K : NoDup (eset t d K). Proof. apply addall_nodup. constructor. Qed.

(** the tables of trim and cancel hold the loads of K *)
Definition holds1 (K : list (nat * Z)) (x : option nat) (m : zmap (list nat)) : Prop := match x with Some t => forall d, at_set m d = eset t d K | None => True end.
Fixpoint vcount (ds : list (option nat)) : Q := match ds with [] => 0 | None :: r => 1 + vcount r | Some _ :: r => vcount r end%Q.
Definition dim_ok (x : option nat) : Prop := match x with Some t => tok t | None => True end.
Definition locals (K : list (nat * Z)) : Prop := forall k, In k K -> loc (fst k).
Lemma vcount_nonneg ds : (0 <= vcount ds)%Q. Proof. induction ds as [|[t|] ds IH]; cbn [vcount]; lra. Qed.
Lemma vcount_pos ds : In None ds -> (1 <= vcount ds)%Q.
Proof. induction ds as [|[t|] ds IH]; intros H; cbn [vcount]; [destruct H|destruct H as [H|H]; [discriminate|auto]|]. pose proof (vcount_nonneg ds). lra. Qed.

Lemma plan_dims K v dest ds : forall ms out v0, loc v -> Forall dim_ok ds -> Forall2 (holds1 K) ds ms ->
  exists ms' vw', foldM (plan_dim val g gw fuel v dest) (combine ds ms) (out, v0) = Some (out ++ ms', vw') /\ Forall2 (holds1 (K ++ [(v, dest)])) ds ms' /\
    forall d, (at_wgt vw' d == at_wgt v0 d + vcount ds * if Z.eqb dest d then vw v else 0)%Q.
Proof.
  induction ds as [|x ds IH]; intros ms out v0 Hv HD HF; inversion HF as [|? m ? ms0 H1 H2]; subst; cbn [combine foldM].
  - exists [], v0. rewrite app_nil_r. split; auto. split; [constructor|]. intros d. cbn [vcount]. ring.
  - inversion HD; subst. unfold plan_dim at 1. cbn [fst snd]. destruct x as [t|].
    + rewrite interior_ok by auto. cbn [obind]. destruct (IH ms0 (out ++ [zput m dest (addall (at_set m dest) (news t dest v))]) v0 Hv) as (ms' & vw' & E & F & W); auto.
      exists (zput m dest (addall (at_set m dest) (news t dest v)) :: ms'), vw'. rewrite E. rewrite <- app_assoc. split; [reflexivity|]. split; [|exact W]. constructor; auto.
      intros d. rewrite at_set_put, eset_snoc. destruct (Z.eqb_spec dest d) as [<-|]; [now rewrite (H1 dest)|apply H1].
    + rewrite (H_vw v Hv). cbn [obind]. destruct (IH ms0 (out ++ [m]) (zput v0 dest (at_wgt v0 dest + vw v)%Q) Hv) as (ms' & vw' & E & F & W); auto.
      exists (m :: ms'), vw'. rewrite E, <- app_assoc. split; [reflexivity|]. split; [constructor; auto; exact I|]. intros d. rewrite W, at_wgt_put. cbn [vcount]. destruct (Z.eqb_spec dest d) as [<-|]; ring.
Qed.
Definition LInv (dims : list (option nat)) (K : list (nat * Z)) (l : loads) : Prop :=
  Forall2 (holds1 K) dims (l_edges l) /\ forall d, (at_wgt (l_vtx l) d == vcount dims * vload d K)%Q.
Lemma LInv_new dims : LInv dims [] (mkL (map (fun _ => []) dims) []).
Proof. split; cbn [l_edges l_vtx]; [induction dims as [|[t|] dims IH]; cbn [map]; [apply Forall2_nil|apply Forall2_cons; [intros d; reflexivity|exact IH]|apply Forall2_cons; [exact I|exact IH]]|]. intros d. unfold vload, at_wgt. cbn. ring. Qed.

Lemma plan_weights_ok dims plan P : Forall dim_ok dims -> pl_sending plan = map fst P -> locals P -> (forall k, In k P -> plan_get g plan (fst k) = Some (snd k)) ->
  exists l nbs, plan_weights val g gw fuel dims plan = Some (l, nbs) /\ LInv dims P l /\ NoDup nbs /\ forall d, In d nbs <-> In d (map snd P).
Proof.
  intros HD HS HL HG. unfold plan_weights. rewrite HS, foldM_map.
  destruct (foldM_inv (fun '(l, nbs) (k : nat * Z) => dest <- plan_get g plan (fst k) ;; '(es, vw0) <- foldM (plan_dim val g gw fuel (fst k) dest) (combine dims (l_edges l)) ([], l_vtx l) ;; Some (mkL es vw0, if existsb (Z.eqb dest) nbs then nbs else nbs ++ [dest]))
     (fun K '(l, nbs) => LInv dims K l /\ NoDup nbs /\ forall d, In d nbs <-> In d (map snd K)) P (mkL (map (fun _ => []) dims) [], [])) as ((l & nbs) & E & I).
  - split; [apply LInv_new|]. split; [constructor|]. reflexivity.
  - intros pre [v dest] post (l, nbs) EP ((F & W) & N & M). assert (Hin : In (v, dest) P) by (rewrite EP; apply in_app_iff; right; left; auto).
    pose proof (HG _ Hin) as HGv. pose proof (HL _ Hin) as HLv. cbn [fst snd] in HGv, HLv |- *. rewrite HGv. cbn [obind]. destruct (plan_dims pre v dest dims (l_edges l) [] (l_vtx l) (HL _ Hin) HD F) as (ms & vw' & E & F' & W'). rewrite E. cbn [obind app].
    eexists. split; [reflexivity|]. split; [split|split]; cbn [l_edges l_vtx]; auto.
    + intros d. rewrite W', W, vload_snoc. ring.
    + destruct (existsb (Z.eqb dest) nbs) eqn:X; auto. apply NoDup_app_iff. split; auto. split; [constructor; [intros []|constructor]|]. intros y Hy [<-|[]]. assert (existsb (Z.eqb dest) nbs = true); [|congruence]. apply existsb_exists. exists dest. split; auto. apply Z.eqb_refl.
    + intros d. rewrite map_app, in_app_iff. cbn [map snd In]. destruct (existsb (Z.eqb dest) nbs) eqn:X.
      * rewrite M. split; [auto|]. intros [A|[<-|[]]]; auto. apply existsb_exists in X as (y & Hy & Ey). apply Z.eqb_eq in Ey. subst. now apply M.
      * rewrite in_app_iff, M. cbn. reflexivity.
  - exists l, nbs. split; [|exact I]. rewrite <- E. apply foldM_ext. intros [l0 nbs0] k. reflexivity.
Qed.

(** what is sent for destination d: the loads, in the order of the dimensions *)
Definition load (dims : list (option nat)) (K : list (nat * Z)) (d : Z) (x : option nat) : Q :=
  match x with Some t => wsum (eset t d K) | None => (vcount dims * vload d K)%Q end.
Lemma eset_seen t d K e : locals K -> tok t -> In e (eset t d K) -> exists h t, loc h /\ tok t /\ In e (il t h).
Proof. intros HL Ht H. apply eset_in in H as (v & A & B & _). exists v, t. repeat split; auto. apply (HL _ A). Qed.
Lemma loads_ok dims P l d : LInv dims P l -> Forall dim_ok dims -> locals P -> exists ws, mapM (load_of val g l d) (combine dims (l_edges l)) = Some ws /\ Forall2 (fun x w => w == load dims P d x)%Q dims ws.
Proof.
  intros (F & W) HD HL. assert (G : forall ds ms, Forall2 (holds1 P) ds ms -> Forall dim_ok ds -> exists ws, mapM (load_of val g l d) (combine ds ms) = Some ws /\ Forall2 (fun x w => w == load dims P d x)%Q ds ws).
  { intros ds ms H. induction H as [|x m ds ms H1 H2 IH]; intros HD'; [exists []; split; [reflexivity|constructor]|]. inversion HD'; subst. destruct (IH H4) as (ws & E & FW). cbn [combine mapM]. unfold load_of at 1. cbn [fst snd].
    destruct x as [t|].
    - rewrite (H1 d). destruct (set_weight_ok (eset t d P)) as (w & -> & WW); [intros e He; eapply eset_seen; eauto|]. cbn [obind]. rewrite E. cbn [obind]. eexists. split; [reflexivity|]. constructor; auto.
    - cbn [obind]. rewrite E. cbn [obind]. eexists. split; [reflexivity|]. constructor; auto. apply W. }
  apply G; auto.
Qed.

(** *** cancel *)
Definition fits (dims : list (option nat)) (K : list (nat * Z)) (v : nat) (d : Z) (x : option nat) (c : Q) : Prop :=
  match x with Some t => wsum (eset t d (K ++ [(v, d)])) <= c | None => vcount dims * vload d K + vw v <= c end%Q.
Definition temp_of (K : list (nat * Z)) (v : nat) (d : Z) (x : option nat) (tmp : list nat) : Prop :=
  match x with Some t => tmp = addall [] (filter (fun e => negb (smem (eset t d K) e)) (news t d v)) | None => True end.
Lemma wsum_app a b : (wsum (a ++ b) == wsum a + wsum b)%Q. Proof. unfold wsum. now rewrite map_app, qsum_app. Qed.
Lemma cancel_dims dims K v dest l cap : forall ds ms tmps sp i cs, loc v -> locals K -> Forall dim_ok ds -> Forall2 (holds1 K) ds ms -> (forall d, (at_wgt (l_vtx l) d == vcount dims * vload d K)%Q) ->
  (forall j c, nth_error cs j = Some c -> nth_error cap (i + j) = Some c) -> length cs = length ds ->
  exists ts sp', foldM (cancel_dim val g gw fuel v dest (l_vtx l) (Some cap)) (combine ds ms) (tmps, sp, i) = Some (tmps ++ ts, sp', i + length ds) /\ Forall2 (temp_of K v dest) ds ts /\
    (sp' = true <-> sp = true /\ Forall2 (fits dims K v dest) ds cs).
Proof.
  induction ds as [|x ds IH]; intros ms tmps sp i cs Hv HL HD HF HW HC LC; inversion HF as [|? m ? ms0 H1 H2]; subst; destruct cs as [|c cs]; try discriminate; cbn [combine foldM].
  - exists [], sp. rewrite app_nil_r. cbn [length]. rewrite Nat.add_0_r. split; auto. split; [constructor|]. split; [intros ->; split; auto; constructor|tauto].
  - inversion HD; subst. unfold cancel_dim at 1. cbn [fst snd obind]. pose proof (HC 0 c eq_refl) as Hc. rewrite Nat.add_0_r in Hc. rewrite Hc. cbn [obind].
    assert (HC' : forall j c, nth_error cs j = Some c -> nth_error cap (i + 1 + j) = Some c) by (intros j c' Hj; rewrite <- Nat.add_assoc; apply (HC (S j)); auto). assert (LC' : length cs = length ds) by (cbn in LC; lia).
    destruct x as [t|].
    + rewrite temp_ok by auto. cbn [obind]. rewrite (H1 dest). destruct (set_weight_ok (eset t dest K)) as (a & -> & WA); [intros e He; eapply eset_seen; eauto|]. cbn [obind].
      set (tmp := addall [] (filter (fun e => negb (smem (eset t dest K) e)) (news t dest v))).
      destruct (set_weight_ok tmp) as (b & -> & WB). { intros e He. exists v, t. repeat split; auto. unfold tmp in He. apply addall_in in He as [[]|He]. apply filter_In in He as (He & _). apply filter_In in He as (He & _). auto. } cbn [obind].
      destruct (IH ms0 (tmps ++ [tmp]) (sp && Qle_bool (a + b) c) (i + 1) cs Hv HL H4 H2 HW HC' LC') as (ts & sp' & E & FT & S). exists (tmp :: ts), sp'. rewrite E, <- app_assoc. cbn [length]. split; [f_equal; f_equal; lia|].
      split; [constructor; auto; reflexivity|]. rewrite S, andb_true_iff, Qle_bool_iff. assert (EQ : (a + b == wsum (eset t dest (K ++ [(v, dest)])))%Q).
      { rewrite WA, WB, eset_snoc, Z.eqb_refl. rewrite (addall_split (eset t dest K)). rewrite wsum_app. reflexivity. }
      rewrite EQ. split; [intros ((A & B) & C); split; auto|]. intros (A & B). inversion B; subst. repeat split; auto.
    + rewrite (H_vw v Hv). cbn [obind]. destruct (IH ms0 (tmps ++ [[]]) (sp && Qle_bool (at_wgt (l_vtx l) dest + vw v) c) (i + 1) cs Hv HL H4 H2 HW HC' LC') as (ts & sp' & E & FT & S). exists ([] :: ts), sp'. rewrite E, <- app_assoc. cbn [length]. split; [f_equal; f_equal; lia|].
      split; [constructor; auto; exact I|]. rewrite S, andb_true_iff, Qle_bool_iff. rewrite (HW dest). split; [intros ((A & B) & C); split; auto|]. intros (A & B). inversion B; subst. repeat split; auto.
Qed.
Lemma cancel_adds K v dest ds : forall ms ts out v0, loc v -> Forall2 (holds1 K) ds ms -> Forall2 (temp_of K v dest) ds ts ->
  exists ms' vw', foldM (cancel_add val g gw v dest) (combine (combine ds ms) ts) (out, v0) = Some (out ++ ms', vw') /\ Forall2 (holds1 (K ++ [(v, dest)])) ds ms' /\
    forall d, (at_wgt vw' d == at_wgt v0 d + vcount ds * if Z.eqb dest d then vw v else 0)%Q.
Proof.
  induction ds as [|x ds IH]; intros ms ts out v0 Hv HF HT; inversion HF as [|? m ? ms0 H1 H2]; subst; inversion HT as [|? tmp ? ts0 T1 T2]; subst; cbn [combine foldM].
  - exists [], v0. rewrite app_nil_r. split; auto. split; [constructor|]. intros d. cbn [vcount]. ring.
  - unfold cancel_add at 1. cbn [fst snd]. destruct x as [t|].
    + cbn [obind]. destruct (IH ms0 ts0 (out ++ [zput m dest (fold_left sadd tmp (at_set m dest))]) v0 Hv H2 T2) as (ms' & vw' & E & F & W).
      exists (zput m dest (fold_left sadd tmp (at_set m dest)) :: ms'), vw'. rewrite E. rewrite <- app_assoc. split; [reflexivity|]. split; [|exact W]. constructor; auto.
      intros d. rewrite at_set_put, eset_snoc. destruct (Z.eqb_spec dest d) as [<-|]; [|apply H1]. rewrite (H1 dest). cbn in T1. subst tmp. apply addall_new.
    + rewrite (H_vw v Hv). cbn [obind]. destruct (IH ms0 ts0 (out ++ [m]) (zput v0 dest (at_wgt v0 dest + vw v)%Q) Hv H2 T2) as (ms' & vw' & E & F & W).
      exists (m :: ms'), vw'. rewrite E, <- app_assoc. split; [reflexivity|]. split; [constructor; auto; exact I|]. intros d. rewrite W, at_wgt_put. cbn [vcount]. destruct (Z.eqb_spec dest d) as [<-|]; ring.
Qed.

(** K is what cancel keeps of P: greedily, in the order of the plan *)
Inductive kept (dims : list (option nat)) (cap : zmap (list Q)) : list (nat * Z) -> list (nat * Z) -> Prop :=
  | kept_nil : kept dims cap [] []
  | kept_yes P K v d cs : kept dims cap P K -> zfind cap d = Some cs -> Forall2 (fits dims K v d) dims cs -> kept dims cap (P ++ [(v, d)]) (K ++ [(v, d)])
  | kept_no P K v d cs : kept dims cap P K -> zfind cap d = Some cs -> ~ Forall2 (fits dims K v d) dims cs -> kept dims cap (P ++ [(v, d)]) K.
Lemma kept_incl dims cap P K : kept dims cap P K -> forall k, In k K -> In k P.
Proof. induction 1; intros k Hk; auto; [|apply in_app_iff; auto]. apply in_app_iff in Hk as [Hk|Hk]; apply in_app_iff; auto. Qed.
Lemma kept_filter dims cap P K : kept dims cap P K -> NoDup (map fst P) -> exists b, K = filter (fun k => b (fst k)) P.
Proof.
  assert (G : forall (P : list (nat * Z)) v d, NoDup (map fst (P ++ [(v, d)])) -> NoDup (map fst P) /\ forall k, In k P -> fst k <> v).
  { intros P0 v d N. rewrite map_app in N. apply NoDup_app_iff in N as (N1 & _ & N3). split; auto. intros k Hk <-. apply (N3 (fst k)); [now apply in_map|left; auto]. }
  induction 1; intros N; [exists (fun _ => true); reflexivity|..]; apply G in N as (N & Nv); destruct (IHkept N) as (b & ->).
  - exists (fun h => (h =? v) || b h). rewrite filter_app. cbn [filter fst]. rewrite Nat.eqb_refl. cbn [orb]. f_equal. apply filter_ext_in. intros k Hk. destruct (Nat.eqb_spec (fst k) v) as [E|]; [destruct (Nv k Hk E)|reflexivity].
  - exists (fun h => negb (h =? v) && b h). rewrite filter_app. cbn [filter fst]. rewrite Nat.eqb_refl. cbn [negb andb]. rewrite app_nil_r. apply filter_ext_in. intros k Hk. destruct (Nat.eqb_spec (fst k) v) as [E|]; [destruct (Nv k Hk E)|reflexivity].
Qed.
Lemma cancel_keeps dims plan P cap : Forall dim_ok dims -> locals P -> (forall k, In k P -> plan_get g plan (fst k) = Some (snd k)) ->
  (forall k, In k P -> exists cs, zfind cap (snd k) = Some cs /\ length cs = length dims) ->
  exists l K, foldM (cancel_step val g gw fuel dims plan cap) (map fst P) (mkL (map (fun _ => []) dims) [], []) = Some (l, K) /\ kept dims cap P K.
Proof.
  intros HD HL HG HC. rewrite foldM_map.
  destruct (foldM_inv (fun s (k : nat * Z) => cancel_step val g gw fuel dims plan cap s (fst k)) (fun pre '(l, K) => LInv dims K l /\ kept dims cap pre K) P (mkL (map (fun _ => []) dims) [], [])) as ((l & K) & E & I).
  - split; [apply LInv_new|constructor].
  - intros pre [v d] post (l, K) EP ((F & W) & HK). assert (Hin : In (v, d) P) by (rewrite EP; apply in_app_iff; right; left; auto).
    assert (LK : locals K) by (intros k Hk; apply HL; rewrite EP; apply in_app_iff; left; eapply kept_incl; eauto).
    unfold cancel_step. pose proof (HG _ Hin) as HGv. pose proof (HL _ Hin) as HLv. cbn [fst snd] in HGv, HLv |- *. rewrite HGv. cbn [obind]. destruct (HC _ Hin) as (cs & Ec & Lc). cbn [snd] in Ec. rewrite Ec.
    destruct (cancel_dims dims K v d l cs dims (l_edges l) [] true 0 cs (HL _ Hin) LK HD F W (fun j c H => H) Lc) as (ts & sp & E & FT & S). rewrite E. cbn [obind app].
    destruct sp.
    + destruct (proj1 S eq_refl) as (_ & FIT). destruct (cancel_adds K v d dims (l_edges l) ts [] (l_vtx l) (HL _ Hin) F FT) as (ms' & vw' & E2 & F' & W'). rewrite E2. cbn [obind app].
      eexists. split; [reflexivity|]. split; [split; cbn [l_edges l_vtx]; auto; intros x; rewrite W', W, vload_snoc; ring|]. eapply kept_yes; eauto.
    + eexists. split; [reflexivity|]. split; [split; auto|]. eapply kept_no; eauto. intros A. destruct S as (_ & S). discriminate (S (conj eq_refl A)).
  - exists l, K. split; [exact E|apply I].
Qed.

(** the loads kept fit the capacities *)
Hypothesis H_vpos : forall h, loc h -> (0 <= vw h)%Q.
Definition true_load (K : list (nat * Z)) (d : Z) (x : option nat) : Q := match x with Some t => wsum (eset t d K) | None => vload d K end.
Lemma vload_pos d K : locals K -> (0 <= vload d K)%Q.
Proof. intros HL. apply qsum_nonneg. intros x Hx. apply in_map_iff in Hx as (h & <- & Hh). unfold sent_to in Hh. apply in_map_iff in Hh as (k & <- & Hk). apply filter_In in Hk as (Hk & _). apply H_vpos, HL, Hk. Qed.
Lemma kept_fits dims cap P K : kept dims cap P K -> locals P -> forall d, sent_to d K = [] \/ exists cs, zfind cap d = Some cs /\ forall i x c, nth_error dims i = Some x -> nth_error cs i = Some c -> (true_load K d x <= c)%Q.
Proof.
  induction 1 as [|P K v d cs HK IH Ec HF|P K v d cs HK IH Ec HF]; intros HL d'.
  - left. reflexivity.
  - assert (HL' : locals P) by (intros k Hk; apply HL, in_app_iff; auto). assert (LK : locals K) by (intros k Hk; apply HL', (kept_incl _ _ _ _ HK), Hk).
    destruct (Z.eqb_spec d d') as [<-|N].
    + right. exists cs. split; auto. intros i x c Hx Hc. assert (FI : fits dims K v d x c). { clear - HF Hx Hc. revert HF i Hx Hc. generalize (fits dims K v d). intros R HF. induction HF; intros [|i] A B; cbn in *; try discriminate; [congruence|eauto]. }
      destruct x as [t|]; cbn [fits true_load] in *; auto. rewrite vload_snoc, Z.eqb_refl.
      assert (1 <= vcount dims)%Q by (apply vcount_pos; eapply nth_error_In; eauto). pose proof (vload_pos d K LK). assert (vload d K <= vcount dims * vload d K)%Q by nra. lra.
    + destruct (IH HL' d') as [E|(cs' & Ec' & B)]; [left; rewrite sent_snoc, E; destruct (Z.eqb_spec d d'); [contradiction|reflexivity]|]. right. exists cs'. split; auto. intros i x c Hx Hc. specialize (B i x c Hx Hc).
      destruct x as [t|]; cbn [true_load] in *; [rewrite eset_snoc|rewrite vload_snoc]; (destruct (Z.eqb_spec d d'); [contradiction|]); [auto|lra].
  - apply IH. intros k Hk; apply HL, in_app_iff; auto.
Qed.
(** if every capacity is at least the load of the whole plan then nothing is cancelled *)
Hypothesis H_epos : forall h t e, loc h -> tok t -> In e (il t h) -> (0 <= ew e)%Q.
Lemma wsum_incl l l' : NoDup l -> incl l l' -> (forall e, In e l' -> 0 <= ew e)%Q -> (wsum l <= wsum l')%Q.
Proof.
  revert l'. induction l as [|e l IH]; intros l' N HI HP; unfold wsum; cbn [map qsum].
  - apply qsum_nonneg. intros x Hx. apply in_map_iff in Hx as (y & <- & Hy). auto.
  - inversion N; subst. destruct (in_split e l') as (a & b & ->); [apply HI; left; auto|].
    assert (Q1 : (wsum l <= wsum (a ++ b))%Q). { apply IH; auto. - intros x Hx. assert (I : In x (a ++ e :: b)) by (apply HI; right; auto). apply in_app_iff in I as [I|[->|I]]; apply in_app_iff; auto. contradiction.
      - intros x Hx. apply HP. apply in_app_iff in Hx as [Hx|Hx]; apply in_app_iff; cbn; auto. }
    pose proof (wsum_app a b). pose proof (wsum_app a (e :: b)). unfold wsum in *. cbn [map qsum] in *. lra.
Qed.
Lemma kept_all dims cap P : Forall dim_ok dims -> locals P -> forall K P', kept dims cap P' K -> (exists post, P = P' ++ post) ->
  (forall d, In d (map snd P) -> exists cs, zfind cap d = Some cs /\ Forall2 (fun x c => load dims P d x <= c)%Q dims cs) -> K = P'.
Proof.
  intros HD HL K P' HK. induction HK as [|P' K v d cs HK IH Ec HF|P' K v d cs HK IH Ec HF]; intros (post & EP) HC.
  - reflexivity.
  - f_equal. apply IH; auto. exists ((v, d) :: post). rewrite EP, <- app_assoc. reflexivity.
  - exfalso. assert (K = P') by (apply IH; auto; exists ((v, d) :: post); rewrite EP, <- app_assoc; reflexivity). subst K. apply HF.
    destruct (HC d) as (cs' & Ec' & FC). { rewrite EP, <- app_assoc. apply in_map_iff. exists (v, d). split; auto. apply in_app_iff; right; left; auto. }
    assert (cs' = cs) by congruence. subst cs'. rewrite <- app_assoc in EP. cbn [app] in EP.
    assert (SP : forall x c, In x dims -> (load dims P d x <= c)%Q -> fits dims P' v d x c).
    { intros x c Hx LE. destruct x as [t|]; cbn [load fits] in *.
      - assert (Tk : tok t) by (rewrite Forall_forall in HD; apply (HD _ Hx)). eapply Qle_trans; [|exact LE]. apply wsum_incl; [apply eset_nodup| |].
        + intros e He. apply eset_in in He as (u & A & B & C). apply eset_in. exists u. repeat split; auto. rewrite EP. apply in_app_iff in A as [A|[A|[]]]; apply in_app_iff; [left; auto|right; left; auto].
        + intros e He. apply eset_in in He as (u & A & B & C). eapply H_epos; [apply (HL _ A)| |]; eauto.
      - eapply Qle_trans; [|exact LE]. assert (V : (vload d P == vload d P' + vw v + vload d post)%Q). { rewrite EP. unfold vload, sent_to. rewrite filter_app, !map_app, qsum_app. cbn [filter snd]. rewrite Z.eqb_refl. cbn [map qsum fst]. ring. }
        rewrite V. assert (1 <= vcount dims)%Q by (apply vcount_pos; auto).
        assert (0 <= vw v)%Q by (apply H_vpos; change v with (fst (v, d)); apply HL; rewrite EP; apply in_app_iff; right; left; auto).
        assert (0 <= vload d post)%Q by (apply vload_pos; intros k Hk; apply HL; rewrite EP; apply in_app_iff; right; right; auto). nra. }
    clear - FC SP. assert (G : forall ds cs, Forall2 (fun x c => (load dims P d x <= c)%Q) ds cs -> incl ds dims -> Forall2 (fits dims P' v d) ds cs).
    { intros ds cs' F. induction F; intros HI; [apply Forall2_nil|]. apply Forall2_cons; [apply SP; auto; apply HI; left; auto|apply IHF; intros z Hz; apply HI; right; auto]. }
    apply G; auto. apply incl_refl.
Qed.
End Local.

(** ** the receiver *)
Definition nthq (l : list Q) (i : nat) : Q := nth i l 0%Q.
Definition given (acc : list (Z * list Q)) (i : nat) : Q := qsum (map (fun m => nthq (snd m) i) acc).
Lemma zput_fresh (A : Type) (m : zmap A) k x : ~ In k (map fst m) -> zput m k x = m ++ [(k, x)].
Proof. induction m as [|(k', y) m IH]; intros H; [reflexivity|]. cbn [zput app]. destruct (Z.eqb_spec k' k) as [->|]; [destruct H; left; auto|]. f_equal. apply IH. intros I. apply H. right; auto. Qed.
Lemma nthq_map2 a b i : length a = length b -> (nthq (map (fun x => (fst x - snd x)%Q) (combine a b)) i == nthq a i - nthq b i)%Q.
Proof. revert b i. induction a as [|x a IH]; intros [|y b] [|i] L; cbn in *; try discriminate; try ring. apply IH. lia. Qed.
Lemma forallb_le a b : length a = length b -> forallb (fun x => Qle_bool (fst x) (snd x)) (combine a b) = true -> forall i, (nthq a i <= nthq b i)%Q.
Proof.
  revert b. induction a as [|x a IH]; intros [|y b] L H i; try discriminate; [destruct i; unfold nthq; cbn; lra|]. cbn in H. apply andb_true_iff in H as (H1 & H2). apply Qle_bool_iff in H1. destruct i; [auto|]. apply (IH b); auto.
Qed.
Lemma accept_shape n inc : forall is avail acc, length avail = n -> (forall m, In m inc -> length (snd m) = n) -> NoDup (map fst inc) -> (forall k, In k (map fst inc) -> ~ In k (map fst acc)) ->
  exists new, snd (fold_left accept_step inc ((is, avail), acc)) = acc ++ new /\ map fst new = map fst inc /\ (forall m, In m new -> length (snd m) = n) /\
   (is = true -> (forall i, 0 <= nthq avail i)%Q -> forall i, (given new i <= nthq avail i)%Q /\ forall m, In m new -> (0 <= nthq (snd m) i \/ exists m', In m' inc /\ nthq (snd m') i < 0)%Q) /\ (is = false -> forall m i, In m new -> nthq (snd m) i = 0%Q).
Proof.
  induction inc as [|m inc IH]; intros is avail acc La Lm N HN; cbn [fold_left].
  - exists []. rewrite app_nil_r. cbn. split; auto. split; auto. split; [intros ? []|]. split; [|intros _ ? ? []]. intros _ H i. unfold given. cbn. split; [apply H|intros ? []].
  - cbn in N. inversion N; subst.
    assert (A0 : forall take, zput acc (fst m) take = acc ++ [(fst m, take)]) by (intros; apply zput_fresh, HN; left; auto).
    assert (HN' : forall take k, In k (map fst inc) -> ~ In k (map fst (acc ++ [(fst m, take)]))).
    { intros take k Hk I. rewrite map_app in I. apply in_app_iff in I as [I|[<-|[]]]; [apply (HN k); [right|]; auto|auto]. }
    destruct is.
    + set (take := if forallb (fun x => Qle_bool (fst x) (snd x)) (combine (snd m) avail) then snd m else avail).
      assert (Lt : length take = length avail) by (unfold take; destruct (forallb _ _); auto; apply Lm; left; auto).
      set (avail' := map (fun x => (fst x - snd x)%Q) (combine avail take)). assert (La' : length avail' = length avail) by (unfold avail'; rewrite map_length, combine_length; lia).
      assert (ST : accept_step ((true, avail), acc) m = ((fold_left (fun _ a => negb (Qle_bool a 0)) avail' true, avail'), acc ++ [(fst m, take)])) by (rewrite <- A0; reflexivity).
      rewrite ST. destruct (IH (fold_left (fun _ a => negb (Qle_bool a 0)) avail' true) avail' (acc ++ [(fst m, take)])) as (new & E & K & LN & B1 & B0); auto; [intros; apply Lm; right; auto|].
      exists ((fst m, take) :: new). rewrite E, <- app_assoc. split; [reflexivity|]. split; [cbn; congruence|]. split; [intros x [<-|Hx]; auto|]. split; [|discriminate]. intros _ HP i.
      assert (TK : (nthq take i <= nthq avail i)%Q). { unfold take. destruct (forallb _ _) eqn:X; [|lra]. apply forallb_le; auto. }
      assert (TP : forall j, (0 <= nthq avail' j)%Q). { intros j. unfold avail'. rewrite nthq_map2 by auto. unfold take. destruct (forallb _ _) eqn:X; [|lra]. pose proof (forallb_le (snd m) avail (Lm m (or_introl eq_refl)) X j). lra. }
      assert (T0 : (0 <= nthq take i \/ nthq (snd m) i < 0)%Q). { unfold take. destruct (forallb _ _); [|left; apply HP]. destruct (Qlt_le_dec (nthq (snd m) i) 0); auto. }
      unfold given in *. cbn [map qsum snd]. destruct (fold_left (fun _ a => negb (Qle_bool a 0)) avail' true) eqn:X.
      * destruct (B1 eq_refl TP i) as (B & C). unfold avail' in B. rewrite nthq_map2 in B by auto. split; [lra|]. intros x [<-|Hx]; cbn [snd]; [destruct T0; [auto|right; exists m; split; [left|]; auto]|]. destruct (C x Hx) as [C1|(m' & C1 & C2)]; auto. right. exists m'. split; [right|]; auto.
      * assert (Z0 : (qsum (map (fun m => nthq (snd m) i) new) == 0)%Q). { rewrite (qsum_eq _ 0%Q); [ring|]. intros x Hx. apply in_map_iff in Hx as (y & <- & Hy). rewrite (B0 eq_refl y i Hy). reflexivity. }
        split; [rewrite Z0; lra|]. intros x [<-|Hx]; cbn [snd]; [destruct T0; [auto|right; exists m; split; [left|]; auto]|]. left. rewrite (B0 eq_refl x i Hx). lra.
    + assert (ST : accept_step ((false, avail), acc) m = ((false, avail), acc ++ [(fst m, map (fun _ => 0%Q) (snd m))])) by (rewrite <- A0; reflexivity).
      rewrite ST. destruct (IH false avail (acc ++ [(fst m, map (fun _ => 0%Q) (snd m))])) as (new & E & K & LN & B1 & B0); auto; [intros; apply Lm; right; auto|].
      exists ((fst m, map (fun _ => 0%Q) (snd m)) :: new). rewrite E, <- app_assoc. split; [reflexivity|]. split; [cbn; congruence|]. split; [intros x [<-|Hx]; auto; cbn [snd]; rewrite map_length; apply Lm; left; auto|]. split; [discriminate|].
      intros _ x i [<-|Hx]; [|apply B0; auto]. cbn [snd]. clear. revert i. induction (snd m) as [|y l IH]; intros [|i]; cbn; auto. apply IH.
Qed.
(** everything fits when the sum of what arrives is within the capacity, below it in the last dimension *)
Lemma accept_all n inc : 0 < n -> forall is avail acc, length avail = n -> (forall m, In m inc -> length (snd m) = n /\ forall i, (0 <= nthq (snd m) i)%Q) -> NoDup (map fst inc) -> (forall k, In k (map fst inc) -> ~ In k (map fst acc)) ->
  (inc <> [] -> is = true) -> (forall i, i < n -> (given inc i <= nthq avail i)%Q) -> (given inc (n - 1) < nthq avail (n - 1))%Q -> snd (fold_left accept_step inc ((is, avail), acc)) = acc ++ inc.
Proof.
  intros Hn. induction inc as [|m inc IH]; intros is avail acc La Lm N HN HI HS HL; cbn [fold_left]; [now rewrite app_nil_r|]. cbn in N. inversion N; subst. rewrite (HI ltac:(discriminate)).
  assert (P0 : forall i, (0 <= given inc i)%Q). { intros i. apply qsum_nonneg. intros x Hx. apply in_map_iff in Hx as (y & <- & Hy). apply Lm. right; auto. }
  assert (FA : forallb (fun x => Qle_bool (fst x) (snd x)) (combine (snd m) avail) = true).
  { destruct (Lm m (or_introl eq_refl)) as (L1 & _). assert (B : forall i, i < length avail -> (nthq (snd m) i <= nthq avail i)%Q). { intros i Hi. specialize (HS i Hi). specialize (P0 i). unfold given in *. cbn [map qsum] in HS. lra. }
    clear - L1 B. revert L1 B. generalize (snd m). induction avail as [|y b IH]; intros [|x a] L B; cbn in *; try discriminate; auto. apply andb_true_iff. split; [apply Qle_bool_iff; apply (B 0); lia|]. apply IH; [lia|]. intros i Hi. apply (B (S i)). lia. }
  set (avail' := map (fun x => (fst x - snd x)%Q) (combine avail (snd m))). destruct (Lm m (or_introl eq_refl)) as (L1 & _).
  assert (AV : forall i, (nthq avail' i == nthq avail i - nthq (snd m) i)%Q) by (intros; apply nthq_map2; auto).
  assert (ST : accept_step ((true, avail), acc) m = ((fold_left (fun _ a => negb (Qle_bool a 0)) avail' true, avail'), acc ++ [(fst m, snd m)])).
  { unfold accept_step. rewrite FA. rewrite (zput_fresh _ acc) by (apply HN; left; auto). reflexivity. }
  rewrite ST, IH.
  - rewrite <- app_assoc. cbn. destruct m. reflexivity.
  - unfold avail'. rewrite map_length, combine_length. lia.
  - intros; apply Lm; right; auto.
  - auto.
  - intros k Hk I. rewrite map_app in I. apply in_app_iff in I as [I|[<-|[]]]; [apply (HN k); [right|]; auto|auto].
  - intros NE. assert (LA' : length avail' = length avail) by (unfold avail'; rewrite map_length, combine_length; lia).
    assert (LP : (0 < nthq avail' (length avail - 1))%Q). { rewrite AV. unfold given in HL. cbn [map qsum] in HL. specialize (P0 (length avail - 1)). unfold given in P0. lra. }
    rewrite <- LA' in LP. assert (NN : avail' <> []) by (destruct avail'; cbn in *; [lia|discriminate]). destruct (exists_last NN) as (a & x & EA). rewrite EA in *. rewrite fold_left_app. cbn [fold_left].
    rewrite app_length in LP. cbn [length] in LP. replace (length a + 1 - 1) with (length a) in LP by lia. unfold nthq in LP. rewrite app_nth2, Nat.sub_diag in LP by lia. cbn in LP. destruct (Qle_bool x 0) eqn:X; auto. apply Qle_bool_iff in X. lra.
  - intros i Hi. rewrite AV. specialize (HS i Hi). unfold given in *. cbn [map qsum] in HS. lra.
  - rewrite AV. unfold given in *. cbn [map qsum] in HL. lra.
Qed.
(** the set of incoming messages *)
Lemma migr_lt_total a b : fst a <> fst b -> migr_lt a b = false -> migr_lt b a = true.
Proof.
  unfold migr_lt. intros N. destruct (Qle_bool (hd 0%Q (snd b)) (hd 0%Q (snd a))) eqn:E1; cbn [negb]; [|discriminate]. destruct (Qeq_bool (hd 0%Q (snd a)) (hd 0%Q (snd b))) eqn:E2.
  - intros H. destruct (Qle_bool (hd 0%Q (snd a)) (hd 0%Q (snd b))) eqn:E3; cbn [negb]; auto. apply Qeq_bool_iff in E2. replace (Qeq_bool (hd 0%Q (snd b)) (hd 0%Q (snd a))) with true by (symmetry; apply Qeq_bool_iff; lra). apply Z.ltb_ge in H. apply Z.ltb_lt. lia.
  - intros _. destruct (Qle_bool (hd 0%Q (snd a)) (hd 0%Q (snd b))) eqn:E3; cbn [negb]; auto. exfalso. apply Qle_bool_iff in E1, E3. assert (hd 0%Q (snd a) == hd 0%Q (snd b))%Q by lra. apply Qeq_bool_iff in H. congruence.
Qed.
Lemma migr_insert_perm m l : ~ In (fst m) (map fst l) -> Permutation (migr_insert m l) (m :: l).
Proof.
  induction l as [|x l IH]; intros H; cbn [migr_insert]; [apply Permutation_refl|]. destruct (migr_lt m x) eqn:E; [apply Permutation_refl|].
  rewrite (migr_lt_total m x); [|intros E'; apply H; left; auto|auto]. rewrite IH by (intros I; apply H; right; auto). apply perm_swap.
Qed.
Lemma incoming_ok dims arrived : length dims <= 5 -> (forall m, In m arrived -> length (snd m) = length dims) -> NoDup (map fst arrived) -> exists inc, incoming dims arrived = Some inc /\ Permutation inc arrived.
Proof.
  intros L HL N. unfold incoming. destruct (foldM_inv (fun s (m : Z * list Q) => if (length (snd m) =? length dims) && (length dims <=? 5) then Some (migr_insert m s) else None) (fun pre s => Permutation s pre) arrived []) as (inc & E & P).
  - constructor.
  - intros pre m post s EP HP. assert (Hm : In m arrived) by (rewrite EP; apply in_app_iff; right; left; auto). rewrite (HL m Hm), Nat.eqb_refl. destruct (Nat.leb_spec (length dims) 5); [|lia]. cbn [andb]. eexists. split; [reflexivity|].
    rewrite migr_insert_perm; [rewrite HP; apply Permutation_cons_append|]. intros I. apply (Permutation_in _ (Permutation_map fst HP)) in I. rewrite EP, map_app in N. apply NoDup_app_iff in N as (_ & _ & N). apply (N _ I). left; auto.
  - eauto.
Qed.
Lemma given_perm a b i : Permutation a b -> (given a i == given b i)%Q.
Proof. unfold given. intros P. induction P; cbn [map qsum]; [reflexivity|rewrite IHP; reflexivity|ring|etransitivity; eauto]. Qed.
