(** C43: the selection of cavities. *)
From Verif Require Import Base GraphModel GraphSpec CsrProofs ConstructProofs GraphTop GraphTop2 AccessProofs AccessProofs2 Comm TagModel TagProps MetricsModel MetricsProofs MetricsProps QueueModel QueueProps MigrateModel MigrateSpec MigrateProofs5 MigrateTop MigrateProps SidesProofs SidesProps SecondAdjProps SelectorModel SelectorProofs SelectorTop SelectorTop2 SelectorProps SelectProofs.
From Coq Require Import Lqa.
Local Open Scope nat_scope.

(** ** Vocabulary.  Part r of a hypergraph is described by p; the i-th of its edges of type 0 is the handle [getEdge (ntypes g) i 0].
    [first_call cs l] (SelectProofs) is the part vertex l is sent to by the first of the calls cs that plans it; [planned cs l] by the last.
    [brought] (SelectorProps) is the weight that a part sends to another when the owners become own'. *)
Definition edges0 (p : pdesc) : list edge_input := match nth_error (pd_tys p) 0 with Some ty => fst ty | None => [] end.
Definition on_part (own : Z -> nat) (r : nat) (e : edge_input) : list Z := nodup Z.eq_dec (filter (fun v => own v =? r) (snd e)).
(** what one vertex can add: its weight, or the weight of its edges of the type *)
Definition vertex_load (val : Z -> Q) (p : pdesc) (dim : option nat) (v : Z) : Q :=
  match dim with
  | None => qsum (map (fun x => val (fst (snd x))) (filter (fun x => Z.eqb (fst x) v) (vrecs p)))
  | Some t => match nth_error (pd_tys p) t with Some ty => qsum (map (fun i => val (nth i (eweights ty) 0%Z)) (incident v (fst ty))) | None => 0%Q end
  end.
(** a call made by select: vertex l goes to a target part and lies on a queued edge *)
Definition chosen_call (p : pdesc) (nt : nat) (queue : list nat) (targets : cont Q) (o : plan_op) : Prop :=
  exists l d v i e, o = Ins l d /\ chas targets d = true /\ nth_error (pd_verts p) l = Some v /\ nth_error (edges0 p) i = Some e /\ In v (snd e) /\ In (getEdge nt i 0) queue.
(** the owners if every vertex went to the part it was first planned for *)
Definition first_moved (own1 : Z -> nat) (r : nat) (p : pdesc) (cs : list plan_op) : Prop :=
  forall l v, nth_error (pd_verts p) l = Some v -> match first_call cs l with Some d => d = Z.of_nat (own1 v) | None => own1 v = r end.

(** *** Vocabulary of the second pass, selectDisconnected, with connectivity type con and threshold minCon.
    cs0 are the calls of the first pass, cs those made so far.  [planned cs l] (MigrateSpec) is the last destination planned for the local vertex l. *)
Definition edges_t (p : pdesc) (t : nat) : list edge_input := match nth_error (pd_tys p) t with Some ty => fst ty | None => [] end.
(** how often v and w occur on one edge together *)
Definition together (es : list edge_input) (v w : Z) : nat := nsum (map (fun e => count_occ Z.eq_dec (snd e) v * count_occ Z.eq_dec (snd e) w) es).
Section Second.
Variables (n : nat) (own : Z -> nat) (r : nat) (p : pdesc) (con minCon : nat).
Definition tied (v w : Z) : Prop := w <> v /\ minCon <= together (edges_t p con) v w.
Definition called (cs : list plan_op) (v : Z) : Prop := exists l, nth_error (pd_verts p) l = Some v /\ planned cs l <> None.
(** the vertices of the part on edge x which the calls do not plan *)
Definition unsent (cs : list plan_op) (x : edge_input) (v : Z) : Prop := In v (snd x) /\ own v = r /\ ~ called cs v.
(** vertex u is on part d, or leaves for it *)
Definition goes (cs : list plan_op) (u : Z) (d : Z) : Prop := (own u = r /\ exists l, nth_error (pd_verts p) l = Some u /\ planned cs l = Some d) \/ (own u <> r /\ d = Z.of_nat (own u)).
(** the edges of type 0 that the vertices of c share with part d *)
Definition shares (cs : list plan_op) (c : Z -> Prop) (d : Z) (N : list nat) : Prop :=
  NoDup N /\ forall i, In i N <-> exists e, nth_error (edges0 p) i = Some e /\ (exists v, c v /\ In v (snd e)) /\ exists u, In u (snd e) /\ goes cs u d.
Definition closest (cs : list plan_op) (c : Z -> Prop) (d : Z) : Prop := exists N, shares cs c d N /\ forall d' N', shares cs c d' N' -> length N' <= length N.
(** every vertex tied to a vertex of c is in c, unless one of the two is planned *)
Definition loose (cs : list plan_op) (c : Z -> Prop) : Prop := forall v w, c v -> tied v w -> c w \/ called cs v \/ called cs w.
(** the calls of the pass over the waiting edges: the vertices left of a loose edge go, all of them, to the part closest to them *)
Inductive second_pass (cs0 : list plan_op) : list plan_op -> list edge_input -> list plan_op -> Prop :=
| sp_done : forall cs, second_pass cs0 cs [] []
| sp_send : forall cs x xs d ls m, loose cs (unsent cs0 x) -> closest cs (unsent cs0 x) d -> (0 <= d < Z.of_nat n)%Z -> d <> Z.of_nat r ->
    NoDup ls -> (forall l, In l ls <-> exists v, nth_error (pd_verts p) l = Some v /\ unsent cs0 x v) ->
    second_pass cs0 (cs ++ map (fun l => Ins l d) ls) xs m -> second_pass cs0 cs (x :: xs) (map (fun l => Ins l d) ls ++ m)
| sp_stay : forall cs x xs m, ~ loose cs (unsent cs0 x) -> second_pass cs0 cs xs m -> second_pass cs0 cs (x :: xs) m.
End Second.
Lemma together_sym es v w : together es v w = together es w v.
Proof. unfold together. f_equal. apply map_ext. intros e. lia. Qed.
Lemma together_count es v w : count_occ Z.eq_dec (flat_map (fun i => match nth_error es i with Some e => snd e | None => [] end) (incident v es)) w = together es v w.
Proof.
  unfold incident, together.
  assert (G : forall l a, (forall k e, nth_error l k = Some e -> nth_error es (a + k) = Some e) -> count_occ Z.eq_dec (flat_map (fun i => match nth_error es i with Some e => snd e | None => [] end) (flat_map (fun p => repeat (fst p) (count_occ Z.eq_dec (snd (snd p)) v)) (combine (seq a (length l)) l))) w =
    nsum (map (fun e => count_occ Z.eq_dec (snd e) v * count_occ Z.eq_dec (snd e) w) l)).
  { induction l as [|e l IH]; intros a H; [reflexivity|]. cbn [length seq combine flat_map map nsum fst snd]. rewrite flat_map_app, count_occ_app, IH.
    - change (nsum (?x :: ?y)) with (x + nsum y). f_equal. pose proof (H 0 e eq_refl) as He. rewrite Nat.add_0_r in He. generalize (count_occ Z.eq_dec (snd e) v). intros k. induction k as [|k IHk]; [reflexivity|]. cbn [repeat flat_map]. rewrite He, count_occ_app, IHk. lia.
    - intros k x Hk. replace (S a + k) with (a + S k) by lia. apply H. exact Hk. }
  apply (G es 0). auto.
Qed.

Section C43.
Variables (val : Z -> Q) (own : Z -> nat) (V : list (Z * (Z * Z))) (T : list (list (edge_input * Z))) (ps : list pdesc) (r : nat) (p : pdesc) (g : graph) (gw : option (arr Z)) (fuel : nat).
Variables (ord : list nat -> list nat) (pord : list (Z * list nat) -> list (Z * list nat)).
Variables (targets : cont Q) (limit : Q) (dim : option nat) (M : Q) (p0 : mplan) (q : sarr) (es : list nat).
Hypothesis HD : distributed own V T ps.
Hypothesis Hp : nth_error ps r = Some p.
Hypothesis HB : build_part (Z.of_nat r) true (pd_verts p) (pd_vws p) (pd_tys p) (pd_owns p) = Some g.
Hypothesis HF : big_enough fuel V T.
Hypothesis HW : weights_pos val V T.
Hypothesis H_ord : forall c, Permutation (ord c) c.
Hypothesis HT : 0 < length T.
Hypothesis Hdim : match dim with Some t => t < length T | None => True end.
Hypothesis H_tgt : forall d, chas targets d = true -> (0 <= d < Z.of_nat (length ps))%Z /\ d <> Z.of_nat r.
Hypothesis H_keys : NoDup (map fst (c_d targets)).
Hypothesis H_p0 : plan_new g fuel = Some p0.
Hypothesis H_q : waiting q es.
Hypothesis H_cap : capacity q = length (sa_cur q) /\ length es <= capacity q.
Hypothesis H_es : forall e, In e es -> exists i x, nth_error (edges0 p) i = Some x /\ e = getEdge (ntypes g) i 0.
Hypothesis H_100 : forall x, In x (edges0 p) -> length (on_part own r x) < 100.
Hypothesis H_M : (0 <= M)%Q /\ forall v, In v (pd_verts p) -> (vertex_load val p dim v <= M)%Q.

Lemma t_HC : constructed (Z.of_nat r) true (pd_verts p) (pd_vws p) (pd_tys p) g. Proof. eapply HC; eauto. Qed.
Lemma t_HV : valid_input true (pd_verts p) (pd_vws p) (pd_tys p). Proof. eapply HV; eauto. Qed.
Lemma t_HR : Rep g (pd_verts p) (pd_vws p ++ repeat 1%Z (length (pd_verts p) - length (pd_vws p))) (ghosts_of (pd_verts p) (pd_tys p)) (map eff_ty (pd_tys p)).
Proof. exact (proj1 (part_rep _ _ _ _ _ _ _ t_HV HB)). Qed.
Lemma t_0 : exists ty, nth_error (pd_tys p) 0 = Some ty /\ edges0 p = fst ty.
Proof. unfold edges0. destruct (s_ty own V T ps r p HD Hp 0 HT) as (ty & E & Et & _). rewrite Et. eauto. Qed.
Definition t_all : list Z := pd_verts p ++ ghosts_of (pd_verts p) (pd_tys p).
Definition t_pn (e : nat) : list nat := match edge_pins g e fuel with Some l => l | None => [] end.
Definition t_ow (v : nat) : Z := match owner g v with Some o => o | None => 0%Z end.
Definition t_eok (e : nat) : Prop := exists i x, nth_error (edges0 p) i = Some x /\ e = getEdge (ntypes g) i 0.
Lemma t_pins i x : nth_error (edges0 p) i = Some x -> edge_pins g (getEdge (ntypes g) i 0) fuel = Some (map (fun v => Datatypes.S (idx t_all v)) (snd x)).
Proof.
  intros Hx. destruct t_0 as ([es0 ws] & Et & E0). rewrite E0 in Hx. cbn [fst] in Hx. destruct x as [gid pins]. eapply (edge_pins_hyper _ _ _ _ _ t_HR).
  - exact (c_hyper _ _ _ _ _ _ t_HC).
  - apply (nth_eff _ _ _ _ Et).
  - exact Hx.
  - destruct (FO own V T ps r p fuel HD Hp HF) as (_ & F). destruct (F (es0, ws) (nth_error_In _ _ Et)) as (_ & F2 & _). apply (F2 (gid, pins)). cbn [fst]. eapply nth_error_In; exact Hx.
Qed.
Lemma t_pin i x v : nth_error (edges0 p) i = Some x -> In v (snd x) -> exists l, nth_error t_all l = Some v /\ idx t_all v = l /\ owner g (getVertex l) = Some (Z.of_nat (own v)) /\ (own v = r -> nth_error (pd_verts p) l = Some v).
Proof.
  intros Hx Hv. destruct t_0 as ([es0 ws] & Et & E0). rewrite E0 in Hx. cbn [fst] in Hx. destruct x as [gid pins]. cbn [snd] in Hv.
  assert (IA : In v t_all) by (eapply (pins_in_all _ _ _ _ _ t_HR); [apply (nth_eff _ _ _ _ Et)|exact Hx|exact Hv]). exists (idx t_all v). pose proof (idx_nth _ _ IA) as NI. split; [exact NI|]. split; [reflexivity|]. split.
  - rewrite (p_owner _ _ _ _ _ _ _ t_HV HB _ _ NI). f_equal. eapply pin_home; eauto; [eapply nth_error_In; exact Hx|exact Hv].
  - intros Eo. assert (VV : In v (pd_verts p)).
    { destruct (s_ty own V T ps r p HD Hp 0 HT) as (ty & E & Et' & ET & PE). assert (ty = (es0, ws)) by congruence. subst ty. destruct HD as ((NV & WF) & _ & HX). assert (IV : In v (map fst V)).
      { pose proof (eweights_length _ _ _ _ es0 ws t_HV (nth_error_In _ _ Et)) as LW. assert (Li : i < length (eweights (es0, ws))) by (rewrite LW; apply nth_error_Some; congruence). destruct (nth_error (eweights (es0, ws)) i) as [w|] eqn:Ew; [|apply nth_error_None in Ew; lia].
        assert (IE : In ((gid, pins), w) (erecs (es0, ws))). { unfold erecs. cbn [fst]. apply (nth_error_In _ i). apply combine_nth2; auto. } apply (Permutation_in _ PE) in IE. apply filter_In in IE as (IE & _). apply (WF E (nth_error_In _ _ ET)) with (e := ((gid, pins), w)); auto. }
      apply in_map_iff in IV as (u & Eu & Hu). destruct (HX r p Hp) as (_ & _ & PV & _). assert (I : In u (vrecs p)). { apply (Permutation_in _ (Permutation_sym PV)). apply filter_In. split; auto. rewrite Eu. now apply Nat.eqb_eq. } apply In_nth_error in I as (k & Hk). destruct (vrec_nth _ _ _ Hk) as (Z1 & _). rewrite Eu in Z1. eapply nth_error_In; eauto. }
    unfold t_all. rewrite idx_app by auto. now apply idx_nth.
Qed.
Notation il' := (il p g).
Notation vw' := (vw val g gw).
Notation ew' := (ew val g).
Notation res' := (res g).
Lemma t_self : self g = Z.of_nat r. Proof. exact (p_self _ _ _ _ _ _ _ t_HV HB). Qed.
Lemma t_nlv : nlv g = length (pd_verts p). Proof. eapply s_nlv; eauto. Qed.
Lemma t_loc h : loc p h <-> exists l, l < nlv g /\ h = getVertex l.
Proof. unfold loc. rewrite t_nlv. split; intros (l & A & B); exists l; auto. Qed.
Lemma t_heok h e : loc p h -> In e (il' 0 h) -> t_eok e.
Proof. intros _ He. destruct (s_edge own V T ps r p g HD Hp h 0 e HT He) as (ty & i & x & l & v & Et & -> & Hx & _). exists i, (fst x). split; auto. destruct (erec_nth _ _ _ Hx) as (A & _). unfold edges0. now rewrite Et. Qed.
Lemma t_hpn e : t_eok e -> edge_pins g e fuel = Some (t_pn e).
Proof. intros (i & x & Hx & ->). unfold t_pn. now rewrite (t_pins i x Hx). Qed.
Lemma t_inpn e v : t_eok e -> In v (t_pn e) -> exists i x u l, e = getEdge (ntypes g) i 0 /\ nth_error (edges0 p) i = Some x /\ In u (snd x) /\ v = getVertex l /\ nth_error t_all l = Some u /\ idx t_all u = l /\ owner g v = Some (Z.of_nat (own u)) /\ (own u = r -> nth_error (pd_verts p) l = Some u).
Proof.
  intros (i & x & Hx & ->) Hv. unfold t_pn in Hv. rewrite (t_pins i x Hx) in Hv. apply in_map_iff in Hv as (u & <- & Hu). destruct (t_pin i x u Hx Hu) as (l & A & B & C & D). exists i, x, u, l. rewrite B. replace (Datatypes.S l) with (getVertex l) by (unfold getVertex; lia). repeat split; auto.
Qed.
Lemma t_how e v : t_eok e -> In v (t_pn e) -> owner g v = Some (t_ow v).
Proof. intros He Hv. destruct (t_inpn e v He Hv) as (i & x & u & l & _ & _ & _ & _ & _ & _ & E & _). unfold t_ow. now rewrite E. Qed.
Lemma t_mine e v : t_eok e -> In v (t_pn e) -> t_ow v = self g -> loc p v.
Proof. intros He Hv Ho. destruct (t_inpn e v He Hv) as (i & x & u & l & _ & _ & _ & -> & _ & _ & E & D). unfold t_ow in Ho. rewrite E, t_self in Ho. exists l. split; auto. apply nth_error_Some. rewrite D; [discriminate|lia]. Qed.
Lemma t_cavity e v : t_eok e -> In v (cavity_of g t_pn t_ow e) -> exists i x u l, e = getEdge (ntypes g) i 0 /\ nth_error (edges0 p) i = Some x /\ In u (snd x) /\ v = getVertex l /\ nth_error (pd_verts p) l = Some u /\ own u = r /\ idx t_all u = l.
Proof. intros He Hv. apply cavity_in in Hv as (Hv & Ho). destruct (t_inpn e v He Hv) as (i & x & u & l & A1 & A2 & A3 & -> & A4 & A5 & E & D). unfold t_ow in Ho. rewrite E, t_self in Ho. assert (own u = r) by lia. exists i, x, u, l. repeat split; auto. Qed.
Lemma getEdge_inj i j : getEdge (ntypes g) i 0 = getEdge (ntypes g) j 0 -> i = j.
Proof. intros H. assert (NT : 0 < ntypes g). { pose proof (c_ntypes _ _ _ _ _ _ t_HC) as CN. rewrite CN. destruct (s_lens own V T ps r p HD Hp) as (_ & _ & ->). exact HT. } unfold getEdge in H. assert (E : ntypes g * i = ntypes g * j) by lia. apply Nat.mul_cancel_l in E; lia. Qed.
Lemma t_small e : t_eok e -> length (cavity_of g t_pn t_ow e) < 100.
Proof.
  intros He. destruct He as (i & x & Hx & ->). eapply Nat.le_lt_trans; [|apply (H_100 x), (nth_error_In _ _ Hx)]. rewrite <- (map_length (fun u => getVertex (idx t_all u)) (on_part own r x)).
  apply NoDup_incl_length; [apply addall_nodup; constructor|]. intros v Hv. destruct (t_cavity _ v ltac:(exists i, x; auto) Hv) as (j & y & u & l & E & Hy & Hu & -> & _ & Eo & El). apply getEdge_inj in E. subst j. assert (y = x) by congruence. subst y. apply in_map_iff. exists u. rewrite El. split; auto. apply nodup_In, filter_In. split; auto. now apply Nat.eqb_eq.
Qed.
Lemma t_load h : loc p h -> (load1 il' ew' vw' dim h <= M)%Q.
Proof.
  intros (l & -> & Hl). destruct (nth_error (pd_verts p) l) as [v|] eqn:Ev; [|apply nth_error_None in Ev; lia]. eapply Qle_trans; [|apply (proj2 H_M v), (nth_error_In _ _ Ev)]. unfold load1, vertex_load. destruct dim as [t|].
  - destruct (s_ty own V T ps r p HD Hp t Hdim) as (ty & E & Et & _). unfold il. unfold getVertex. rewrite Nat.add_1_r, Ev, Et, map_map. apply qsum_le_map. intros i Hi. apply SecondAdjProps.incident_in in Hi as (e & Ee & _).
    pose proof (eweights_length _ _ _ _ (fst ty) (snd ty) t_HV) as LW. destruct ty as [es0 ws]. cbn [fst snd] in *. specialize (LW (nth_error_In _ _ Et)). assert (Li : i < length (eweights (es0, ws))) by (rewrite LW; apply nth_error_Some; congruence). destruct (nth_error (eweights (es0, ws)) i) as [w|] eqn:Ew; [|apply nth_error_None in Ew; lia].
    unfold ew. rewrite (s_eweight own V T ps r p g HD Hp HB t (es0, ws) i (e, w) Et); [|unfold erecs; apply combine_nth2; auto]. cbn [snd]. rewrite (nth_error_nth _ _ _ Ew). apply Qle_refl.
  - destruct (s_vrec own V T ps r p HD Hp l Hl) as (x & Hx). unfold vw. rewrite (s_weight val own V T ps r p g gw HD Hp HB l x Hx). apply qsum_elem.
    + intros y Hy. apply in_map_iff in Hy as (z & <- & Hz). apply filter_In in Hz as (Hz & _). destruct HD as (_ & _ & HX). destruct (HX r p Hp) as (_ & _ & PV & _). apply (Permutation_in _ PV) in Hz. apply filter_In in Hz as (Hz & _). now apply HW.
    + apply in_map_iff. exists x. split; auto. apply filter_In. split; [eapply nth_error_In; eauto|]. destruct (vrec_nth _ _ _ Hx) as (A & _). assert (fst x = v) by congruence. now apply Z.eqb_eq.
Qed.
Lemma t_plan : PInv g p0 [].
Proof. destruct (plan_run _ _ _ _ _ g [] fuel t_HC) as (q0 & q1 & F1 & F2 & F3); [apply (FO own V T ps r p fuel HD Hp HF)|intros o []|]. cbn in F2. assert (q0 = p0) by congruence. assert (q1 = p0) by congruence. subst. exact F3. Qed.

Theorem C43_select : exists s0 st cs, new_selector g fuel q p0 = Some s0 /\ select_sizes val ord pord g gw fuel targets limit dim s0 = Some st /\
  made_plan fuel g cs (s_plan st) /\ (forall o, In o cs -> chosen_call p (ntypes g) es targets o) /\ NoDup (pl_sending (s_plan st)) /\
  forall own1, first_moved own1 r p cs ->
    (forall k, k <> r -> (forall l, first_call cs l <> Some (Z.of_nat k)) \/ (brought val own V T own1 r k dim <= cget 0%Q targets (Z.of_nat k) + 11 * M)%Q) /\
    ((forall l, first_call cs l = None) \/ (qsum (map (fun x => brought val own V T own1 r (Z.to_nat (fst x)) dim) (c_d targets)) <= c_total targets + 11 * M)%Q).
Proof.
  assert (HTG : forall d, chas targets d = true -> d <> (-1)%Z) by (intros d Hd; destruct (H_tgt d Hd); lia).
  assert (HDM : match dim with Some t => tok T t | None => True end) by exact Hdim.
  assert (HEP : forall h t e, loc p h -> tok T t -> In e (il' t h) -> (0 <= ew' e)%Q) by (intros; eapply s_epos; eauto).
  assert (HVP : forall h, loc p h -> (0 <= vw' h)%Q) by (intros; eapply s_vpos; eauto).
  assert (HBB : forall d vs, NoDup vs -> length vs <= 11 -> (forall v, In v vs -> loc p v) -> (0 <= gain il' res' ew' vw' dim d vs <= 11 * M)%Q).
  { intros d vs _ L HL. apply (gain_bound il' res' ew' vw' (loc p) (tok T) dim HDM HEP HVP d vs M HL); auto; [intros v Hv; apply t_load; auto|apply H_M]. }
  destruct (selection_ok val g gw fuel ord pord il' t_pn t_ow res' ew' vw' (loc p) (tok T) t_eok (fun h t => s_il own V T ps r p g fuel HD Hp HB HF h t) (fun h t e d => s_res own V T ps r p g HD Hp HB h t e d)
    (fun h t e => s_ew val own V T ps r p g HD Hp HB h t e) (fun h => s_vw val own V T ps r p g gw HD Hp HB h) t_loc HT t_heok t_hpn t_how t_mine H_ord targets limit dim (11 * M)%Q p0 es HTG HDM H_es
    (ex_intro _ [] t_plan) (proj1 (proj2 t_plan)) HBB q H_q (proj2 H_cap) ltac:(rewrite <- (proj1 H_cap); apply H_cap) (fun e He => t_small e (H_es e He))) as (s0 & st & A & cs & lq & E0 & E1 & (_ & HL & _) & _).
  destruct HL as (HP & HR & HG & HS & HN & HA & HWt & HTo & HT1 & HT2 & HF1 & HF2). exists s0, st, cs. split; auto. split; auto. split; [exists p0; split; auto|]. split.
  { intros o Ho. destruct (HG o Ho) as (e & v & d & -> & He & Hv & Ht). destruct (t_cavity e v (H_es e He) Hv) as (i & x & u & l & -> & Hx & Hu & -> & Hl & _). exists (lid_of (getVertex l)), d, u, i, x. unfold lid_of. replace (getVertex l - 1) with l by (unfold getVertex; lia). repeat split; auto. }
  split; auto. intros own1 HM1.
  assert (LA : forall a v, In a A -> In v (snd a) -> loc p v). { intros a v Ha Hv. destruct (HA a Ha) as (_ & _ & H). destruct (H v Hv) as (e & He & Hc). destruct (t_cavity e v (H_es e He) Hc) as (i & x & u & l & _ & _ & _ & -> & Hl & _). exists l. split; auto. apply nth_error_Some. congruence. }
  set (m := map (fun k => (lid_of (fst k), snd k)) (first_plan A)).
  assert (HM : handles m = first_plan A).
  { unfold handles, m. rewrite map_map. cbn [fst snd]. rewrite <- (map_id (first_plan A)) at 2. apply map_ext_in. intros (v, d) Hv. cbn [fst snd]. f_equal. unfold first_plan in Hv. apply in_flat_map in Hv as (a & Ha & Hv). apply in_map_iff in Hv as (u & Eu & Hu). inversion Eu; subst. destruct (LA a v Ha Hu) as (l & -> & _). unfold lid_of, getVertex. lia. }
  assert (IM : forall l d, In (l, d) m <-> exists a v, In a A /\ In v (snd a) /\ lid_of v = l /\ fst a = d).
  { intros l d. unfold m. rewrite in_map_iff. split.
    - intros ((v, d') & E & Hv). cbn in E. unfold first_plan in Hv. apply in_flat_map in Hv as (a & Ha & Hv). apply in_map_iff in Hv as (u & Eu & Hu). inversion Eu; inversion E; subst. exists a, v. auto.
    - intros (a & v & Ha & Hv & <- & <-). exists (v, fst a). split; auto. unfold first_plan. apply in_flat_map. exists a. split; auto. apply in_map_iff. exists v. auto. }
  assert (FG : forall l, fm_get m l = first_call cs l).
  { intros l. destruct (fm_get m l) as [d|] eqn:F.
    - assert (I : In (l, d) m). { clear - F. induction m as [|(k, y) m' IH]; cbn in *; [discriminate|]. destruct (Nat.eqb_spec k l) as [->|]; [inversion F; auto|auto]. } apply IM in I as (a & v & Ha & Hv & <- & <-). symmetry. now apply HF1.
    - destruct (first_call cs l) as [d|] eqn:F2; auto. exfalso. assert (I : In (getVertex l) (pl_sending (s_plan st))) by (apply HF2; congruence). rewrite <- HS in I. apply in_flat_map in I as (a & Ha & Hv). assert (I : In (l, fst a) m). { apply IM. exists a, (getVertex l). repeat split; auto. unfold lid_of, getVertex. lia. } apply (in_map fst) in I. cbn in I. apply fm_get_in in I. congruence. }
  assert (BR : forall k, k <> r -> (brought val own V T own1 r k dim <= added_to il' res' ew' vw' dim A (Z.of_nat k))%Q).
  { intros k Nk. eapply Qle_trans; [|apply (load_added g il' t_pn t_ow res' ew' vw' (loc p) (tok T) t_eok t_mine targets dim es HDM H_es HEP A (Z.of_nat k) HA)]. rewrite <- HM.
    refine (s_brings val own V T ps r p g gw HD Hp HB HW own1 m _ _ k dim Nk _).
    - intros l v Hv. rewrite FG. exact (HM1 l v Hv).
    - intros l I. apply in_map_iff in I as ((l', d) & <- & I). apply IM in I as (a & v & Ha & Hv & <- & _). destruct (LA a v Ha Hv) as (l & -> & Hl). cbn. unfold lid_of, getVertex. now replace (l + 1 - 1) with l by lia.
    - destruct dim; exact Hdim. }
  split.
  - intros k Nk. destruct (HT2 (Z.of_nat k)) as [EN|LE]; [left|right; eapply Qle_trans; [now apply BR|exact LE]].
    intros l F. rewrite <- FG in F. assert (I : In (l, Z.of_nat k) m). { clear - F. induction m as [|(j, y) m' IH]; cbn in *; [discriminate|]. destruct (Nat.eqb_spec j l) as [->|]; [inversion F; auto|auto]. } apply IM in I as (a & v & Ha & Hv & _ & Ea).
    assert (I : In a (filter (fun a => Z.eqb (fst a) (Z.of_nat k)) A)) by (apply filter_In; split; auto; now apply Z.eqb_eq). rewrite EN in I. destruct I.
  - destruct HT1 as [EN|LE]; [left|right].
    + intros l. rewrite <- FG. unfold m. rewrite EN. reflexivity.
    + eapply Qle_trans; [|exact LE]. rewrite (added_split il' res' ew' vw' dim A (map fst (c_d targets)) H_keys).
      * rewrite map_map. apply qsum_le_map. intros x Hx. assert (Cx : chas targets (fst x) = true). { unfold chas. destruct (zfind (c_d targets) (fst x)) eqn:Z0; auto. exfalso. assert (I : In (fst x) (map fst (c_d targets))) by now apply in_map. apply zfind_key in I. congruence. }
        destruct (H_tgt _ Cx) as (Hr & Hn). replace (fst x) with (Z.of_nat (Z.to_nat (fst x))) at 2 by lia. apply BR. lia.
      * intros a Ha. destruct (HA a Ha) as (Ct & _). unfold chas in Ct. apply zfind_key. intros X. rewrite X in Ct. discriminate.
Qed.
(** *** the second pass *)
Variables (con minCon : nat).
Hypothesis Hcon : con < length T.
Hypothesis H_min : 2 <= minCon.
Hypothesis H_nd : NoDup es.
Hypothesis H_pord : forall m, Permutation (pord m) m.
Hypothesis H_cut : forall i x, nth_error (edges0 p) i = Some x -> In (getEdge (ntypes g) i 0) es -> exists v, In v (snd x) /\ own v <> r.
Definition t_aj (h : nat) : list nat := match adjacent g h con fuel with Some l => l | None => [] end.
Lemma t_ndall : NoDup t_all. Proof. exact (rp_nd _ _ _ _ _ t_HR). Qed.
Lemma t_vinj k l v : nth_error (pd_verts p) k = Some v -> nth_error (pd_verts p) l = Some v -> k = l.
Proof. intros A B. pose proof t_ndall as ND. unfold t_all in ND. apply NoDup_app_iff in ND as (ND & _). apply (proj1 (NoDup_nth_error (pd_verts p)) ND); [apply nth_error_Some; congruence|congruence]. Qed.
Lemma t_vall k l v : nth_error (pd_verts p) k = Some v -> nth_error t_all l = Some v -> k = l.
Proof. intros A B. assert (L : k < length (pd_verts p)) by (apply nth_error_Some; congruence). assert (A' : nth_error t_all k = Some v) by (unfold t_all; rewrite nth_error_app1; auto). apply (proj1 (NoDup_nth_error t_all) t_ndall); [apply nth_error_Some; congruence|congruence]. Qed.
Lemma t_adj l v : nth_error (pd_verts p) l = Some v -> exists nb, adjacent g (getVertex l) con fuel = Some (map (fun w => Datatypes.S (idx t_all w)) nb) /\ (forall w, In w nb -> In w t_all) /\
  forall w, count_occ Z.eq_dec nb w = together (edges_t p con) v w.
Proof.
  intros Hl. destruct (s_ty own V T ps r p HD Hp con Hcon) as ([es0 ws] & E & Et & _). set (nb := flat_map (fun i => match nth_error es0 i with Some e => snd e | None => [] end) (incident v es0)).
  pose proof (vals_incident _ _ _ _ _ _ t_HC con es0 ws l v eq_refl Et Hl) as VI. destruct (nth_verts (pd_verts p) (pd_tys p) l v Hl) as [Ha L].
  pose proof (adjacent_hyper _ _ _ _ _ t_HR con es0 _ (nth_eff _ _ _ _ Et) l fuel) as AH. cbv zeta in AH. rewrite VI in AH.
  exists nb. split; [unfold getVertex; rewrite Nat.add_1_r; apply AH; auto; [exact (c_hyper _ _ _ _ _ _ t_HC)|]|].
  - destruct (FO own V T ps r p fuel HD Hp HF) as (_ & F). destruct (F (es0, ws) (nth_error_In _ _ Et)) as (_ & _ & F3). apply F3.
  - split.
    + intros w Hw. unfold nb in Hw. apply in_flat_map in Hw as (i & _ & Hw). destruct (nth_error es0 i) as [[gid pins]|] eqn:Ei; [|destruct Hw]. eapply (pins_in_all _ _ _ _ _ t_HR con es0); [apply (nth_eff _ _ _ _ Et)|exact Ei|exact Hw].
    + intros w. unfold nb. rewrite together_count. unfold edges_t. now rewrite Et.
Qed.
Lemma t_hadj h : loc p h -> adjacent g h con fuel = Some (t_aj h).
Proof. intros (l & -> & Hl). destruct (nth_error (pd_verts p) l) as [v|] eqn:Ev; [|apply nth_error_None in Ev; lia]. destruct (t_adj l v Ev) as (nb & E & _). unfold t_aj. now rewrite E. Qed.
Lemma t_nz h v : loc p h -> In v (t_aj h) -> v <> 0.
Proof. intros (l & -> & Hl) Hv. destruct (nth_error (pd_verts p) l) as [u|] eqn:Ev; [|apply nth_error_None in Ev; lia]. destruct (t_adj l u Ev) as (nb & E & _). unfold t_aj in Hv. rewrite E in Hv. apply in_map_iff in Hv as (w & <- & _). lia. Qed.
Lemma t_count nb k w : (forall u, In u nb -> In u t_all) -> nth_error t_all k = Some w -> count_occ Nat.eq_dec (map (fun u => Datatypes.S (idx t_all u)) nb) (getVertex k) = count_occ Z.eq_dec nb w.
Proof.
  intros HN Hk. induction nb as [|u nb IH]; [reflexivity|]. cbn [map count_occ]. assert (HN' : forall u, In u nb -> In u t_all) by (intros; apply HN; right; auto). specialize (IH HN'). pose proof (nth_idx _ _ _ t_ndall Hk) as Ek. unfold getVertex in *.
  destruct (Z.eq_dec u w) as [->|N].
  - destruct (Nat.eq_dec (Datatypes.S (idx t_all w)) (k + 1)); [now rewrite IH|lia].
  - destruct (Nat.eq_dec (Datatypes.S (idx t_all u)) (k + 1)) as [E|]; [|exact IH]. exfalso. apply N. apply (idx_inj t_all); [apply HN; left; auto|eapply nth_error_In; eauto|lia].
Qed.
(** vertices strongly connected, by handle and by number *)
Lemma t_strong l v h : nth_error (pd_verts p) l = Some v -> (strongb minCon t_aj (getVertex l) h = true <-> exists k w, h = getVertex k /\ nth_error t_all k = Some w /\ tied p con minCon v w).
Proof.
  intros Hl. destruct (t_adj l v Hl) as (nb & E & HN & HC). unfold strongb, t_aj. rewrite E. assert (Hl' : nth_error t_all l = Some v) by (unfold t_all; rewrite nth_error_app1; auto; apply nth_error_Some; congruence).
  rewrite andb_true_iff, negb_true_iff, Nat.eqb_neq, Nat.leb_le. split.
  - intros (N & L). assert (I : In h (map (fun u => Datatypes.S (idx t_all u)) nb)) by (apply (count_occ_In Nat.eq_dec); lia). apply in_map_iff in I as (w & <- & Hw). pose proof (idx_nth _ _ (HN w Hw)) as Nw. exists (idx t_all w), w. split; [unfold getVertex; lia|]. split; auto.
    replace (Datatypes.S (idx t_all w)) with (getVertex (idx t_all w)) in L by (unfold getVertex; lia). rewrite (t_count nb _ w HN Nw), HC in L. split; auto. intros ->. apply N. rewrite (nth_idx _ _ _ t_ndall Hl'). unfold getVertex; lia.
  - intros (k & w & -> & Hk & (N & L)). split; [|now rewrite (t_count nb k w HN Hk), HC]. unfold getVertex. intros X. assert (k = l) by lia. subst k. congruence.
Qed.
(** the plan made by the calls cs *)
Lemma t_calls cs plan : (forall o, In o cs -> op_ok g o) -> foldM (do_op g) cs p0 = Some plan -> (forall l, In (getVertex l) (pl_sending plan) <-> planned cs l <> None) /\ forall l d, planned cs l = Some d -> l < nlv g /\ dest_of g plan (getVertex l) = d.
Proof.
  intros HO E. destruct (plan_run _ _ _ _ _ g cs fuel t_HC) as (q0 & q1 & F1 & F2 & F3); [apply (FO own V T ps r p fuel HD Hp HF)|exact HO|]. assert (q0 = p0) by congruence. subst q0. assert (q1 = plan) by congruence. subst q1. destruct F3 as (_ & ES & EK & _ & EA). split.
  - intros l. rewrite ES. rewrite <- planned_get. rewrite SelectProofs.fm_get_in. split.
    + intros I. apply in_map_iff in I as (x & Ex & Ix). assert (fst x = l) by (unfold getVertex in Ex; lia). subst l. now apply in_map.
    + intros I. apply in_map_iff in I as (x & <- & Ix). apply in_map_iff. exists x. auto.
  - intros l d Hd. assert (L : l < nlv g). { apply EK. apply SelectProofs.fm_get_in. rewrite planned_get. congruence. } split; auto. unfold dest_of, plan_get. rewrite get_vtag_local, EA by auto. rewrite planned_get, Hd. reflexivity.
Qed.
Lemma t_called cs plan l v : (forall o, In o cs -> op_ok g o) -> foldM (do_op g) cs p0 = Some plan -> nth_error (pd_verts p) l = Some v -> (In (getVertex l) (pl_sending plan) <-> called p cs v).
Proof.
  intros HO E Hl. destruct (t_calls cs plan HO E) as (A & _). rewrite A. split; [intros X; exists l; auto|]. intros (k & Hk & X). assert (k = l); [|now subst]. eapply t_vinj; eauto.
Qed.
Lemma t_home i x v : nth_error (edges0 p) i = Some x -> In v (snd x) -> own v < length ps.
Proof.
  intros Hx Hv. destruct (s_ty own V T ps r p HD Hp 0 HT) as ([es0 ws] & E & Et & ET & PE). unfold edges0 in Hx. rewrite Et in Hx. cbn [fst] in Hx. destruct HD as ((NV & WF) & HO & _). apply HO.
  pose proof (eweights_length _ _ _ _ es0 ws t_HV (nth_error_In _ _ Et)) as LW. assert (Li : i < length (eweights (es0, ws))) by (rewrite LW; apply nth_error_Some; congruence). destruct (nth_error (eweights (es0, ws)) i) as [w|] eqn:Ew; [|apply nth_error_None in Ew; lia].
  assert (IE : In (x, w) (erecs (es0, ws))). { unfold erecs. cbn [fst]. apply (nth_error_In _ i). apply combine_nth2; auto. } apply (Permutation_in _ PE) in IE. apply filter_In in IE as (IE & _). apply (WF E (nth_error_In _ _ ET)) with (e := (x, w)); auto.
Qed.
Lemma t_il l v e : nth_error (pd_verts p) l = Some v -> (In e (il' 0 (getVertex l)) <-> exists i x, e = getEdge (ntypes g) i 0 /\ nth_error (edges0 p) i = Some x /\ In v (snd x)).
Proof.
  intros Hl. destruct t_0 as (ty & Et & E0). unfold getVertex. rewrite Nat.add_1_r. cbn [il]. rewrite Hl, Et, in_map_iff, E0. split.
  - intros (i & <- & Hi). apply SecondAdjProps.incident_in in Hi as (x & Hx & Hv). exists i, x. auto.
  - intros (i & x & -> & Hx & Hv). exists i. split; auto. apply SecondAdjProps.incident_in. exists x. auto.
Qed.
Lemma t_mycav i x v : nth_error (edges0 p) i = Some x -> In v (snd x) -> own v = r -> exists l, nth_error (pd_verts p) l = Some v /\ In (getVertex l) (cavity_of g t_pn t_ow (getEdge (ntypes g) i 0)).
Proof.
  intros Hx Hv Eo. destruct (t_pin i x v Hx Hv) as (l & A & B & C & D). exists l. split; [now apply D|]. apply cavity_in. split.
  - unfold t_pn. rewrite (t_pins i x Hx). apply in_map_iff. exists v. split; auto. rewrite B. unfold getVertex; lia.
  - unfold t_ow. rewrite C, t_self. lia.
Qed.
Lemma map_nodup_in (f : nat -> nat) (l : list nat) : (forall a b, In a l -> In b l -> f a = f b -> a = b) -> NoDup l -> NoDup (map f l).
Proof. induction l as [|a l IH]; intros HI N; [constructor|]. inversion N; subst. cbn. constructor; [|apply IH; auto; intros; apply HI; auto; right; auto]. intros I. apply in_map_iff in I as (b & E & Hb). apply HI in E; [congruence|right; auto|left; auto]. Qed.
Section Pass.
Variables (st : sel) (cs0 : list plan_op).
Hypothesis H_ok0 : forall o, In o cs0 -> op_ok g o.
Hypothesis H_cs0 : foldM (do_op g) cs0 p0 = Some (s_plan st).
Notation lf := (left_of g t_pn t_ow st).
Notation un := (unsent own r p cs0).
Lemma t_left i x h : nth_error (edges0 p) i = Some x -> (In h (lf (getEdge (ntypes g) i 0)) <-> exists l v, h = getVertex l /\ nth_error (pd_verts p) l = Some v /\ un x v).
Proof.
  intros Hx. unfold left_of. rewrite filter_In, negb_true_iff, smem_no. split.
  - intros (Hc & Hn). destruct (t_cavity _ h ltac:(exists i, x; auto) Hc) as (j & y & u & l & E & Hy & Hu & -> & Hl & Eo & _). apply getEdge_inj in E. subst j. assert (y = x) by congruence. subst y. exists l, u. split; auto. split; auto. split; auto. split; auto. intros X. apply Hn. now apply (t_called cs0 (s_plan st) l u H_ok0 H_cs0 Hl).
  - intros (l & v & -> & Hl & (Hv & Eo & Hn)). destruct (t_mycav i x v Hx Hv Eo) as (k & Hk & Hc). assert (k = l). { eapply t_vinj; eauto. } subst k.
    split; auto. intros X. apply Hn. now apply (t_called cs0 (s_plan st) l v H_ok0 H_cs0 Hl).
Qed.
Lemma t_settled cs plan i x : (forall o, In o cs -> op_ok g o) -> foldM (do_op g) cs p0 = Some plan -> nth_error (edges0 p) i = Some x ->
  (settled minCon t_aj (pl_sending plan) (lf (getEdge (ntypes g) i 0)) <-> loose p con minCon cs (un x)).
Proof.
  intros HO E Hx. split.
  - intros HS v w Hv (N & L). destruct (t_mycav i x v Hx (proj1 Hv) (proj1 (proj2 Hv))) as (l & Hl & _).
    assert (Hw : exists k, nth_error t_all k = Some w). { destruct (t_adj l v Hl) as (nb & _ & HN & HC). exists (idx t_all w). apply idx_nth, HN, (count_occ_In Z.eq_dec). rewrite HC. lia. } destruct Hw as (k & Hk).
    destruct (HS (getVertex l) (getVertex k)) as [(H1 & _)|[H1|H1]].
    + apply (t_left i x _ Hx). eauto.
    + apply (t_strong l v _ Hl). exists k, w. split; auto. split; auto. split; auto.
    + left. apply (t_left i x _ Hx) in H1 as (k' & w' & Ek & Hk' & Hw'). assert (k' = k) by (unfold getVertex in Ek; lia). subst k'. assert (nth_error t_all k = Some w') by (unfold t_all; rewrite nth_error_app1; auto; apply nth_error_Some; congruence). congruence.
    + right. left. now apply (t_called cs plan l v HO E Hl).
    + right. right. destruct (t_calls cs plan HO E) as (A & C). pose proof H1 as H2. rewrite A in H2. destruct (planned cs k) as [d|] eqn:Ep; [|congruence]. destruct (C k d Ep) as (Lk & _). rewrite t_nlv in Lk. assert (Hk' : nth_error (pd_verts p) k = Some w) by (unfold t_all in Hk; rewrite nth_error_app1 in Hk; auto). now apply (t_called cs plan k w HO E Hk').
  - intros HS u w Hu Hs. apply (t_left i x _ Hx) in Hu as (l & v & -> & Hl & Hv). apply (t_strong l v _ Hl) in Hs as (k & y & -> & Hk & Ht). destruct (HS v y Hv Ht) as [H1|[H1|H1]].
    + left. destruct (t_mycav i x y Hx (proj1 H1) (proj1 (proj2 H1))) as (k' & Hk' & _). assert (k' = k). { eapply t_vall; eauto. } subst k'.
      split; [apply (t_left i x _ Hx); eauto|]. apply (t_strong k y _ Hk'). exists l, v. split; auto. split; [unfold t_all; rewrite nth_error_app1; auto; apply nth_error_Some; congruence|]. destruct Ht as (N & L). split; [congruence|]. now rewrite together_sym.
    + right. left. now apply (t_called cs plan l v HO E Hl).
    + right. right. destruct H1 as (k' & Hk' & Hp'). assert (k' = k). { eapply t_vall; eauto. } subst k'. now apply (proj1 (t_calls cs plan HO E)).
Qed.
Lemma t_tch cs plan d i e : (forall o, In o cs -> op_ok g o) -> foldM (do_op g) cs p0 = Some plan -> nth_error (edges0 p) i = Some e -> (tch g t_pn t_ow plan d (getEdge (ntypes g) i 0) = true <-> exists u, In u (snd e) /\ goes own r p cs u d).
Proof.
  intros HO E He. unfold tch. rewrite existsb_exists. destruct (t_calls cs plan HO E) as (A & C). split.
  - intros (h & Hh & Ht). destruct (t_inpn _ h ltac:(exists i, e; auto) Hh) as (j & y & u & l & Ej & Hy & Hu & -> & Hl & _ & Eo & D). apply getEdge_inj in Ej. subst j. assert (y = e) by congruence. subst y. exists u. split; auto. unfold t_ow in Ht. rewrite Eo, t_self in Ht. destruct (Z.eqb_spec (Z.of_nat (own u)) (Z.of_nat r)) as [Er|Nr].
    + left. assert (own u = r) by lia. split; auto. exists l. split; [now apply D|]. apply andb_true_iff in Ht as (H1 & H2). apply smem_in in H1. apply A in H1. destruct (planned cs l) as [d'|] eqn:Ep; [|congruence]. destruct (C l d' Ep) as (_ & Ed). apply Z.eqb_eq in H2. congruence.
    + right. apply Z.eqb_eq in Ht. split; [lia|auto].
  - intros (u & Hu & HG). destruct (t_pin i e u He Hu) as (l & Hl & El & Eo & D). exists (getVertex l). split; [unfold t_pn; rewrite (t_pins i e He); apply in_map_iff; exists u; split; auto; rewrite El; unfold getVertex; lia|]. unfold t_ow. rewrite Eo, t_self. destruct HG as [(Er & k & Hk & Hd)|(Nr & ->)].
    + rewrite Er, Z.eqb_refl. assert (k = l). { eapply t_vinj; eauto. } subst k. apply andb_true_iff. split; [apply smem_in, A; congruence|]. destruct (C l d Hd) as (_ & ->). apply Z.eqb_refl.
    + destruct (Z.eqb_spec (Z.of_nat (own u)) (Z.of_nat r)); [lia|apply Z.eqb_refl].
Qed.
Lemma shares_length cs c d N N' : shares own r p cs c d N -> shares own r p cs c d N' -> length N = length N'.
Proof. intros (A1 & A2) (B1 & B2). apply Nat.le_antisymm; apply NoDup_incl_length; auto; intros i Hi; [apply B2, A2, Hi|apply A2, B2, Hi]. Qed.
Lemma t_shared cs plan d i x : (forall o, In o cs -> op_ok g o) -> foldM (do_op g) cs p0 = Some plan -> nth_error (edges0 p) i = Some x ->
  exists N, shares own r p cs (un x) d N /\ length N = shared g ord il' t_pn t_ow plan (lf (getEdge (ntypes g) i 0)) d.
Proof.
  intros HO E Hx. unfold shared. set (F := filter (tch g t_pn t_ow plan d) (edges_of il' 0 (ord (lf (getEdge (ntypes g) i 0))))).
  assert (HFin : forall e, In e F <-> exists j y, e = getEdge (ntypes g) j 0 /\ nth_error (edges0 p) j = Some y /\ (exists v, un x v /\ In v (snd y)) /\ exists u, In u (snd y) /\ goes own r p cs u d).
  { intros e. unfold F, edges_of. rewrite filter_In, addall_in, in_flat_map. split.
    - intros ([[]|(h & Hh & He)] & Ht). apply (Permutation_in _ (H_ord _)) in Hh. apply (t_left i x _ Hx) in Hh as (l & v & -> & Hl & Hv). apply (t_il l v e Hl) in He as (j & y & -> & Hy & Iv). exists j, y. split; auto. split; auto. split; [eauto|]. now apply (t_tch cs plan d j y HO E Hy).
    - intros (j & y & -> & Hy & (v & Hv & Iv) & HG). split; [right|now apply (t_tch cs plan d j y HO E Hy)]. destruct (t_mycav i x v Hx (proj1 Hv) (proj1 (proj2 Hv))) as (l & Hl & _). exists (getVertex l). split; [apply (Permutation_in _ (Permutation_sym (H_ord _))); apply (t_left i x _ Hx); eauto|]. apply (t_il l v _ Hl). eauto. }
  exists (filter (fun j => smem F (getEdge (ntypes g) j 0)) (seq 0 (length (edges0 p)))). split.
  - split; [apply NoDup_filter, seq_NoDup|]. intros j. rewrite filter_In, smem_in, HFin, in_seq. split.
    + intros (_ & k & y & Ek & Hy & H1 & H2). apply getEdge_inj in Ek. subst k. eauto.
    + intros (y & Hy & H1 & H2). split; [assert (j < length (edges0 p)) by (apply nth_error_Some; congruence); lia|]. exists j, y. auto.
  - rewrite <- (map_length (fun j => getEdge (ntypes g) j 0)). apply Permutation_length, NoDup_Permutation.
    + apply FinFun.Injective_map_NoDup; [intros a b; apply getEdge_inj|apply NoDup_filter, seq_NoDup].
    + unfold F. apply NoDup_filter. unfold edges_of. apply addall_nodup. constructor.
    + intros e. rewrite in_map_iff. split.
      * intros (j & <- & Hj). apply filter_In in Hj as (_ & Hj). now apply smem_in.
      * intros He. pose proof He as Hc. apply HFin in Hc as (j & y & -> & Hy & _). exists j. split; auto. apply filter_In. split; [apply in_seq; assert (j < length (edges0 p)) by (apply nth_error_Some; congruence); lia|]. now apply smem_in.
Qed.
Lemma t_goes d : can_go g t_pn t_ow t_eok targets d -> (0 <= d < Z.of_nat (length ps))%Z /\ d <> Z.of_nat r.
Proof.
  intros (_ & [Ht|(e & v & He & Hv & Eo & N)]); [now apply H_tgt|]. destruct (t_inpn e v He Hv) as (i & x & u & l & _ & Hx & Hu & _ & _ & _ & Ev & _). unfold t_ow in Eo. rewrite Ev in Eo. subst d. rewrite t_self in N. pose proof (t_home i x u Hx Hu). split; [lia|auto].
Qed.
Lemma t_pass plan l m : moves g ord il' t_pn t_ow t_eok targets minCon t_aj lf plan l m -> forall cs xs, (forall o, In o cs -> op_ok g o) -> foldM (do_op g) cs p0 = Some plan ->
  Forall2 (fun e x => exists i, e = getEdge (ntypes g) i 0 /\ nth_error (edges0 p) i = Some x) l xs -> second_pass (length ps) own r p con minCon cs0 cs xs m.
Proof.
  induction 1 as [plan|plan plan1 e l d m HS HG HM HF1 _ IH|plan e l m HS _ IH]; intros cs xs HO E HX; inversion HX; subst.
  - constructor.
  - match goal with H : exists _, _ |- _ => destruct H as (i & -> & Hx) end.
    set (lc := lf (getEdge (ntypes g) i 0)) in *. set (ls := map lid_of (ord lc)).
    assert (EI : ins_all (ord lc) d = map (fun l => Ins l d) ls) by (unfold ins_all, ls; rewrite map_map; reflexivity).
    assert (IL : forall l, In l ls <-> exists v, nth_error (pd_verts p) l = Some v /\ un y v).
    { intros k. unfold ls. rewrite in_map_iff. split.
      - intros (h & <- & Hh). apply (Permutation_in _ (H_ord _)) in Hh. apply (t_left i y _ Hx) in Hh as (j & v & -> & Hj & Hv). exists v. unfold lid_of, getVertex. replace (j + 1 - 1) with j by lia. auto.
      - intros (v & Hk & Hv). exists (getVertex k). split; [unfold lid_of, getVertex; lia|]. apply (Permutation_in _ (Permutation_sym (H_ord _))). apply (t_left i y _ Hx). eauto. }
    rewrite EI. destruct (t_goes d HG) as (G1 & G2). apply sp_send; auto.
    + now apply (t_settled cs plan i y HO E Hx).
    + destruct (t_shared cs plan d i y HO E Hx) as (N & HN & LN). exists N. split; auto. intros d' N' HN'. destruct (t_shared cs plan d' i y HO E Hx) as (N2 & HN2 & LN2). rewrite (shares_length _ _ _ _ _ HN' HN2), LN2, LN. apply HM.
    + unfold ls. apply map_nodup_in.
      * intros a b Ha Hb Eab. apply (Permutation_in _ (H_ord _)) in Ha. apply (Permutation_in _ (H_ord _)) in Hb. apply (t_left i y _ Hx) in Ha as (ja & va & -> & _). apply (t_left i y _ Hx) in Hb as (jb & vb & -> & _). unfold lid_of, getVertex in *. lia.
      * eapply Permutation_NoDup; [apply Permutation_sym, H_ord|]. unfold lc, left_of. apply NoDup_filter, addall_nodup. constructor.
    + rewrite <- EI. apply IH; auto.
      * intros o Ho. apply in_app_iff in Ho as [Ho|Ho]; auto. rewrite EI in Ho. apply in_map_iff in Ho as (k & <- & Hk). apply IL in Hk as (v & Hk & _). split; [rewrite t_nlv; apply nth_error_Some; congruence|lia].
      * rewrite foldM_app, E. exact HF1.
  - match goal with H : exists _, _ |- _ => destruct H as (i & -> & Hx) end. apply sp_stay; [|now apply IH]. intros X. apply HS. now apply (t_settled cs plan i y HO E Hx).
Qed.
End Pass.
(** xs are the edges still in the queue when select is done.  The pass reads the first of no peers if one of them has no vertex left to send;
    else it plans the vertices left of the loose edges, edge by edge, each time for the closest part, and reports the same weight as select. *)
Theorem C43_disconnected : exists s0 st cs l xs, new_selector g fuel q p0 = Some s0 /\ select_sizes val ord pord g gw fuel targets limit dim s0 = Some st /\
  made_plan fuel g cs (s_plan st) /\ waiting (s_q st) l /\ sublist l es /\ Forall2 (fun e x => exists i, e = getEdge (ntypes g) i 0 /\ nth_error (edges0 p) i = Some x) l xs /\
  ((exists x, In x xs /\ forall v, ~ unsent own r p cs x v) -> selectDisconnected val ord pord g gw fuel con minCon dim st = None) /\
  ((forall x, In x xs -> exists v, unsent own r p cs x v) -> exists st' m, selectDisconnected val ord pord g gw fuel con minCon dim st = Some st' /\
     second_pass (length ps) own r p con minCon cs cs xs m /\ made_plan fuel g (cs ++ m) (s_plan st') /\ s_w st' = s_w st).
Proof.
  assert (HTG : forall d, chas targets d = true -> d <> (-1)%Z) by (intros d Hd; destruct (H_tgt d Hd); lia).
  assert (HDM : match dim with Some t => tok T t | None => True end) by exact Hdim.
  assert (HEP : forall h t e, loc p h -> tok T t -> In e (il' t h) -> (0 <= ew' e)%Q) by (intros; eapply s_epos; eauto).
  assert (HVP : forall h, loc p h -> (0 <= vw' h)%Q) by (intros; eapply s_vpos; eauto).
  assert (HBB : forall d vs, NoDup vs -> length vs <= 11 -> (forall v, In v vs -> loc p v) -> (0 <= gain il' res' ew' vw' dim d vs <= 11 * M)%Q).
  { intros d vs _ L HL. apply (gain_bound il' res' ew' vw' (loc p) (tok T) dim HDM HEP HVP d vs M HL); auto; [intros v Hv; apply t_load; auto|apply H_M]. }
  destruct (selection_ok val g gw fuel ord pord il' t_pn t_ow res' ew' vw' (loc p) (tok T) t_eok (fun h t => s_il own V T ps r p g fuel HD Hp HB HF h t) (fun h t e d => s_res own V T ps r p g HD Hp HB h t e d)
    (fun h t e => s_ew val own V T ps r p g HD Hp HB h t e) (fun h => s_vw val own V T ps r p g gw HD Hp HB h) t_loc HT t_heok t_hpn t_how t_mine H_ord targets limit dim (11 * M)%Q p0 es HTG HDM H_es
    (ex_intro _ [] t_plan) (proj1 (proj2 t_plan)) HBB q H_q (proj2 H_cap) ltac:(rewrite <- (proj1 H_cap); apply H_cap) (fun e He => t_small e (H_es e He))) as (s0 & st & A & cs & l & E0 & E1 & HSel & HSub & HEx).
  specialize (HEx H_nd). pose proof HSel as (_ & HL & HQw & HE & _). pose proof HL as (HPl & HCs & HG & _).
  assert (HOk : forall o, In o cs -> op_ok g o). { intros o Ho. destruct (HG o Ho) as (e & v & d & -> & He & Hv & Ht). destruct (t_cavity e v (H_es e He) Hv) as (i & x & u & k & -> & Hx & Hu & -> & Hl & _). unfold lid_of. split; [|now apply HTG]. unfold getVertex. rewrite t_nlv. replace (k + 1 - 1) with k by lia. apply nth_error_Some. congruence. }
  assert (HXS : exists xs, Forall2 (fun e x => exists i, e = getEdge (ntypes g) i 0 /\ nth_error (edges0 p) i = Some x) l xs).
  { clear - HE H_es. induction l as [|e l IH]; [exists []; constructor|]. destruct IH as (xs & Hxs); [intros; apply HE; right; auto|]. destruct (H_es e (HE e (or_introl eq_refl))) as (i & x & Hx & ->). exists (x :: xs). constructor; auto. exists i. auto. }
  destruct HXS as (xs & HXS). exists s0, st, cs, l, xs. split; auto. split; auto. split; [exists p0; auto|]. split; auto. split; auto. split; auto.
  assert (HCut : forall e, In e l -> exists u, In u (t_pn e) /\ t_ow u <> self g).
  { intros e He. destruct (H_es e (HE e He)) as (i & x & Hx & ->). destruct (H_cut i x Hx (HE _ He)) as (v & Hv & Nv). destruct (t_pin i x v Hx Hv) as (k & Hk & Ek & Eo & _). exists (getVertex k). split; [unfold t_pn; rewrite (t_pins i x Hx); apply in_map_iff; exists v; split; auto; rewrite Ek; unfold getVertex; lia|]. unfold t_ow. rewrite Eo, t_self. lia. }
  destruct (disconnected_ok val g gw fuel ord pord il' t_pn t_ow res' ew' vw' (loc p) (tok T) t_eok (fun h t => s_il own V T ps r p g fuel HD Hp HB HF h t) (fun h t e d => s_res own V T ps r p g HD Hp HB h t e d)
    (fun h t e => s_ew val own V T ps r p g HD Hp HB h t e) (fun h => s_vw val own V T ps r p g gw HD Hp HB h) t_loc HT t_heok t_hpn t_how t_mine H_ord targets dim (11 * M)%Q p0 es HTG HDM H_es
    (ex_intro _ [] t_plan) (proj1 (proj2 t_plan)) H_pord con minCon t_aj t_hadj t_nz ltac:(lia)) with (A := A) (cs := cs) (l := l) (st := st) as (D1 & D2); auto.
  { intros e v He Hv. destruct (t_inpn e v He Hv) as (_ & _ & u & _ & _ & _ & _ & _ & _ & _ & Eo & _). unfold t_ow. rewrite Eo. lia. }
  { intros e v He Hv Ho _. destruct (t_inpn e v He Hv) as (i & x & u & k & -> & Hx & Hu & -> & _ & _ & Eo & D). unfold t_ow in Ho. rewrite Eo, t_self in Ho. apply (t_il k u); [apply D; lia|]. eauto. }
  split.
  - intros (x & Ix & Hn). apply D1. apply In_nth_error in Ix as (k & Hk). destruct (Forall2_nth_r _ _ _ _ _ _ _ HXS Hk) as (e & He & i & -> & Hx). exists (getEdge (ntypes g) i 0). split; [eapply nth_error_In; eauto|].
    destruct (left_of g t_pn t_ow st (getEdge (ntypes g) i 0)) as [|h t] eqn:El; auto. exfalso. assert (I : In h (left_of g t_pn t_ow st (getEdge (ntypes g) i 0))) by (rewrite El; left; auto). apply (t_left st cs HOk HCs i x h Hx) in I as (_ & v & _ & _ & Hv). now apply (Hn v).
  - intros Hall. destruct D2 as (st' & m & F1 & F2 & F3 & _ & F4).
    + intros e He El. apply In_nth_error in He as (k & Hk). destruct (Forall2_nth_l _ _ _ _ _ _ _ HXS Hk) as (x & Hx' & i & -> & Hx). destruct (Hall x (nth_error_In _ _ Hx')) as (v & Hv). destruct (t_mycav i x v Hx (proj1 Hv) (proj1 (proj2 Hv))) as (j & Hj & _). assert (I : In (getVertex j) (left_of g t_pn t_ow st (getEdge (ntypes g) i 0))) by (apply (t_left st cs HOk HCs i x _ Hx); eauto). rewrite El in I. destruct I.
    + exists st', m. split; auto. split; [eapply (t_pass st cs HOk HCs); eauto|]. split; auto. exists p0. auto.
Qed.
End C43.
Print Assumptions C43_select.
Print Assumptions C43_disconnected.

(** *** concrete cases *)
(** the plan built on part r, by vertex: the sets are traversed in the order of insertion *)
Definition select_run (val : Z -> Q) (fuel : nat) (r : nat) (p : pdesc) (targets : cont Q) (limit : Q) (dim : option nat) : option (graph * sel) :=
  g <- build_part (Z.of_nat r) true (pd_verts p) (pd_vws p) (pd_tys p) (pd_owns p) ;; p0 <- plan_new g fuel ;; q <- createIterationQueue g fuel ;;
  s0 <- new_selector g fuel q p0 ;; st <- select_sizes val (fun c => c) (fun m => m) g None fuel targets limit dim s0 ;; Some (g, st).
Definition plan_of (x : graph * sel) : option (list (Z * Z)) := mapM (fun h => v <- vgid (fst x) h ;; d <- plan_get (fst x) (s_plan (snd x)) h ;; Some (v, d)) (pl_sending (s_plan (snd x))).
(** part 0 of the example of migration sends to part 1, whose target is 7: vertex 2 (weight 6), then vertex 1 (weight 5), which overshoots the target by less than one cavity *)
Definition c43_targets : cont Q := mkC [(1%Z, 7%Q)] 7%Q.
Definition c43_p : pdesc := hd (mkPD [] [] [] [] []) ex_ps.
Example C43_example : exists g p0 q st, build_part 0 true (pd_verts c43_p) (pd_vws c43_p) (pd_tys c43_p) (pd_owns c43_p) = Some g /\ plan_new g 200 = Some p0 /\ createIterationQueue g 200 = Some q /\
  distributed ex_own ex_V [ex_E] ex_ps /\ big_enough 200 ex_V [ex_E] /\ weights_pos inject_Z ex_V [ex_E] /\ waiting q [getEdge 1 1 0; getEdge 1 2 0] /\ capacity q = length (sa_cur q) /\ 2 <= capacity q /\
  (forall d, chas c43_targets d = true -> (0 <= d < Z.of_nat (length ex_ps))%Z /\ d <> Z.of_nat 0) /\ NoDup (map fst (c_d c43_targets)) /\
  (forall x, In x (edges0 c43_p) -> length (on_part ex_own 0 x) < 100) /\ (forall v, In v (pd_verts c43_p) -> (vertex_load inject_Z c43_p None v <= 6)%Q) /\
  select_run inject_Z 200 0 c43_p c43_targets 0%Q None = Some (g, st) /\ plan_of (g, st) = Some [(2, 1); (1, 1)]%Z.
Proof.
  destruct (build_part 0 true (pd_verts c43_p) (pd_vws c43_p) (pd_tys c43_p) (pd_owns c43_p)) as [g|] eqn:E; [|vm_compute in E; discriminate]. destruct (plan_new g 200) as [p0|] eqn:E0; [|vm_compute in E; inversion E; subst g; vm_compute in E0; discriminate].
  destruct (createIterationQueue g 200) as [q|] eqn:E1; [|vm_compute in E; inversion E; subst g; vm_compute in E1; discriminate]. destruct (select_run inject_Z 200 0 c43_p c43_targets 0%Q None) as [[g' st]|] eqn:E2; [|vm_compute in E2; discriminate].
  exists g, p0, q, st. split; auto. split; auto. split; auto. split; [apply distributedb_ok; vm_compute; reflexivity|]. split; [split; [cbn; lia|]; intros e [<-|[]]; vm_compute; lia|].
  split. { split; [intros v Hv; cbn in Hv; intuition (subst v; vm_compute; intros X; discriminate X)|]. intros E3 e [<-|[]] He. cbn in He. intuition (subst e; vm_compute; intros X; discriminate X). }
  vm_compute in E. inversion E; subst g. vm_compute in E1. inversion E1; subst q. vm_compute in E2. inversion E2; subst g' st. split. { split; [reflexivity|]. intros i Hi. cbn in Hi. destruct i as [|[|i]]; [reflexivity..|lia]. } split; [reflexivity|]. split; [cbn; lia|].
  split. { intros d. unfold chas, c43_targets. cbn [c_d zfind]. destruct (Z.eqb_spec d 1) as [->|]; [intros _; cbn; lia|discriminate]. } split; [repeat constructor; intros []|].
  split. { intros x Hx. cbn in Hx. intuition (subst x; vm_compute; lia). } split. { intros v Hv. cbn in Hv. intuition (subst v; vm_compute; intros X; discriminate X). } split; vm_compute; reflexivity.
Qed.

(** the second pass on the same part, when the first has no target: with threshold 2, vertex 2 leaves and vertex 1 stays, since it meets vertex 4, of part 1, twice; with threshold 3 both leave *)
Definition second_run (minCon : nat) : option (list (Z * Z)) :=
  '(g, st) <- select_run inject_Z 200 0 c43_p (mkC [] 0%Q) 0%Q None ;; st' <- selectDisconnected inject_Z (fun c => c) (fun m => m) g None 200 0 minCon None st ;; plan_of (g, st').
Example C43_second_example : second_run 2 = Some [(2, 1)]%Z /\ second_run 3 = Some [(2, 1); (1, 1)]%Z /\
  tied c43_p 0 2 1 4 /\ ~ tied c43_p 0 2 2 4 /\ NoDup [getEdge 1 1 0; getEdge 1 2 0] /\ (forall d, chas (mkC ([] : zmap Q) 0%Q) d = true -> (0 <= d < Z.of_nat (length ex_ps))%Z /\ d <> Z.of_nat 0) /\
  (forall i x, nth_error (edges0 c43_p) i = Some x -> In (getEdge 1 i 0) [getEdge 1 1 0; getEdge 1 2 0] -> exists v, In v (snd x) /\ ex_own v <> 0) /\
  (forall x, In x (tl (edges0 c43_p)) -> exists v, unsent ex_own 0 c43_p [] x v).
Proof.
  split; [vm_compute; reflexivity|]. split; [vm_compute; reflexivity|]. split; [split; [discriminate|vm_compute; lia]|]. split; [intros (_ & X); vm_compute in X; lia|]. split; [repeat constructor; cbn; lia|]. split; [intros d X; discriminate X|]. split.
  - intros i x Hx Hi. destruct i as [|[|[|i]]]; cbn in Hx; [cbn in Hi; lia|inversion Hx; subst; exists 3%Z; cbn; split; auto..|destruct i; discriminate].
  - intros x Hx. cbn in Hx. destruct Hx as [<-|[<-|[]]]; [exists 2%Z|exists 1%Z]; (split; [cbn; auto|split; [reflexivity|]]; intros (l & _ & X); now apply X).
Qed.

(** *** The weight planned for a part is not bounded by its target: a vertex that was planned for a full part and is met again on another edge is planned
    anew for another part, and its weight is not counted there.  Thirteen vertices of weight 1 end up planned for part 2, whose target is 1. *)
Definition c43_ids (n : nat) : list Z := map (fun i => Z.of_nat (i + 1)) (seq 0 n).
Definition c43_over (n : nat) : pdesc :=
  mkPD (c43_ids n) (repeat 1%Z n) [(map (fun v => (100 + v, [v; 50])%Z) (c43_ids n) ++ map (fun v => (200 + v, [v; 60])%Z) (c43_ids n), repeat 1%Z (n + n))] [(50, 1); (60, 2)]%Z (repeat 0%Z n).
Theorem C43_overshoot_refuted : (x <- select_run inject_Z 200 0 (c43_over 13) (mkC [(1%Z, 13%Q); (2%Z, 1%Q)] 14%Q) 0%Q None ;; plan_of x) = Some (map (fun v => (v, 2%Z)) (c43_ids 13)).
Proof. vm_compute. reflexivity. Qed.
(** *** selectDisconnected reads the first of no peers when the vertices of a queued edge have all been planned by select *)
Theorem C43_empty_peers_refuted : exists g st, select_run inject_Z 200 0 (c43_over 1) (mkC [(1%Z, 1%Q)] 1%Q) 0%Q None = Some (g, st) /\ plan_of (g, st) = Some [(1, 1)]%Z /\
  selectDisconnected inject_Z (fun c => c) (fun m => m) g None 200 0 2 None st = None.
Proof. destruct (select_run inject_Z 200 0 (c43_over 1) (mkC [(1%Z, 1%Q)] 1%Q) 0%Q None) as [[g st]|] eqn:E; [|vm_compute in E; discriminate]. exists g, st. split; auto. vm_compute in E. inversion E; subst g st. split; vm_compute; reflexivity. Qed.
(** *** the constructor counts the cavities by size in an array of a hundred cells: an edge with a hundred vertices of the part overruns it *)
Definition c43_big (n : nat) : pdesc := mkPD (c43_ids n) [] [([(1%Z, 0%Z :: c43_ids n)], [])] [(0, 1)]%Z (repeat 0%Z n).
Definition c43_constructor (p : pdesc) : option (option sel) :=
  g <- build_part 0 true (pd_verts p) (pd_vws p) (pd_tys p) (pd_owns p) ;; p0 <- plan_new g 200 ;; q <- createIterationQueue g 200 ;; Some (new_selector g 200 q p0).
Theorem C43_cavity_size_refuted : c43_constructor (c43_big 100) = Some None /\ option_map (fun s => match s with Some _ => true | None => false end) (c43_constructor (c43_big 99)) = Some true.
Proof. split; vm_compute; reflexivity. Qed.
Print Assumptions C43_overshoot_refuted.
Print Assumptions C43_empty_peers_refuted.
Print Assumptions C43_cavity_size_refuted.
