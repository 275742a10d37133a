(** C63: writeVTK. *)
From Verif Require Import Base GraphModel CsrProofs ConstructProofs GraphSpec AccessProofs GraphTop GraphTop2 Comm TagModel TagProps MigrateModel MigrateProofs1 GraphIOProps VtkModel VtkSpec VtkProofs.
From Coq Require Import QArith.
Local Open Scope nat_scope.

(** ** file names *)
Lemma digits_le k : forall f n, n < 10 ^ k -> 1 <= k -> digits f n <= k.
Proof.
  induction k as [|k IH]; intros [|f] n H L; try lia; cbn [digits]; [lia|]. destruct (Nat.ltb_spec n 10); [lia|].
  destruct k as [|k]; [cbn in H; lia|]. assert (n / 10 < 10 ^ S k) by (apply Nat.div_lt_upper_bound; [lia|]; rewrite (Nat.pow_succ_r' 10 (S k)) in H; lia). specialize (IH f (n / 10) H1 ltac:(lia)). lia.
Qed.
Lemma names_fit prefix peers k : peers <= 10 ^ k -> 1 <= k -> prefix + k + 5 <= 256 -> forall r, r < peers -> name_fits prefix r = true.
Proof. intros H L F r Hr. unfold name_fits. apply Nat.leb_le. pose proof (digits_le k r r ltac:(lia) L). lia. Qed.

(** ** the call on all parts *)
(** every part passes its graph, the coordinates of its vertices and its tag; the tag is NULL on all parts or on none *)
Definition calls (hg : bool) (crd : Z -> Z) (t : etype) (ps : list part_in) (gs : list graph) (st : list vpart) : Prop :=
  length st = length ps /\ (forall r s, nth_error st r = Some s -> exists p g es ws, nth_error ps r = Some p /\ nth_error gs r = Some g /\ v_g s = g /\ v_cs s = map crd (in_verts p) /\
     nth_error (in_tys p) 0 = Some (es, ws) /\ tag_filled hg (length (in_verts p)) (length es) (v_tag s) t) /\
  (forall s s', In s st -> In s' st -> v_tag s = None -> v_tag s' = None).
Definition enough (fuel : nat) (ps : list part_in) : Prop := forall p, In p ps -> length (in_verts p) < fuel /\ length (ghosts_of (in_verts p) (in_tys p)) < fuel /\
  forall es ws, In (es, ws) (in_tys p) -> length es < fuel /\ forall e, In e es -> length (snd e) < fuel.

Section X.
Variables (hg : bool) (ps : list part_in) (gs : list graph).
Hypothesis HB : built hg ps gs.
Hypothesis HO : owners_correct ps.
Variables (xyz : Z -> Q * Q * Q) (crd : Z -> Z) (t : etype) (st : list vpart) (fuel prefix : nat).
Hypothesis HCall : calls hg crd t ps gs st.
Hypothesis HF : enough fuel ps.

Lemma ghost_away r p v : nth_error ps r = Some p -> In v (ghosts_of (in_verts p) (in_tys p)) -> part_of (Z.of_nat r) (in_verts p) (in_owns p) v <> Z.of_nat r.
Proof.
  intros Hp Hv E. destruct (ghost_owner hg ps gs HB HO r p v Hp Hv) as (q & p' & g' & l & E1 & Hp' & _ & Hl & _). assert (q = r) by lia. subst q. assert (p' = p) by congruence. subst p'.
  destruct (nth_graph hg ps gs HB r p Hp) as (g & Hg). destruct HB as (_ & B). destruct (B r p g Hp Hg) as (HV & Hb). destruct (part_rep _ _ _ _ _ _ _ HV Hb) as (R & _). pose proof (rp_nd _ _ _ _ _ R) as ND.
  apply NoDup_app_iff in ND as (_ & _ & ND). apply (ND v); auto. eapply nth_error_In; eauto.
Qed.
Lemma reqs r p g : nth_error ps r = Some p -> nth_error gs r = Some g ->
  vtk_requests fuel g = Some (map (fun v => (part_of (Z.of_nat r) (in_verts p) (in_owns p) v, v)) (ghosts_of (in_verts p) (in_tys p))).
Proof.
  intros Hp Hg. rewrite <- (requests_spec hg ps gs HB fuel r p g Hp Hg) by (apply (HF p); eapply nth_error_In; eauto).
  unfold vtk_requests, ghost_requests. destruct (all_ghosts g fuel) as [hs|]; [|reflexivity]. cbn [obind]. induction hs as [|h hs IH]; [reflexivity|]. cbn [mapM]. rewrite IH. destruct (owner g h), (vgid g h); reflexivity.
Qed.
Definition wants (i p : nat) (v : Z) : Prop := exists pi, nth_error ps i = Some pi /\ In v (ghosts_of (in_verts pi) (in_tys pi)) /\ part_of (Z.of_nat i) (in_verts pi) (in_owns pi) v = Z.of_nat p.

Lemma exchange (Q : list vtu -> Prop) (R : nat -> vtu -> Prop) :
  (forall r s p gcs, nth_error st r = Some s -> nth_error ps r = Some p -> (forall j v, nth_error (ghosts_of (in_verts p) (in_tys p)) j = Some v -> aget gcs j = Some (crd v)) ->
     exists f, write_vtu xyz fuel prefix (v_g s) (v_cs s) gcs (v_tag s) t = Some f /\ R r f) ->
  (forall files, length files = length ps -> (forall r f, nth_error files r = Some f -> R r f) -> Q files) ->
  phase (fun s => vtk_requests fuel (v_g s)) (fun s r => a <- vtk_answers (v_g s) (v_cs s) r ;; Some (s, a)) st (fun st1 =>
  phase (fun s => Some (snd s)) (fun s r => gcs <- vtk_ghosts (v_g (fst s)) r ;; write_vtu xyz fuel prefix (v_g (fst s)) (v_cs (fst s)) gcs (v_tag (fst s)) t) st1 Q).
Proof.
  intros HW HQ. destruct HCall as (LS & HS & _). pose proof HB as (LG & BB).
  apply (phase_intro _ _ _ _ _ _ (fun p sa => nth_error st p = Some (fst sa) /\ forall r v x, In (r, (v, x)) (snd sa) <-> x = crd v /\ exists i, r = Z.of_nat i /\ wants i p v)).
  - intros r s Hs. destruct (HS r s Hs) as (p & g & es & ws & Hp & Hg & -> & _). exists (map (fun v => (part_of (Z.of_nat r) (in_verts p) (in_owns p) v, v)) (ghosts_of (in_verts p) (in_tys p))). split; [now apply reqs|].
    intros m Hm. apply in_map_iff in Hm as (v & <- & Hv). cbn [fst]. destruct (ghost_owner hg ps gs HB HO r p v Hp Hv) as (q & p' & g' & l & -> & _ & _ & _ & Lq). lia.
  - intros sent rcv E D p s r Hs Hr. destruct (HS p s Hs) as (pp & g & es & ws & Hp & Hg & Eg & Ec & _).
    assert (IN : forall x v, In (x, v) r <-> exists i, x = Z.of_nat i /\ wants i p v).
    { intros x v. rewrite (arrived_in _ _ _ _ _ _ _ _ _ _ E D Hr). split.
      - intros (i & si & l & H1 & H2 & H3 & H4). destruct (HS i si H1) as (pi & gi & _ & _ & Hpi & Hgi & Egi & _). rewrite Egi, (reqs i pi gi Hpi Hgi) in H2. injection H2 as <-. apply in_map_iff in H4 as (v' & X & Hv'). injection X as X1 X2. subst v'. exists i. split; auto. exists pi. auto.
      - intros (i & -> & pi & Hpi & Hv & Hw). destruct (nth_error st i) as [si|] eqn:Es. 2:{ apply nth_error_None in Es. assert (i < length ps) by (apply nth_error_Some; congruence). lia. }
        destruct (HS i si Es) as (pi' & gi & _ & _ & Hpi' & Hgi & Egi & _). assert (pi' = pi) by congruence. subst pi'. exists i, si, (map (fun v => (part_of (Z.of_nat i) (in_verts pi) (in_owns pi) v, v)) (ghosts_of (in_verts pi) (in_tys pi))). split; auto. split; [rewrite Egi; now apply reqs|]. split; auto.
        apply in_map_iff. exists v. split; auto. now rewrite Hw. }
    destruct (BB p pp g Hp Hg) as (HV & Hb). pose proof (p_constructed _ _ _ _ _ _ _ HV Hb) as HC.
    assert (EA : vtk_answers (v_g s) (v_cs s) r = Some (map (fun x => (fst x, (snd x, crd (snd x)))) r)).
    { unfold vtk_answers. apply mapM_some. intros (x, v) Hx. cbn [fst snd]. apply IN in Hx as (i & -> & pi & Hpi & Hv & Hw). destruct (ghost_owner hg ps gs HB HO i pi v Hpi Hv) as (q & p' & g' & l & E1 & Hp' & _ & Hl & _). assert (q = p) by lia. subst q. assert (p' = pp) by congruence. subst p'.
      rewrite Eg, Ec. rewrite (c_find _ _ _ _ _ _ HC l v) by (rewrite nth_error_app1; auto; apply nth_error_Some; congruence). cbn [obind]. unfold getVertex. rewrite Nat.add_1_r. rewrite (vcoord_ok _ _ _ _ _ _ _ HV Hb crd l v Hl). reflexivity. }
    rewrite EA. cbn [obind]. eexists. split; [reflexivity|]. cbn [fst snd]. split; auto. intros x v c. rewrite in_map_iff. split.
    + intros ((x', v') & X & Hx). cbn [fst snd] in X. injection X as -> -> ->. split; auto. now apply IN.
    + intros (-> & X). apply IN in X. exists (x, v). auto.
  - intros st1 L1 H1. apply (phase_intro _ _ _ _ _ _ R).
    + intros p (s, a) Hs. destruct (H1 p _ Hs) as (_ & I). exists a. split; [reflexivity|]. intros (x, (v, c)) Hm. cbn [fst snd] in *. apply I in Hm as (_ & i & -> & pi & Hpi & _). assert (i < length ps) by (apply nth_error_Some; congruence). lia.
    + intros sent rcv E D p (s, a) r Hs Hr. destruct (H1 p _ Hs) as (Hst & _). cbn [fst snd] in *. destruct (HS p s Hst) as (pp & g & es & ws & Hp & Hg & Eg & Ec & _).
      assert (IN : forall x v c, In (x, (v, c)) r <-> c = crd v /\ exists q, x = Z.of_nat q /\ q < length ps /\ wants p q v).
      { intros x v c. rewrite (arrived_in _ _ _ _ _ _ _ _ _ _ E D Hr). split.
        - intros (i & (si, ai) & l & A1 & A2 & A3 & A4). cbn [snd] in A2. injection A2 as <-. destruct (H1 i _ A1) as (_ & I). apply I in A4 as (-> & j & X & W). apply Nat2Z.inj in X. subst j. split; auto. exists i. split; auto. split; auto. rewrite <- LS, <- L1. apply nth_error_Some. congruence.
        - intros (-> & q & -> & Lq & W). destruct (nth_error st1 q) as [(sq, aq)|] eqn:Eq. 2:{ apply nth_error_None in Eq. lia. } destruct (H1 q _ Eq) as (_ & I). exists q, (sq, aq), aq. split; auto. split; auto. split; auto. apply I. split; auto. exists p. auto. }
      destruct (BB p pp g Hp Hg) as (HV & Hb). pose proof (p_constructed _ _ _ _ _ _ _ HV Hb) as HC. destruct (part_rep _ _ _ _ _ _ _ HV Hb) as (RP & _). pose proof (rp_nlv _ _ _ _ _ RP) as NV. pose proof (rp_ngv _ _ _ _ _ RP) as NG.
      assert (B : forall x v c, In (x, (v, c)) r -> c = crd v /\ exists j, nth_error (ghosts_of (in_verts pp) (in_tys pp)) j = Some v /\ j < ngv g /\ findGID g v = Some (S (nlv g + j)) /\ owner g (S (nlv g + j)) <> Some (self g) /\ exists o, owner g (S (nlv g + j)) = Some o).
      { intros x v c I. apply IN in I as (-> & q & -> & _ & pi & Hpi & Hv & _). assert (pi = pp) by congruence. subst pi. split; auto. apply In_nth_error in Hv as (j & Hj). exists j. split; auto.
        assert (Lj : j < ngv g) by (rewrite NG; apply nth_error_Some; congruence). split; auto.
        assert (HA : nth_error (in_verts pp ++ ghosts_of (in_verts pp) (in_tys pp)) (nlv g + j) = Some v). { rewrite NV, nth_error_app2 by lia. rewrite <- Hj. f_equal. lia. }
        pose proof (c_find _ _ _ _ _ _ HC _ _ HA) as F. pose proof (p_owner _ _ _ _ _ _ _ HV Hb _ _ HA) as O. unfold getVertex in F, O. rewrite Nat.add_1_r in F, O. split; auto. rewrite O. split; eauto.
        rewrite (p_self _ _ _ _ _ _ _ HV Hb). intros X. injection X as X. revert X. apply (ghost_away p pp v Hp). eapply nth_error_In; eauto. }
      set (pos := fun v : Z => idx (ghosts_of (in_verts pp) (in_tys pp)) v).
      assert (ND : NoDup (ghosts_of (in_verts pp) (in_tys pp))) by (pose proof (rp_nd _ _ _ _ _ RP) as N; apply NoDup_app_iff in N as (_ & N & _); auto).
      set (wr := map (fun m : Z * (Z * Z) => (pos (fst (snd m)), snd (snd m))) r). destruct (writes_array wr (anew (ngv g))) as (gcs & Et & Lt & Gt).
      { intros w Hw. apply in_map_iff in Hw as ((x, (v, c)) & <- & Hin). cbn [fst snd]. destruct (B x v c Hin) as (_ & j & Hj & Lj & _). rewrite anew_length. unfold pos. rewrite (nth_idx _ _ _ ND Hj). auto. }
      assert (EI : vtk_ghosts (v_g s) r = Some gcs).
      { rewrite <- Et. unfold vtk_ghosts, wr. rewrite Eg, foldM_map_l. apply foldM_ext_in. intros b (x, (v, c)) Hin. cbn [fst snd]. destruct (B x v c Hin) as (_ & j & Hj & Lj & F & ON & o & O). rewrite F. cbn [obind]. rewrite O in *. cbn [obind]. destruct (Z.eqb_spec o (self g)); [congruence|]. cbn [vlid obind]. destruct (Nat.ltb_spec (nlv g + j) (nlv g)); [lia|].
        unfold pos. rewrite (nth_idx _ _ _ ND Hj). f_equal. lia. }
      rewrite EI. cbn [obind]. apply (HW p s pp gcs Hst Hp). intros j v Hj. assert (Lj : j < ngv g) by (rewrite NG; apply nth_error_Some; congruence). rewrite Gt by (rewrite anew_length; auto). rewrite aget_anew. apply (last_unique j wr (crd v)).
      * intros y Hy. apply in_map_iff in Hy as ((x, (v', c)) & X & Hin). cbn [fst snd] in X. injection X as X <-. destruct (B x v' c Hin) as (-> & j' & Hj' & _). unfold pos in X. rewrite (nth_idx _ _ _ ND Hj') in X. subst j'. congruence.
      * destruct (ghost_owner hg ps gs HB HO p pp v Hp (nth_error_In _ _ Hj)) as (q & p' & g' & l & E1 & Hp' & _ & Hl & _). exists (crd v). apply in_map_iff. exists (Z.of_nat q, (v, crd v)). cbn [fst snd]. split; [unfold pos; now rewrite (nth_idx _ _ _ ND Hj)|].
        apply IN. split; auto. exists q. split; auto. split; [apply nth_error_Some; congruence|]. exists pp. split; auto. split; auto. eapply nth_error_In; eauto.
    + intros files L2 H2. apply HQ; [congruence|auto].
Qed.
End X.

Lemma flat_pairs (l : list (nat * Z)) (f : nat * Z -> nat * nat) : concat (map (fun x => [fst (f x); snd (f x)]) l) = flat_map (fun c : nat * nat => [fst c; snd c]) (map f l).
Proof. induction l as [|x l IH]; [reflexivity|]. cbn. now rewrite IH. Qed.
Lemma inc_here verts es x : In x (local_incidences verts es) -> In (snd x) verts.
Proof.
  unfold local_incidences. intros H. apply in_flat_map in H as (y & _ & H). apply in_map_iff in H as (v & <- & Hv). apply filter_In in Hv as (_ & Hv). cbn [snd]. unfold here in Hv. destruct (in_dec Z.eq_dec v verts); [auto|discriminate].
Qed.
Lemma pvtu_names hg me nv ne tag t d (g : graph) : hyper g = hg -> data_right me hg nv ne tag t d ->
  map fst d = APart :: (if hyper g then [AVorE] else []) ++ (if shows_tag g tag t then [ATag] else []).
Proof.
  intros HH (tg & -> & T). cbn [map fst]. f_equal. rewrite HH. rewrite map_app. f_equal; [destruct hg; reflexivity|]. unfold shown_tag in T. unfold shows_tag. rewrite HH.
  destruct tag as [a|]; [|subst tg; reflexivity]. destruct t as [| |k]; [subst tg; reflexivity|destruct T as (l & -> & _); reflexivity|]. destruct hg; [destruct T as (l & -> & _); reflexivity|subst tg; reflexivity].
Qed.

(** the index file: nothing without parts, else one piece per part and exactly the arrays of the pieces *)
Definition index_right (ps : list part_in) (files : list vtu) (pf : option pvtu) : Prop :=
  ps = [] /\ pf = None \/ exists P, pf = Some P /\ p_pieces P = seq 0 (length ps) /\ forall f, In f files -> map fst (f_data f) = p_data P.
Lemma index_ok hg crd t ps gs st prefix files (Q : Prop) : built hg ps gs -> calls hg crd t ps gs st -> (forall r, r < length ps -> name_fits prefix r = true) -> prefix + 6 <= 256 ->
  (forall r f, nth_error files r = Some f -> exists s nv ne, nth_error st r = Some s /\ data_right (Z.of_nat r) hg nv ne (v_tag s) t (f_data f)) -> Q ->
  match st with
  | s0 :: _ => exists pf, write_pvtu (length st) prefix (v_g s0) (v_tag s0) t = Some pf /\ (Q /\ index_right ps files (Some pf))
  | [] => Q /\ index_right ps files None
  end.
Proof.
  intros HB (LS & HS & HT) HN HN2 HD HQ. pose proof HB as (LG & BB). destruct st as [|s0 st'] eqn:Est.
  - split; auto. left. split; auto. destruct ps; [reflexivity|discriminate].
  - rewrite <- Est in *. unfold write_pvtu. assert (FB : forallb (name_fits prefix) (seq 0 (length st)) = true) by (apply forallb_forall; intros x Hx; apply in_seq in Hx; apply HN; lia).
    rewrite FB. destruct (Nat.leb_spec (prefix + 6) 256); [|lia]. cbn [andb]. eexists. split; [reflexivity|]. split; auto. right. eexists. split; [reflexivity|]. cbn [p_pieces p_data]. split; [now rewrite LS|].
    intros f Hf. apply In_nth_error in Hf as (r & Hf). destruct (HD r f Hf) as (s & nv & ne & A4 & D). destruct (HS r s A4) as (p & g & es & ws & A1 & A2 & A5 & _). destruct (BB r p g A1 A2) as (HV & Hb).
    rewrite (pvtu_names _ _ _ _ _ _ _ g (p_hyper _ _ _ _ _ _ _ HV Hb) D). assert (H0 : nth_error st 0 = Some s0) by (rewrite Est; reflexivity). destruct (HS 0 s0 H0) as (p0 & g0 & es0 & ws0 & C1 & C2 & C3 & _). destruct (BB 0 p0 g0 C1 C2) as (HV0 & Hb0).
    rewrite (p_hyper _ _ _ _ _ _ _ HV Hb), C3, (p_hyper _ _ _ _ _ _ _ HV0 Hb0). f_equal. f_equal. unfold shows_tag. rewrite (p_hyper _ _ _ _ _ _ _ HV Hb), (p_hyper _ _ _ _ _ _ _ HV0 Hb0).
    pose proof (HT s s0 (nth_error_In _ _ A4) (nth_error_In _ _ H0)) as T1. pose proof (HT s0 s (nth_error_In _ _ H0) (nth_error_In _ _ A4)) as T2. destruct (v_tag s), (v_tag s0); try reflexivity; [discriminate (T2 eq_refl)|discriminate (T1 eq_refl)].
Qed.

(** For every hypergraph distributed over the parts, coordinates, tag and arrival order of the messages: every part writes its file, part 0 writes
    the index, which lists one piece per part and declares exactly the arrays of the pieces. *)
Theorem C63_hypergraph : forall xyz crd ps gs st t fuel prefix,
  built true ps gs -> owners_correct ps -> calls true crd t ps gs st -> enough fuel ps -> (forall r, r < length ps -> name_fits prefix r = true) -> prefix + 6 <= 256 ->
  writeVTK xyz fuel prefix t st (fun files pf =>
    (length files = length ps /\
     forall r p es ws s f, nth_error ps r = Some p -> nth_error (in_tys p) 0 = Some (es, ws) -> nth_error st r = Some s -> nth_error files r = Some f ->
       hyper_file xyz crd (Z.of_nat r) (in_verts p) es (v_tag s) t f) /\ index_right ps files pf).
Proof.
  intros xyz crd ps gs st t fuel prefix HB HO HCall HF HN HN2. unfold writeVTK. pose proof HCall as (LS & HS & HT). pose proof HB as (LG & BB).
  set (Rf := fun r f => exists p g es ws s, nth_error ps r = Some p /\ nth_error gs r = Some g /\ nth_error (in_tys p) 0 = Some (es, ws) /\ nth_error st r = Some s /\ v_g s = g /\ hyper_file xyz crd (Z.of_nat r) (in_verts p) es (v_tag s) t f).
  apply (exchange true ps gs HB HO xyz crd t st fuel prefix HCall HF _ Rf).
  - intros r s p gcs Hs Hp HG. destruct (HS r s Hs) as (p' & g & es & ws & Hp' & Hg & Eg & Ec & Ht & TF). assert (p' = p) by congruence. subst p'. destruct (BB r p g Hp Hg) as (HV & Hb). destruct (HF p (nth_error_In _ _ Hp)) as (F1 & F2 & F3). destruct (F3 es ws (nth_error_In _ _ Ht)) as (F4 & F5).
    pose proof (ghost_away true ps gs HB HO r p) as GA. unfold write_vtu. rewrite Eg, Ec. rewrite (p_self _ _ _ _ _ _ _ HV Hb), Nat2Z.id. rewrite HN by (apply nth_error_Some; congruence).
    rewrite (numcells_ok _ _ _ _ _ _ _ HV Hb (fun v => GA v Hp) es ws Ht eq_refl fuel F4 F5). cbn [obind]. rewrite (num_seen _ _ _ _ _ _ _ HV Hb 0 es ws Ht). cbn [obind].
    destruct (points_hyper _ _ _ _ _ _ _ HV Hb (fun v => GA v Hp) es ws Ht xyz crd gcs HG fuel eq_refl F1 F4 F5) as (l & El & Fl). rewrite El. cbn [obind].
    rewrite (cells_ok _ _ _ _ _ _ _ HV Hb (fun v => GA v Hp) es ws Ht eq_refl fuel F4 F5). cbn [obind].
    destruct (data_ok _ _ _ _ _ _ _ HV Hb fuel (v_tag s) t es ws Ht F1 F4 TF) as (d & Ed & Dd). rewrite Ed. cbn [obind]. rewrite (p_hyper _ _ _ _ _ _ _ HV Hb).
    eexists. split; [reflexivity|]. exists p, g, es, ws, s. do 5 (split; auto). destruct (part_rep _ _ _ _ _ _ _ HV Hb) as (RP & _). rewrite (rp_nlv _ _ _ _ _ RP). split; [reflexivity|]. cbn [f_points f_npoints f_ncells f_data]. split; auto. split; auto.
    set (ls := local_incidences (in_verts p) es). exists (map (fun x => (length (in_verts p) + fst x, idx (in_verts p) (snd x))) ls). split.
    + unfold lines_of. cbn [f_conn f_ncells f_offsets f_types]. rewrite map_length. split; [|auto]. apply (flat_pairs ls (fun x => (length (in_verts p) + fst x, idx (in_verts p) (snd x)))).
    + assert (IH : forall x, In x ls -> In (snd x) (in_verts p)) by (intros x; apply inc_here). clearbody ls. clear - IH. induction ls as [|x ls IHl]; constructor; [|apply IHl; intros; apply IH; right; auto]. cbn [fst snd]. split; auto. apply idx_nth. apply IH. left; auto.
  - intros files LF HR. assert (BODY : length files = length ps /\ (forall r p es ws s f, nth_error ps r = Some p -> nth_error (in_tys p) 0 = Some (es, ws) -> nth_error st r = Some s -> nth_error files r = Some f -> hyper_file xyz crd (Z.of_nat r) (in_verts p) es (v_tag s) t f)).
    { split; auto. intros r p es ws s f Hp Ht Hs Hf. destruct (HR r f Hf) as (p' & g & es' & ws' & s' & A1 & A2 & A3 & A4 & A5 & A6). congruence. }
    apply (index_ok true crd t ps gs st prefix files _ HB HCall HN HN2); auto. intros r f Hf. destruct (HR r f Hf) as (p & g & es & ws & s & A1 & A2 & A3 & A4 & A5 & (_ & _ & _ & D)). exists s, (length (in_verts p)), (length es). auto.
Qed.
Print Assumptions C63_hypergraph.

(** Such a file is readable: the arrays have the announced lengths and every line joins points that exist. *)
Lemma conn_len (cells : list (nat * nat)) : length (flat_map (fun c => [fst c; snd c]) cells) = 2 * length cells.
Proof. induction cells as [|c l IH]; [reflexivity|]. cbn [flat_map app length]. rewrite IH. lia. Qed.
Lemma data_len me hg nv ne tag t d a : data_right me hg nv ne tag t d -> tag_filled hg nv ne tag t -> In a d -> length (snd a) = nv + if hg then ne else 0.
Proof.
  intros (tg & -> & T) HT Ha. destruct Ha as [<-|Ha]; [cbn [snd]; apply repeat_length|]. apply in_app_or in Ha as [Ha|Ha].
  - destruct hg; [|destruct Ha]. destruct Ha as [<-|[]]. cbn [snd]. rewrite app_length, !repeat_length. reflexivity.
  - unfold shown_tag in T. unfold tag_filled in HT. destruct tag as [x|]; [|subst tg; destruct Ha]. destruct t as [| |k]; [subst tg; destruct Ha| |].
    + destruct T as (l & -> & E). destruct Ha as [<-|[]]. cbn [snd]. apply (f_equal (@length _)) in E. rewrite map_length, app_length, repeat_length in E. rewrite E. destruct HT as (-> & _). reflexivity.
    + destruct hg; [|subst tg; destruct Ha]. destruct T as (l & -> & E). destruct Ha as [<-|[]]. cbn [snd]. apply (f_equal (@length _)) in E. rewrite map_length, app_length, repeat_length in E. rewrite E. destruct k; [destruct (HT eq_refl) as (-> & _); reflexivity|rewrite repeat_length; reflexivity].
Qed.
Theorem C63_readable : forall xyz crd me verts es tag t f, hyper_file xyz crd me verts es tag t f -> tag_filled true (length verts) (length es) tag t -> readable f.
Proof.
  intros xyz crd me verts es tag t f (NP & PT & (cells & (C1 & C2 & C3 & C4) & CF) & D) HT. unfold readable. split; [|split; [|split; [|split; [|split]]]].
  - apply Forall2_len in PT. rewrite PT, app_length, !map_length. auto.
  - rewrite C3, map_length, seq_length. auto.
  - rewrite C4, repeat_length. auto.
  - rewrite C1, conn_len, C2. reflexivity.
  - intros i Hi. rewrite C1 in Hi. apply in_flat_map in Hi as (c & Hc & Hi). apply In_nth_error in Hc as (k & Hc). destruct (Forall2_nth_l _ _ _ _ _ _ _ CF Hc) as (x & Hx & E1 & E2). rewrite NP.
    assert (L1 : snd c < length verts) by (apply nth_error_Some; congruence). assert (L2 : fst x < length es).
    { apply nth_error_In in Hx. unfold local_incidences in Hx. apply in_flat_map in Hx as ((i0, e) & Hy & Hx). apply in_map_iff in Hx as (v & <- & _). apply in_combine_l in Hy. apply in_seq in Hy. cbn [fst] in *. lia. }
    destruct Hi as [<-|[<-|[]]]; lia.
  - intros a Ha. rewrite (data_len _ _ _ _ _ _ _ a D HT Ha). auto.
Qed.
Print Assumptions C63_readable.

(** Traditional graphs: the same, with one point per vertex of the part only. *)
Theorem C63_traditional : forall xyz crd ps gs st t fuel prefix,
  built false ps gs -> owners_correct ps -> calls false crd t ps gs st -> enough fuel ps -> (forall r, r < length ps -> name_fits prefix r = true) -> prefix + 6 <= 256 ->
  (forall p es ws, In p ps -> In (es, ws) (in_tys p) -> local_sources (in_verts p) es) ->
  writeVTK xyz fuel prefix t st (fun files pf =>
    (length files = length ps /\
     forall r p es ws s f, nth_error ps r = Some p -> nth_error (in_tys p) 0 = Some (es, ws) -> nth_error st r = Some s -> nth_error files r = Some f ->
       trad_file xyz crd (Z.of_nat r) (in_verts p) (ghosts_of (in_verts p) (in_tys p)) (csr_order (in_verts p) es) (v_tag s) t f) /\ index_right ps files pf).
Proof.
  intros xyz crd ps gs st t fuel prefix HB HO HCall HF HN HN2 HL. unfold writeVTK. pose proof HCall as (LS & HS & HT). pose proof HB as (LG & BB).
  set (Rf := fun r f => exists p g es ws s, nth_error ps r = Some p /\ nth_error gs r = Some g /\ nth_error (in_tys p) 0 = Some (es, ws) /\ nth_error st r = Some s /\ v_g s = g /\ trad_file xyz crd (Z.of_nat r) (in_verts p) (ghosts_of (in_verts p) (in_tys p)) (csr_order (in_verts p) es) (v_tag s) t f).
  apply (exchange false ps gs HB HO xyz crd t st fuel prefix HCall HF _ Rf).
  - intros r s p gcs Hs Hp HG. destruct (HS r s Hs) as (p' & g & es & ws & Hp' & Hg & Eg & Ec & Ht & TF). assert (p' = p) by congruence. subst p'. destruct (BB r p g Hp Hg) as (HV & Hb). destruct (HF p (nth_error_In _ _ Hp)) as (F1 & F2 & F3). destruct (F3 es ws (nth_error_In _ _ Ht)) as (F4 & F5).
    pose proof (HL p es ws (nth_error_In _ _ Hp) (nth_error_In _ _ Ht)) as LSrc. unfold write_vtu. rewrite Eg, Ec. rewrite (p_self _ _ _ _ _ _ _ HV Hb), Nat2Z.id. rewrite HN by (apply nth_error_Some; congruence).
    unfold getNumCells. rewrite (p_hyper _ _ _ _ _ _ _ HV Hb). rewrite (num_seen _ _ _ _ _ _ _ HV Hb 0 es ws Ht). cbn [obind].
    rewrite (points_trad _ _ _ _ _ _ _ HV Hb xyz crd gcs fuel eq_refl F1). cbn [obind].
    rewrite (cells_trad _ _ _ _ _ _ _ HV Hb es ws Ht fuel eq_refl LSrc F4). cbn [obind].
    destruct (data_ok _ _ _ _ _ _ _ HV Hb fuel (v_tag s) t es ws Ht F1 F4 TF) as (d & Ed & Dd). rewrite Ed. cbn [obind].
    eexists. split; [reflexivity|]. exists p, g, es, ws, s. do 5 (split; auto). destruct (part_rep _ _ _ _ _ _ _ HV Hb) as (RP & _). rewrite (rp_nlv _ _ _ _ _ RP). pose proof (p_constructed _ _ _ _ _ _ _ HV Hb) as HC. pose proof (stored_len _ _ _ _ _ HC 0 es ws Ht LSrc) as SL.
    split; [cbn [f_npoints]; lia|]. cbn [f_points f_npoints f_ncells f_data]. split; auto. split; [|unfold data_right, shown_tag in *; exact Dd].
    set (all := in_verts p ++ ghosts_of (in_verts p) (in_tys p)) in *. exists (map (fun a => (idx all (fst a), idx all (snd a))) (csr_order (in_verts p) es)). split.
    + unfold lines_of. cbn [f_conn f_ncells f_offsets f_types]. rewrite !map_length. replace (length (csr_order (in_verts p) es)) with (length es) by (symmetry; exact SL). split; [|auto]. clear. induction (csr_order (in_verts p) es) as [|x l IH]; [reflexivity|]. cbn [map concat flat_map fst snd app]. now rewrite IH.
    + assert (IH : forall a, In a (csr_order (in_verts p) es) -> In (fst a) (in_verts p) /\ In (snd a) all).
      { intros a Ha. apply in_flat_map in Ha as (v & Hv & Ha). apply in_map_iff in Ha as (w & <- & Hw). cbn [fst snd]. split; auto. eapply (c_incl _ _ _ _ _ _ HC); eauto. eapply out_dests_in; eauto. }
      revert IH. generalize (csr_order (in_verts p) es). clear. intros l IH. induction l as [|a l IHl]; constructor; [|apply IHl; intros; apply IH; right; auto]. destruct (IH a (or_introl eq_refl)) as (A & B). cbn [fst snd]. split; [|now apply idx_nth]. unfold all. rewrite idx_app by auto. now apply idx_nth.
  - intros files LF HR. apply (index_ok false crd t ps gs st prefix files _ HB HCall HN HN2).
    + intros r f Hf. destruct (HR r f Hf) as (p & g & es & ws & s & A1 & A2 & A3 & A4 & A5 & (_ & _ & _ & D)). exists s, (length (in_verts p)), 0. auto.
    + split; auto. intros r p es ws s f Hp Ht Hs Hf. destruct (HR r f Hf) as (p' & g & es' & ws' & s' & A1 & A2 & A3 & A4 & A5 & A6). congruence.
Qed.
Print Assumptions C63_traditional.
(** Such a file is readable exactly when no arc leaves the part: an arc to a vertex of another part is a line to a point that the file does not have. *)
Theorem C63_traditional_refuted : forall xyz crd me verts ghosts arcs tag t f, trad_file xyz crd me verts ghosts arcs tag t f -> tag_filled false (length verts) 0 tag t -> NoDup (verts ++ ghosts) ->
  (readable f <-> forall a, In a arcs -> In (snd a) verts).
Proof.
  intros xyz crd me verts ghosts arcs tag t f (NP & PT & (cells & (C1 & C2 & C3 & C4) & CF) & D) HT ND. split.
  - intros (_ & _ & _ & _ & R & _) a Ha. apply In_nth_error in Ha as (k & Hk). destruct (Forall2_nth_r _ _ _ _ _ _ _ CF Hk) as (c & Hc & E1 & E2). assert (L : snd c < f_npoints f). { apply R. rewrite C1. apply in_flat_map. exists c. split; [eapply nth_error_In; eauto|cbn; auto]. }
    rewrite NP in L. rewrite nth_error_app1 in E2 by auto. eapply nth_error_In; eauto.
  - intros H. unfold readable. split; [|split; [|split; [|split; [|split]]]].
    + rewrite PT, map_length. auto.
    + rewrite C3, map_length, seq_length. auto.
    + rewrite C4, repeat_length. auto.
    + rewrite C1, conn_len, C2. reflexivity.
    + intros i Hi. rewrite C1 in Hi. apply in_flat_map in Hi as (c & Hc & Hi). apply In_nth_error in Hc as (k & Hc). destruct (Forall2_nth_l _ _ _ _ _ _ _ CF Hc) as (a & Ha & E1 & E2). rewrite NP. assert (L1 : fst c < length verts) by (apply nth_error_Some; congruence).
      assert (L2 : snd c < length verts). { specialize (H a (nth_error_In _ _ Ha)). destruct (Nat.lt_ge_cases (snd c) (length verts)) as [|G]; auto. exfalso. rewrite nth_error_app2 in E2 by auto. apply NoDup_app_iff in ND as (_ & _ & ND). apply (ND (snd a)); auto. eapply nth_error_In; eauto. }
      destruct Hi as [<-|[<-|[]]]; lia.
    + intros a Ha. rewrite (data_len _ _ _ _ _ _ _ a D HT Ha). rewrite NP. lia.
Qed.
Print Assumptions C63_traditional_refuted.

(** The file names must fit into 256 characters: they do for a prefix of up to 251 - k characters on up to 10^k parts, and with 251 characters or more
    no part can write its file. *)
Theorem C63_names : forall prefix peers k, peers <= 10 ^ k -> 1 <= k -> prefix + k + 5 <= 256 -> forall r, r < peers -> name_fits prefix r = true.
Proof. exact names_fit. Qed.
Print Assumptions C63_names.
Theorem C63_prefix_refuted : forall xyz fuel prefix g cs gcs tag t, 251 <= prefix -> write_vtu xyz fuel prefix g cs gcs tag t = None.
Proof.
  intros xyz fuel prefix g cs gcs tag t H. unfold write_vtu, name_fits. assert (D : forall f n, 1 <= digits f n) by (intros [|f] n; cbn [digits]; [lia|destruct (n <? 10); lia]).
  specialize (D (Z.to_nat (self g)) (Z.to_nat (self g))). destruct (Nat.leb_spec (prefix + digits (Z.to_nat (self g)) (Z.to_nat (self g)) + 5) 256); [lia|reflexivity].
Qed.
Print Assumptions C63_prefix_refuted.

(** The hypotheses are met, and what part 0 writes: vertices 10 and 11, edge 100 with pins 10 and 20, edge 101 with pins 11, 21 and 10. *)
Definition vex_xyz (c : Z) : Q * Q * Q := (inject_Z c, 0, 1)%Q.
Definition vex_tag : option (arr Z) := Some [Some 7; Some 8]%Z.
Example C63_hypotheses_met : exists gs f, ex_gs = Some gs /\ built true ex_ps gs /\ owners_correct ex_ps /\
  calls true (fun v => v) VtxType ex_ps gs (map (fun x => mkVP (fst x) (in_verts (snd x)) vex_tag) (combine gs ex_ps)) /\ enough 9 ex_ps /\ (forall r, r < length ex_ps -> name_fits 20 r = true) /\
  (g <- nth_error gs 0 ;; write_vtu vex_xyz 9 20 g [10; 11]%Z [Some 20; Some 21]%Z vex_tag VtxType) = Some f /\
  f_npoints f = 4 /\ f_ncells f = 3 /\ f_conn f = [2; 0; 3; 1; 3; 0] /\ f_offsets f = [2; 4; 6] /\ f_types f = [3; 3; 3] /\
  f_data f = [(APart, [0; 0; 0; 0]); (AVorE, [0; 0; 1; 1]); (ATag, [7; 8; -1; -1])]%Z /\
  Forall2 same_point (f_points f) [Pt 10 0 1; Pt 11 0 1; Pt 15 0 1; Pt 14 0 1].
Proof.
  destruct C14_example as (gs & E & B & O & _). exists gs.
  destruct (g <- nth_error gs 0 ;; write_vtu vex_xyz 9 20 g [10; 11]%Z [Some 20; Some 21]%Z vex_tag VtxType) as [f|] eqn:Ef.
  2:{ vm_compute in E. injection E as <-. vm_compute in Ef. discriminate. }
  exists f. split; auto. split; auto. split; auto. split; [|split; [|split]].
  - pose proof B as (L & _). split; [|split].
    + rewrite map_length, combine_length, L, Nat.min_id. reflexivity.
    + intros r s Hs. rewrite nth_error_map in Hs. destruct (nth_error (combine gs ex_ps) r) as [(g, p)|] eqn:Ec; [|discriminate]. injection Hs as <-. cbn [fst snd].
      assert (X : forall (A1 B1 : Type) (l1 : list A1) (l2 : list B1) k a b, nth_error (combine l1 l2) k = Some (a, b) -> nth_error l1 k = Some a /\ nth_error l2 k = Some b).
      { clear. induction l1 as [|x l1 IH]; intros [|y l2] [|k] a b H; cbn in *; try discriminate; [inversion H; auto|apply IH; auto]. }
      apply X in Ec as (Hg & Hp). destruct r as [|[|r]]; cbn in Hp; try (destruct r; discriminate); injection Hp as <-; eexists; exists g; eexists; eexists; (split; [reflexivity|]); (split; [exact Hg|]); (split; [reflexivity|]); (split; [rewrite map_id; reflexivity|]); (split; [reflexivity|]); cbn; split; auto; intros [|[|k]] Hk; try lia; cbn; discriminate.
    + intros s s' Hs _ T. apply in_map_iff in Hs as (x & <- & _). discriminate.
  - intros p [<-|[<-|[]]]; cbn [in_verts in_tys length]; (split; [lia|]); (split; [vm_compute; lia|]); intros es ws [X|[]]; injection X as <- <-; (split; [cbn; lia|]); intros e [<-|[<-|[]]]; cbn; lia.
  - apply (names_fit 20 _ 1); cbn; lia.
  - split; [reflexivity|]. vm_compute in E. injection E as <-. vm_compute in Ef. injection Ef as <-. do 6 (split; [vm_compute; reflexivity|]). repeat constructor; vm_compute; reflexivity.
Qed.
(** A line to a point that does not exist: part 0 of the arc 1 -> 2 with 2 on part 1. *)
Example C63_traditional_example : exists g f, build_part 0 false [1%Z] [] [([(100, [1; 2])], [])]%Z [(2, 1)]%Z = Some g /\ write_vtu vex_xyz 9 20 g [1]%Z [Some 2]%Z None NoType = Some f /\
  f_npoints f = 1 /\ f_conn f = [0; 1] /\ ~ readable f.
Proof.
  eexists. eexists. split; [vm_compute; reflexivity|]. split; [vm_compute; reflexivity|]. split; [reflexivity|]. split; [reflexivity|]. intros (_ & _ & _ & _ & R & _). specialize (R 1 ltac:(cbn; auto)). cbn in R. lia.
Qed.
