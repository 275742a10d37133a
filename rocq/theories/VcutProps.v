(** C65: what the graph looks like after a vertex-cut migration (binGraph::migrate). *)
From Verif Require Import Base GraphModel GraphSpec CsrProofs ConstructProofs AccessProofs BinModel BinProofs BinCsr Comm TagProps GraphIOModel GraphIOProps MigrateModel MigrateProofs1 MigrateTop SelectorProps ColorProofs ColorProofs2 ZoltanProps VcutModel VcutSpec VcutProofs VcutProofs2.

Lemma touches_perm A B v : Permutation A B -> touches A v <-> touches B v.
Proof. intros P. split; intros (a & Ha & E); exists a; split; auto; [exact (Permutation_in _ P Ha)|exact (Permutation_in _ (Permutation_sym P) Ha)]. Qed.

Section Cut.
Variables (st : list bpart) (ins : list cut_in).
Hypothesis LN : length st = length ins.
Hypothesis HH : forall r i s, nth_error ins r = Some i -> nth_error st r = Some s -> holds r i s.
Hypothesis OK : cut_ok ins.
Let N := nsum (map b_N st).

Lemma at_ins r s : nth_error st r = Some s -> exists i, nth_error ins r = Some i /\ holds r i s /\ In i ins.
Proof. intros H. destruct (nth_error ins r) as [i|] eqn:E; [|apply nth_error_None in E; assert (r < length st) by (apply nth_error_Some; congruence); lia]. exists i. split; auto. split; [eauto|]. eapply nth_error_In; eauto. Qed.
Lemma N_ins : N = nsum (map ci_N ins).
Proof.
  unfold N. f_equal. apply nth_error_ext. intros r. rewrite !nth_error_map. destruct (nth_error st r) as [s|] eqn:E.
  - destruct (at_ins r s E) as (i & Ei & Hi & _). rewrite Ei. cbn. f_equal. apply Hi.
  - assert (nth_error ins r = None) as ->; [|reflexivity]. apply nth_error_None. apply nth_error_None in E. lia.
Qed.
Lemma send_at r s : nth_error st r = Some s -> exists i, nth_error ins r = Some i /\ vc_send s = Some (map (fun e => (snd e, match nth_error (ci_arcs i) (fst e) with Some a => a | None => (0, 0)%Z end)) (ci_map i)).
Proof. intros H. destruct (at_ins r s H) as (i & Ei & Hi & I). exists i. split; auto. apply (send_ok r i s Hi). intros e He. now apply (OK i I). Qed.
Lemma assigned_sent sent q : mapM vc_send st = Some sent -> map snd (addressed q sent) = assigned q ins.
Proof.
  intros E. rewrite addressed_snd. unfold assigned. assert (ES : sent = map (fun i => map (fun e => (snd e, match nth_error (ci_arcs i) (fst e) with Some a => a | None => (0, 0)%Z end)) (ci_map i)) ins).
  { apply nth_error_ext. intros r. rewrite nth_error_map. destruct (nth_error st r) as [s|] eqn:Es.
    - destruct (send_at r s Es) as (i & Ei & Em). destruct (mapM_nth _ _ _ _ _ _ _ E Es) as (y & Hy & Ey). rewrite Ei, Hy. cbn. congruence.
    - apply nth_error_None in Es. assert (L : length sent = length st) by (eapply mapM_length; eauto). assert (nth_error ins r = None) as -> by (apply nth_error_None; lia). apply nth_error_None. lia. }
  rewrite ES, flat_map_concat_map, map_map, <- flat_map_concat_map. rewrite !flat_map_concat_map. f_equal. apply map_ext_in. intros i Hi. apply moved_ok. intros e He. now apply (OK i Hi).
Qed.
Lemma assigned_range q a : In a (assigned q ins) -> (0 <= fst a < Z.of_nat N /\ 0 <= snd a < Z.of_nat N)%Z.
Proof.
  intros Ha. apply in_flat_map in Ha as (i & Hi & Ha). apply in_flat_map in Ha as (e & He & Ha). destruct (Z.eqb (snd e) (Z.of_nat q)); [|destruct Ha]. destruct (nth_error (ci_arcs i) (fst e)) as [b|] eqn:Eb; [|destruct Ha]. destruct Ha as [->|[]]. rewrite N_ins. apply (OK i Hi). eapply nth_error_In; eauto.
Qed.
(** after the first round *)
Lemma first_round : phase vc_send (vc_build N) st (fun gs => length gs = length ins /\ forall q g, nth_error gs q = Some g ->
  exists A V, cut1 q A V g /\ Permutation A (assigned q ins) /\ exists s ed, nth_error st q = Some s /\ gtype g 0 = Some ed /\ e_wgts ed = match gtype (b_g s) 0 with Some e => e_wgts e | None => [] end).
Proof.
  apply phase_intro with (PB := fun q g => exists A V, cut1 q A V g /\ Permutation A (assigned q ins) /\ exists s ed, nth_error st q = Some s /\ gtype g 0 = Some ed /\ e_wgts ed = match gtype (b_g s) 0 with Some e => e_wgts e | None => [] end).
  - intros r s Hs. destruct (send_at r s Hs) as (i & Ei & Em). eexists. split; [exact Em|]. intros m Hm. apply in_map_iff in Hm as (e & <- & He). cbn [fst]. rewrite LN. apply (OK i (nth_error_In _ _ Ei) ). auto.
  - intros sent rcv Es D q s r Hq Hr. destruct (at_ins q s Hq) as (i & Ei & Hi & I). destruct D as (_ & _ & D). specialize (D q r Hr). apply (Permutation_map snd) in D. rewrite (assigned_sent sent q Es) in D.
    destruct (build_ok N q s r) as (g & V & E & C & T & W); try apply Hi.
    + intros m Hm. apply (assigned_range q). eapply Permutation_in; [exact D|]. now apply in_map.
    + exists g. split; auto. exists (map snd r), V. split; auto. split; auto. destruct (gtype g 0) as [ed|] eqn:Eg; [|congruence]. exists s, ed. split; auto. split; auto. unfold gtype in Eg. destruct (types g) as [|x l]; [discriminate|]. cbn in Eg. injection Eg as ->. exact W.
  - intros st' L H. split; [congruence|auto].
Qed.
Lemma second_round gs : length gs = length ins ->
  (forall q g, nth_error gs q = Some g -> exists A V, cut1 q A V g /\ Permutation A (assigned q ins)) ->
  phase (split_send (length st)) (split_build true) gs (fun out => length out = length ins /\ forall q s, nth_error out q = Some s -> cut_part ins q s /\ exists g, nth_error gs q = Some g /\ types (vc_g s) = types g /\ lwgts (vc_g s) = lwgts g /\ nlv (vc_g s) = nlv g /\ vc_gw s = []).
Proof.
  intros LG HG. assert (LT : forall q g, nth_error gs q = Some g -> q < length ins) by (intros q g E; rewrite <- LG; apply nth_error_Some; congruence).
  apply phase_intro with (PB := fun q s => cut_part ins q s /\ exists g, nth_error gs q = Some g /\ types (vc_g s) = types g /\ lwgts (vc_g s) = lwgts g /\ nlv (vc_g s) = nlv g /\ vc_gw s = []).
  - intros q g Eg. destruct (HG q g Eg) as (A & V & C & P). rewrite LN. eexists. split; [exact (split_send_ok (length ins) q A V g C)|]. intros m Hm. rewrite LG. eapply split_msgs_range; eauto.
  - intros sent rcv Es D q g arr Eg Hr. destruct (HG q g Eg) as (A & V & C & P). destruct (split_ok q A V g arr C) as (deg & g' & E & Eg' & Hd). eexists. split; [exact E|].
    assert (SM : forall r ms, nth_error sent r = Some ms -> exists gr Ar Vr, nth_error gs r = Some gr /\ cut1 r Ar Vr gr /\ Permutation Ar (assigned r ins) /\ ms = split_msgs (length ins) r Vr).
    { intros r ms Hm. destruct (nth_error gs r) as [gr|] eqn:Er; [|apply nth_error_None in Er; assert (r < length sent) by (apply nth_error_Some; congruence); assert (length sent = length gs) by (eapply mapM_length; eauto); lia].
      destruct (HG r gr Er) as (Ar & Vr & Cr & Pr). destruct (mapM_nth _ _ _ _ _ _ _ Es Er) as (y & Hy & Ey). exists gr, Ar, Vr. split; auto. split; auto. split; auto. assert (y = ms) by congruence. subst y. rewrite LN, (split_send_ok _ _ _ _ _ Cr) in Ey. congruence. }
    split.
    + apply (result_ok ins q A V g arr deg g' C (LT q g Eg) P); auto.
      * destruct D as (_ & _ & D). eapply Permutation_NoDup; [apply Permutation_sym, (D q arr Hr)|]. apply addressed_nodup. intros ms Hms. apply In_nth_error in Hms as (r & Hm). destruct (SM r ms Hm) as (gr & Ar & Vr & Er & Cr & Pr & ->). apply split_msgs_nodup; [eapply LT; eauto|apply Cr].
      * intros p v Hv. rewrite (delivered_in _ _ _ q arr p v D Hr). split.
        -- intros (r & ms & Hm & -> & I). destruct (SM r ms Hm) as (gr & Ar & Vr & Er & Cr & Pr & ->). pose proof (LT r gr Er) as Lr. apply split_msgs_in in I as (_ & Nq & I); auto. exists r. split; auto. split; auto. split; auto. apply (touches_perm _ _ _ Pr). now apply Cr.
        -- intros (r & -> & Lr & Nq & T). destruct (nth_error gs r) as [gr|] eqn:Er; [|apply nth_error_None in Er; lia]. destruct (mapM_nth _ _ _ _ _ _ _ Es Er) as (ms & Hms & _). exists r, ms. split; auto. split; auto. destruct (SM r ms Hms) as (gr' & Ar & Vr & Er' & Cr & Pr & ->). apply split_msgs_in; auto. split; [eapply LT; eauto|]. split; auto. apply Cr. now apply (touches_perm _ _ _ Pr).
    + cbn [vc_g vc_gw]. exists g. split; auto. rewrite Eg'. cbn. split; auto. split; auto. split; auto. destruct C as [_ _ (vm & d0 & ow & -> & _)]. reflexivity.
  - intros st' L H. split; [congruence|auto].
Qed.
Lemma both_rounds : vc_migrate true st (fun out => length out = length ins /\ forall q s, nth_error out q = Some s -> cut_part ins q s /\ vc_gw s = [] /\
   exists b ed, nth_error st q = Some b /\ types (vc_g s) = [ed] /\ e_wgts ed = match gtype (b_g b) 0 with Some e => e_wgts e | None => [] end).
Proof.
  unfold vc_migrate. eapply phase_mono; [|exact first_round]. intros gs (LG & HG). eapply phase_mono; [|apply (second_round gs LG)].
  - intros out (LO & HO). split; auto. intros q s Hs. destruct (HO q s Hs) as (CP & g & Eg & Et & _ & _ & Ew). split; auto. split; auto. destruct (HG q g Eg) as (A & V & [_ _ (vm & dg & ow & -> & _)] & _ & b & ed & Eb & Ed & W). exists b, ed. split; auto. split; auto. unfold gtype in Ed. cbn in Ed. injection Ed as <-. exact Et.
  - intros q g Eg. destruct (HG q g Eg) as (A & V & C & P & _). eauto.
Qed.
End Cut.

(** with a 64-bit lid_t, whatever the parts chosen for the edges: every part has exactly the edges given to it with their ends, and knows exactly where else its
    vertices are *)
Theorem C65_migrate_partial : forall st ins, length st = length ins -> (forall r i s, nth_error ins r = Some i -> nth_error st r = Some s -> holds r i s) -> cut_ok ins ->
  vc_migrate true st (fun out => length out = length ins /\ forall q s, nth_error out q = Some s -> cut_part ins q s).
Proof. intros st ins L H O. pose proof (both_rounds st ins L H O) as B. unfold vc_migrate in *. eapply phase_mono; [|exact B]. intros gs. apply phase_mono. intros out (LO & HO). split; auto. intros q s Hs. now apply HO. Qed.
Print Assumptions C65_migrate_partial.

(** with a 32-bit lid_t the call is undefined as soon as one part ends with two vertices: the counts are copied with the wrong element size *)
Theorem C65_narrow_refuted : forall st ins, length st = length ins -> (forall r i s, nth_error ins r = Some i -> nth_error st r = Some s -> holds r i s) -> cut_ok ins ->
  forall q v w, q < length ins -> v <> w -> touches (assigned q ins) v -> touches (assigned q ins) w -> forall Q, ~ vc_migrate false st Q.
Proof.
  intros st ins L H O q v w Hq Nvw Tv Tw Q M. unfold vc_migrate in M. destruct (first_round st ins L H O) as (sent & E & D & K). destruct M as (sent' & E' & _ & K'). assert (sent' = sent) by congruence. subst sent'. clear E'.
  destruct (delivered_exists _ _ D) as (rcv & Dl). destruct (K rcv Dl) as (gs & Eg & LG & HG). destruct (K' rcv Dl) as (gs' & Eg' & sent2 & E2 & D2 & K2). assert (gs' = gs) by congruence. subst gs'.
  destruct (delivered_exists _ _ D2) as (rcv2 & Dl2). destruct (K2 rcv2 Dl2) as (out & Eo & _). destruct (par2_length _ _ _ _ _ _ _ _ Eo) as (LO & _). destruct (nth_error out q) as [s|] eqn:Es; [|apply nth_error_None in Es; lia].
  destruct (par2_nth _ _ _ _ _ _ _ _ _ _ Eo Es) as (g & arr & Eq & Ea & B). destruct (HG q g Eq) as (A & V & [NV IV (vm & deg0 & ow0 & -> & HM & Hdeg)] & P & _).
  assert (L2 : 2 <= length V). { assert (I1 : In v V) by (apply IV, (touches_perm _ _ _ P); auto). assert (I2 : In w V) by (apply IV, (touches_perm _ _ _ P); auto). destruct V as [|a [|b V']]; [destruct I1| |cbn; lia]. destruct I1 as [->|[]], I2 as [->|[]]. congruence. }
  unfold split_build in B. cbn [nlv hyper lunmap lwgts vmap types self] in B. match type of B with context [split_recv ?G arr] => destruct (recv_run vm V HM NV G arr eq_refl eq_refl) as (cnt & E1 & L1 & C0 & C1); rewrite E1 in B end. cbn [obind] in B.
  destruct (sums_run V cnt _ L1 C0 C1) as (deg & E3 & L3 & C3). rewrite E3 in B. cbn [obind] in B. destruct (aget deg (length V)) as [tot|]; [|discriminate]. cbn [obind] in B. destruct (tot =? _); [|discriminate].
  assert (X : copy_counts false (length V) deg = None).
  { unfold copy_counts. destruct (mapM _ (seq 0 (length V))) as [xs|] eqn:Em; [|reflexivity]. exfalso. assert (Sq : nth_error (seq 0 (length V)) (length V - 1) = Some (length V - 1)) by (rewrite nth_error_seq by lia; reflexivity).
    destruct (mapM_nth _ _ _ _ _ _ _ Em Sq) as (y & _ & Ey). assert (aget deg (2 * (length V - 1) + 1) = None). { unfold aget. assert (nth_error deg (2 * (length V - 1) + 1) = None) as -> by (apply nth_error_None; lia). reflexivity. } rewrite H0 in Ey. destruct (aget deg (2 * (length V - 1))); discriminate. }
  rewrite X in B. discriminate.
Qed.
Print Assumptions C65_narrow_refuted.

(** num_global_verts is a sum of values that were global already: it is multiplied by the number of processes *)
Theorem C65_global_refuted : forall st N, (forall s, In s st -> b_N s = N) -> vc_global st = length st * N.
Proof. unfold vc_global. induction st as [|s st IH]; intros N H; [reflexivity|]. cbn [map length]. rewrite (H s) by now left. change (nsum (N :: map b_N st)) with (N + nsum (map b_N st)). rewrite (IH N) by (intros; apply H; now right). lia. Qed.
Print Assumptions C65_global_refuted.

(** edge weights do not move with the edges: weight i of a part is what was stored under i on that process before, whichever edge that was; a part that had no
    edges before has no weights at all *)
Theorem C65_edge_weights_refuted : forall st ins, length st = length ins -> (forall r i s, nth_error ins r = Some i -> nth_error st r = Some s -> holds r i s) -> cut_ok ins ->
  vc_migrate true st (fun out => forall q s b, nth_error out q = Some s -> nth_error st q = Some b -> ntypes (b_g b) <= 1 -> forall e,
    eweight (vc_g s) (getEdge 1 e 0) = if ntypes (b_g b) =? 0 then None else eweight (b_g b) (getEdge 1 e 0)).
Proof.
  intros st ins L H O. pose proof (both_rounds st ins L H O) as B. unfold vc_migrate in *. eapply phase_mono; [|exact B]. intros gs. apply phase_mono. intros out (LO & HO) q s b Hs Hb N1 e.
  destruct (HO q s Hs) as ((A & _ & _ & NE & _) & _ & b' & ed & Eb & Ed & W). assert (b' = b) by congruence. subst b'.
  assert (Q1 : forall g, ntypes g = 1 -> eweight g (getEdge 1 e 0) = (ed <- gtype g 0 ;; aget (e_wgts ed) e)). { intros g E1. unfold eweight. rewrite E1, edec_getEdge by lia. reflexivity. }
  assert (G1 : eweight (vc_g s) (getEdge 1 e 0) = aget (e_wgts ed) e).
  { rewrite (Q1 (vc_g s)) by (unfold ntypes; rewrite Ed; reflexivity). unfold gtype. rewrite Ed. reflexivity. }
  rewrite G1, W. destruct (Nat.eqb_spec (ntypes (b_g b)) 0) as [Z0|NZ].
  - unfold ntypes in Z0. unfold gtype. destruct (types (b_g b)); [|discriminate]. cbn. destruct e; reflexivity.
  - rewrite (Q1 (b_g b)) by lia. destruct (gtype (b_g b) 0) as [x|] eqn:Ex; [reflexivity|]. unfold gtype, ntypes in *. apply nth_error_None in Ex. lia.
Qed.
Print Assumptions C65_edge_weights_refuted.

(** the weight of a copy cannot be read: ghost_weights is never allocated *)
Theorem C65_ghost_weights_refuted : forall st ins, length st = length ins -> (forall r i s, nth_error ins r = Some i -> nth_error st r = Some s -> holds r i s) -> cut_ok ins ->
  vc_migrate true st (fun out => forall q s h p, nth_error out q = Some s -> owner (vc_g s) h = Some p -> p <> Z.of_nat q -> vc_weight s h = None).
Proof.
  intros st ins L H O. pose proof (both_rounds st ins L H O) as B. unfold vc_migrate in *. eapply phase_mono; [|exact B]. intros gs. apply phase_mono. intros out (LO & HO) q s h p Hs Ho Np. destruct (HO q s Hs) as ((A & _ & Sq & _) & Gw & _). unfold vc_weight. rewrite Gw. unfold owner in Ho. destruct h as [|l]; [cbn in *; congruence|]. cbn [vlid obind] in *. destruct (Nat.leb_spec (nlv (vc_g s)) l).
  - destruct (l - nlv (vc_g s)); reflexivity.
  - exfalso. destruct (Nat.ltb_spec l (nlv (vc_g s))); [|lia]. destruct (Nat.leb_spec (nlv (vc_g s) + ngv (vc_g s)) l); [lia|]. congruence.
Qed.
Print Assumptions C65_ghost_weights_refuted.

(** ** The hypotheses are met *)
(** process 0 holds the triangle 0 -> 1 -> 2 -> 0 and process 1 nothing; the first edge stays, the others go to part 1.  Vertices 0 and 1 are then on both parts *)
Definition vex_es : list type_input := [([(10, [0; 1]); (11, [1; 2]); (12, [2; 0])], [])]%Z.
Definition vex_ins : list cut_in := [mkCI [(0, 1); (1, 2); (2, 0)]%Z [(0, 0%Z); (1, 1%Z); (2, 1%Z)] 3; mkCI [] [] 3].
Definition vex_st (g0 : graph) : list bpart := [mkBP g0 3 [(0, 0%Z); (1, 1%Z); (2, 1%Z)]; mkBP (mkGraph false 0 0 [] [] [] [] [] [] 1) 3 []].
Definition vex_run (st : list bpart) : option (list vcut) := gs <- run_phase vc_send (vc_build (nsum (map b_N st))) st ;; run_phase (split_send (length st)) (split_build true) gs.
Example C65_hypotheses_met : exists g0, build_graph 0 false [0; 1; 2]%Z [] vex_es = Some g0 /\ length (vex_st g0) = length vex_ins /\
  (forall r i s, nth_error vex_ins r = Some i -> nth_error (vex_st g0) r = Some s -> holds r i s) /\ cut_ok vex_ins /\
  assigned 0 vex_ins = [(0, 1)]%Z /\ assigned 1 vex_ins = [(1, 2); (2, 0)]%Z /\
  (exists a b, vex_run (vex_st g0) = Some [a; b] /\ lunmap (vc_g a) = ainit [0; 1]%Z /\ lunmap (vc_g b) = ainit [1; 2; 0]%Z /\
     split_ends a 1 = Some [4] /\ vgid (vc_g a) 4 = Some 0%Z /\ owner (vc_g a) 4 = Some 1%Z /\ split_ends b 2 = Some [] /\ vc_weight a 4 = None /\ eweight (vc_g b) (getEdge 1 0 0) = None) /\
  (forall Q, ~ vc_migrate false (vex_st g0) Q) /\ vc_global (vex_st g0) = 6.
Proof.
  destruct (build_graph 0 false [0; 1; 2]%Z [] vex_es) as [g0|] eqn:E; [|exfalso; vm_compute in E; discriminate]. exists g0. vm_compute in E. injection E as <-. split; auto. split; auto.
  match goal with |- (?A /\ ?B /\ _) => assert (HA : A); [|assert (HB : B)] end.
  { intros [|[|[|r]]] i s Hi Hs; try discriminate; injection Hi as <-; injection Hs as <-.
    - repeat (split; [reflexivity|]). intros [|[|[|[|k]]]] a Ha; try discriminate; injection Ha as <-; vm_compute; reflexivity.
    - repeat (split; [reflexivity|]). intros [|k] a Ha; discriminate. }
  { intros i [<-|[<-|[]]]; cbn [ci_map ci_arcs]; split.
    - intros e [<-|[<-|[<-|[]]]]; cbn; lia.
    - intros a [<-|[<-|[<-|[]]]]; cbn; lia.
    - intros e [].
    - intros a []. }
  split; [exact HA|]. split; [exact HB|]. split; [reflexivity|]. split; [reflexivity|]. split; [|split; [|reflexivity]].
  - do 2 eexists. split; [vm_compute; reflexivity|]. repeat (split; [reflexivity|]). reflexivity.
  - apply (C65_narrow_refuted _ vex_ins) with (q := 0) (v := 0%Z) (w := 1%Z); [reflexivity|exact HA|exact HB|cbn; lia|discriminate|exists (0, 1)%Z; cbn; auto..].
Qed.
