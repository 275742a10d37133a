(** Lemmas behind ValidProps.v. *)
From Verif Require Import Base GraphModel CsrProofs ConstructProofs GraphSpec AccessProofs AccessProofs2 CountProofs GraphTop GraphTop2 GraphIOProps ValidModel MigrateProofs2.

Lemma forM_true A (f : A -> option bool) l : forM f l = Some true <-> forall a, In a l -> f a = Some true.
Proof.
  induction l as [|x l IH]; cbn [forM].
  - split; auto. intros _ a [].
  - destruct (f x) as [[|]|] eqn:E; cbn [obind].
    + rewrite IH. split. * intros H a [<-|I]; auto. * intros H a I. apply H. right; auto.
    + split; [discriminate|]. intros H. rewrite (H x (or_introl eq_refl)) in E. discriminate.
    + split; [discriminate|]. intros H. rewrite (H x (or_introl eq_refl)) in E. discriminate.
Qed.

Lemma each_all f ps : (forall p, In p ps -> f p = Some true) -> each f (repeat true (length ps)) ps = Some (repeat true (length ps)).
Proof.
  unfold each. induction ps as [|p ps IH]; intros H; [reflexivity|]. cbn [length repeat combine mapM fst snd].
  rewrite (H p (or_introl eq_refl)). cbn [obind]. rewrite IH; [reflexivity|]. intros; apply H; right; auto.
Qed.
Lemma forallb_repeat n : forallb id (repeat true n) = true.
Proof. induction n; auto. Qed.
Lemma each_true f al ps bs r : each f al ps = Some bs -> nth_error bs r = Some true -> nth_error al r = Some true /\ exists p, nth_error ps r = Some p /\ f p = Some true.
Proof.
  unfold each. revert ps bs r. induction al as [|a al IH]; intros [|p ps] bs r H Hn; cbn [combine mapM] in H; try (inversion H; subst; destruct r; discriminate).
  cbn [fst snd] in H. destruct (if a then f p else Some false) as [b|] eqn:E; [|discriminate]. cbn [obind] in H.
  destruct (mapM _ (combine al ps)) as [bs'|] eqn:E2; [|discriminate]. inversion H; subst bs. destruct r as [|r]; cbn [nth_error] in *.
  - inversion Hn; subst b. destruct a; [|discriminate]. split; auto. exists p. auto.
  - apply (IH ps bs' r E2 Hn).
Qed.
Lemma each_length f al ps bs : length al = length ps -> each f al ps = Some bs -> length bs = length ps.
Proof. intros L H. apply mapM_length in H. rewrite combine_length, L, Nat.min_id in H. auto. Qed.
Lemma all_ones l : forallb id l = true -> l = repeat true (length l).
Proof. induction l as [|b l IH]; cbn; auto. destruct b; cbn; [|discriminate]. intros H. now rewrite <- IH. Qed.

(** seek finds the vertex exactly when the pin walk reaches it *)
Lemma seek_yields g h : forall l it fuel, yields (pit_step g) it l -> length l < fuel -> h <> 0 -> seek g h fuel it = Some (existsb (Nat.eqb h) l).
Proof.
  induction l as [|x l IH]; intros it [|f] Y Hf Hh; cbn [length] in Hf; try lia; cbn [seek].
  - destruct Y as (s & ->). reflexivity.
  - destruct Y as (Hx & s & -> & Y). cbn [obind existsb]. destruct (Nat.eqb_spec x 0); [lia|]. rewrite (Nat.eqb_sym h x).
    destruct (x =? h); cbn [orb]; auto. apply IH; auto. lia.
Qed.
Lemma drain_yields_inv S (step : S -> option (nat * S)) : forall fuel s l, drain step fuel s = Some l -> yields step s l /\ length l < fuel.
Proof.
  induction fuel as [|f IH]; intros s l H; [discriminate|]. cbn [drain] in H. destruct (step s) as [[h s']|] eqn:E; [|discriminate]. cbn [obind] in H.
  destruct (Nat.eqb_spec h 0) as [->|N].
  - inversion H; subst l. split; [|cbn; lia]. exists s'. auto.
  - destruct (drain step f s') as [r|] eqn:D; [|discriminate]. inversion H; subst l. destruct (IH _ _ D) as (Y & L). split; [|cbn; lia].
    split; auto. exists s'. auto.
Qed.
Lemma chk_pin_in g fuel h e ps : edge_pins g e fuel = Some ps -> In h ps -> h <> 0 -> chk_pin g fuel h e = Some true.
Proof.
  unfold edge_pins, chk_pin. intros H Hi Hh. destruct (pins_begin g e) as [it|]; [|discriminate]. cbn [obind] in *.
  destruct (drain_yields_inv _ _ _ _ _ H) as (Y & L). rewrite (seek_yields g h ps it fuel Y L Hh). f_equal.
  apply existsb_exists. exists h. split; auto. apply Nat.eqb_refl.
Qed.

(** Everything the check needs to know about one part. *)
Record sound_part (fuel : nat) (peers : Z) (nt : nat) (g : graph) : Prop := {
  sp_nt : ntypes g = nt;
  sp_verts : exists vs, all_verts g fuel = Some vs /\ length vs = nlv g /\
     forall h t, In h vs -> t < nt -> exists es, vertex_edges g h t fuel = Some es /\ vdegree g h t = Some (length es) /\
        forall e, In e es -> chk_pin g fuel h e = Some true;
  sp_edges : forall t, t < nt -> exists es ed, all_edges g t fuel = Some es /\ gtype g t = Some ed /\ length es = e_num ed /\
     exists ds, mapM (edegree g) es = Some ds /\ nsum ds = e_npins ed /\
     (forall e, In e es -> exists res, getResidence g e = Some res) /\
     (forall e, In e es -> chk_pins g fuel e = Some true) /\
     (hyper g = false -> e_npins ed = 2 * e_num ed);
  sp_ghosts : exists hs, all_ghosts g fuel = Some hs /\ forall h, In h hs -> chk_ghost g peers h = Some true
}.

(** the four counters after the edges es *)
Definition mine (g : graph) (e : nat) : bool :=
  match getResidence g e with Some res => negb (existsb (fun o => Z.ltb o (self g)) res) || negb (hyper g) | None => false end.
Definition deg_of (g : graph) (e : nat) : nat := match edegree g e with Some d => d | None => 0 end.

Lemma tally_spec g es : forall s s', foldM (tally1 g) es s = Some s' ->
  ta_i s' = ta_i s + length es /\ ta_l s' = ta_l s + nsum (map (deg_of g) es) /\
  ta_j s' = ta_j s + length (filter (mine g) es) /\ ta_k s' = ta_k s + nsum (map (deg_of g) (filter (mine g) es)).
Proof.
  induction es as [|e es IH]; intros s s' H; cbn [foldM] in H.
  - inversion H; subst. cbn. lia.
  - destruct (tally1 g s e) as [s1|] eqn:E; [|discriminate]. cbn [obind] in H. apply IH in H. unfold tally1 in E.
    destruct (edegree g e) as [d|] eqn:Ed; [|discriminate]. destruct (getResidence g e) as [res|] eqn:Er; [|discriminate]. cbn [obind] in E.
    assert (D : deg_of g e = d) by (unfold deg_of; now rewrite Ed). assert (M : mine g e = negb (existsb (fun o => Z.ltb o (self g)) res) || negb (hyper g)) by (unfold mine; now rewrite Er).
    cbn [length map filter nsum fold_right]. fold (nsum (map (deg_of g) es)). rewrite M, D.
    destruct (negb _ || _); inversion E; subst s1; cbn [ta_i ta_l ta_j ta_k length map nsum fold_right] in *; unfold nsum in *; rewrite ?D; lia.
Qed.
Lemma tally_total g es : (forall e, In e es -> (exists d, edegree g e = Some d) /\ exists res, getResidence g e = Some res) -> forall s, exists s', foldM (tally1 g) es s = Some s'.
Proof.
  induction es as [|e es IH]; intros H s; cbn [foldM]; [eauto|]. destruct (H e (or_introl eq_refl)) as ((d & Ed) & res & Er).
  unfold tally1 at 1. rewrite Ed, Er. cbn [obind]. destruct (negb _ || _); cbn [obind]; apply IH; intros; apply H; right; auto.
Qed.

Lemma tally_sound fuel peers nt g t : sound_part fuel peers nt g -> t < nt -> exists es ed, all_edges g t fuel = Some es /\ gtype g t = Some ed /\
  tally_of g fuel t = Some (mkTally (e_num ed) (e_npins ed) (length (filter (mine g) es)) (nsum (map (deg_of g) (filter (mine g) es)))).
Proof.
  intros HP Ht. destruct (sp_edges _ _ _ _ HP t Ht) as (es & ed & Ea & Eg & En & ds & Em & Es & Hr & _).
  exists es, ed. split; auto. split; auto. unfold tally_of. rewrite Ea. cbn [obind].
  assert (Hd : forall e, In e es -> exists d, edegree g e = Some d).
  { intros e He. destruct (In_nth_error _ _ He) as (i & Hi). destruct (mapM_nth _ _ _ _ _ _ _ Em Hi) as (d & _ & D). eauto. }
  destruct (tally_total g es (fun e He => conj (Hd e He) (Hr e He)) (mkTally 0 0 0 0)) as (s' & E). rewrite E. f_equal.
  apply tally_spec in E. cbn [ta_i ta_l ta_j ta_k] in E. destruct s' as [i l j k]. cbn [ta_i ta_l ta_j ta_k] in E. destruct E as (-> & -> & -> & ->).
  assert (X : map (deg_of g) es = ds).
  { clear - Em. revert ds Em. induction es as [|e es IH]; intros ds Em; cbn [mapM] in Em; [inversion Em; auto|].
    destruct (edegree g e) as [d|] eqn:Ed; [|discriminate]. cbn [obind] in Em. destruct (mapM _ es) as [ds'|] eqn:E2; [|discriminate]. inversion Em; subst ds.
    cbn [map]. rewrite (IH _ eq_refl). unfold deg_of. now rewrite Ed. }
  rewrite X, En, Es. reflexivity.
Qed.

(** the counters computed at construction are the ones the check recomputes *)
Lemma owned_mine fuel peers nt g t : sound_part fuel peers nt g -> hyper g = true -> t < nt ->
  exists es, all_edges g t fuel = Some es /\
  owned_counts g t fuel = Some (Z.of_nat (length (filter (mine g) es)), Z.of_nat (nsum (map (deg_of g) (filter (mine g) es)))).
Proof.
  intros HP Hh Ht. destruct (tally_sound _ _ _ _ _ HP Ht) as (es & ed & Ea & Eg & T). exists es. split; auto.
  destruct (sp_edges _ _ _ _ HP t Ht) as (es0 & ed0 & Ea0 & Eg0 & En & ds & Em & Es & Hr & _).
  assert (es0 = es) by congruence. assert (ed0 = ed) by congruence. subst es0 ed0.
  unfold owned_counts. rewrite Eg, Ea. cbn [obind].
  unfold tally_of in T. rewrite Ea in T. cbn [obind] in T. pose proof (tally_spec _ _ _ _ T) as (T1 & T2 & _). cbn [ta_i ta_l] in T1, T2.
  assert (G : forall l, (forall e, In e l -> In e es) -> forall a b,
    foldM (fun '(ne, np) e => res <- getResidence g e ;; if existsb (fun p => Z.ltb p (self g)) res then d <- edegree g e ;; Some ((ne - 1)%Z, (np - Z.of_nat d)%Z) else Some (ne, np)) l (a, b)
    = Some ((a - Z.of_nat (length l) + Z.of_nat (length (filter (mine g) l)))%Z, (b - Z.of_nat (nsum (map (deg_of g) l)) + Z.of_nat (nsum (map (deg_of g) (filter (mine g) l))))%Z)).
  { induction l as [|e l IH]; intros Hl a b; [cbn; do 2 f_equal; lia|]. cbn [foldM].
    destruct (Hr e (Hl e (or_introl eq_refl))) as (res & Er). rewrite Er. cbn [obind].
    destruct (In_nth_error _ _ (Hl e (or_introl eq_refl))) as (i & Hi). destruct (mapM_nth _ _ _ _ _ _ _ Em Hi) as (d & _ & D).
    assert (Dg : deg_of g e = d) by (unfold deg_of; now rewrite D).
    assert (M : mine g e = negb (existsb (fun o => Z.ltb o (self g)) res)) by (unfold mine; rewrite Er, Hh; cbn [negb]; now rewrite orb_false_r).
    assert (IH' := IH (fun e' He => Hl e' (or_intror He))).
    cbn [filter length map nsum fold_right]. rewrite M. destruct (existsb _ res); cbn [negb].
    - rewrite D. cbn [obind]. etransitivity; [apply IH'|]. unfold nsum in *. rewrite Dg. do 2 f_equal; lia.
    - etransitivity; [apply IH'|]. cbn [length map nsum fold_right]. unfold nsum in *. rewrite Dg. do 2 f_equal; lia. }
  etransitivity; [apply G; auto|]. do 2 f_equal; lia.
Qed.

Lemma trad_mine fuel peers nt g t : sound_part fuel peers nt g -> hyper g = false -> t < nt ->
  exists es ed, all_edges g t fuel = Some es /\ gtype g t = Some ed /\ length (filter (mine g) es) = e_num ed /\ nsum (map (deg_of g) (filter (mine g) es)) = 2 * e_num ed.
Proof.
  intros HP Hh Ht. destruct (sp_edges _ _ _ _ HP t Ht) as (es & ed & Ea & Eg & En & ds & Em & Es & Hr & _).
  exists es, ed. repeat split; auto.
  - rewrite <- En. f_equal. assert (G : forall l, (forall e, In e l -> In e es) -> filter (mine g) l = l).
    { induction l as [|e l IH]; intros Hl; auto. cbn [filter]. destruct (Hr e (Hl e (or_introl eq_refl))) as (res & Er).
      unfold mine at 1. rewrite Er, Hh. cbn [negb]. rewrite orb_true_r. f_equal. apply IH. intros; apply Hl; right; auto. }
    apply G; auto.
  - rewrite <- En. assert (G : forall l, (forall e, In e l -> In e es) -> nsum (map (deg_of g) (filter (mine g) l)) = 2 * length l).
    { induction l as [|e l IH]; intros Hl; auto. cbn [filter]. destruct (Hr e (Hl e (or_introl eq_refl))) as (res & Er).
      unfold mine at 1. rewrite Er, Hh. cbn [negb]. rewrite orb_true_r. cbn [map nsum fold_right length].
      fold (nsum (map (deg_of g) (filter (mine g) l))). rewrite IH by (intros; apply Hl; right; auto). unfold deg_of, edegree. rewrite Hh. cbn [negb]. lia. }
    apply G; auto.
Qed.

Lemma mapM_fun A B (f : A -> option B) (h : A -> B) l : (forall a, In a l -> f a = Some (h a)) -> mapM f l = Some (map h l).
Proof. apply mapM_some. Qed.

(** the whole check on sound parts *)
Theorem accepted fuel nt hg gs : gs <> [] -> (forall g, In g gs -> sound_part fuel (Z.of_nat (length gs)) nt g /\ hyper g = hg) ->
  exists ps, with_globals gs hg nt fuel = Some ps /\ map vp_g ps = gs /\ checkValidity fuel ps = Some (Answers (repeat true (length gs))).
Proof.
  intros Hne HP.
  set (es_of := fun g t => match all_edges g t fuel with Some es => es | None => [] end).
  set (J := fun t g => length (filter (mine g) (es_of g t))).
  set (K := fun t g => nsum (map (deg_of g) (filter (mine g) (es_of g t)))).
  assert (TL : forall g t, In g gs -> t < nt -> exists ed, gtype g t = Some ed /\ tally_of g fuel t = Some (mkTally (e_num ed) (e_npins ed) (J t g) (K t g))).
  { intros g t Hg Ht. destruct (tally_sound _ _ _ _ _ (proj1 (HP g Hg)) Ht) as (es & ed & Ea & Eg & T). exists ed. split; auto.
    unfold J, K, es_of. rewrite Ea. auto. }
  assert (GE : forall t, t < nt -> globals_of gs hg fuel t = Some (zsum (map (fun g => Z.of_nat (J t g)) gs), zsum (map (fun g => Z.of_nat (K t g)) gs))).
  { intros t Ht. unfold globals_of. destruct hg.
    - unfold global_counts. rewrite mapM_fun with (h := fun g => (Z.of_nat (J t g), Z.of_nat (K t g))).
      + cbn [obind]. rewrite !map_map. reflexivity.
      + intros g Hg. destruct (HP g Hg) as (S1 & S2). destruct (owned_mine _ _ _ _ t S1 S2 Ht) as (es & Ea & E). rewrite E. unfold J, K, es_of. rewrite Ea. auto.
    - rewrite mapM_fun with (h := J t).
      + cbn [obind]. rewrite map_map. do 2 f_equal. assert (Q : forall g, In g gs -> K t g = 2 * J t g).
        { intros g Hg. destruct (HP g Hg) as (S1 & S2). destruct (trad_mine _ _ _ _ t S1 S2 Ht) as (es & ed & Ea & Eg & E1 & E2). unfold J, K, es_of. rewrite Ea. lia. }
        clear - Q. induction gs as [|g l IH]; auto. cbn [map]. unfold zsum in *. cbn [fold_right]. rewrite <- IH by (intros; apply Q; right; auto). rewrite (Q g (or_introl eq_refl)). lia.
      + intros g Hg. destruct (HP g Hg) as (S1 & S2). destruct (trad_mine _ _ _ _ t S1 S2 Ht) as (es & ed & Ea & Eg & E1 & E2). unfold num_edges. rewrite Eg. unfold J, es_of. rewrite Ea, E1. auto. }
  set (ge := map (fun t => (zsum (map (fun g => Z.of_nat (J t g)) gs), zsum (map (fun g => Z.of_nat (K t g)) gs))) (seq 0 nt)).
  assert (GEs : mapM (globals_of gs hg fuel) (seq 0 nt) = Some ge).
  { apply mapM_fun. intros t Ht. apply in_seq in Ht. apply GE. lia. }
  set (gv := zsum (map (fun g => Z.of_nat (nlv g)) gs)). set (ps := map (fun g => mkVpart g gv ge) gs).
  exists ps. unfold with_globals. rewrite GEs. cbn [obind]. split; [reflexivity|]. split.
  { unfold ps. rewrite map_map. cbn [vp_g]. apply map_id. }
  assert (IP : forall p, In p ps -> exists g, In g gs /\ p = mkVpart g gv ge) by (intros p Ip; apply in_map_iff in Ip as (g & <- & Ig); eauto).
  assert (LP : length ps = length gs) by apply map_length.
  assert (CV : forall g, In g gs -> exists vs, all_verts g fuel = Some vs /\ length vs = nlv g).
  { intros g Ig. destruct (sp_verts _ _ _ _ (proj1 (HP g Ig))) as (vs & E1 & E2 & _). eauto. }
  assert (NG : forall t, t < nt -> nth_error ge t = Some (zsum (map (fun g => Z.of_nat (J t g)) gs), zsum (map (fun g => Z.of_nat (K t g)) gs))).
  { intros t Ht. unfold ge. rewrite nth_error_map, nth_error_seq by auto. reflexivity. }
  assert (TY : forall ts, (forall t, In t ts -> t < nt) -> chk_types fuel ps ts (repeat true (length gs)) = Some (Answers (repeat true (length gs)))).
  { induction ts as [|t ts IH]; intros Hts; cbn [chk_types].
    - rewrite LP. rewrite <- LP at 2. rewrite each_all; [rewrite LP; reflexivity|]. intros p Ip. destruct (IP p Ip) as (g & Ig & ->). unfold chk_ghosts. cbn [vp_g].
      destruct (sp_ghosts _ _ _ _ (proj1 (HP g Ig))) as (hs & E & H). rewrite E. cbn [obind]. apply forM_true. exact H.
    - assert (Ht : t < nt) by (apply Hts; left; auto). rewrite <- LP. rewrite each_all.
      2:{ intros p Ip. destruct (IP p Ip) as (g & Ig & ->). unfold chk_edges. cbn [vp_g]. destruct (TL g t Ig Ht) as (ed & Eg & T). rewrite T. cbn [obind ta_i].
          unfold num_edges. rewrite Eg. cbn [obind]. now rewrite Nat.eqb_refl. }
      cbn [obind]. rewrite forallb_repeat. unfold add_long.
      assert (A1 : mapM (fun p => ta <- tally_of (vp_g p) fuel t ;; Some (ta_j ta)) ps = Some (map (fun p => J t (vp_g p)) ps)).
      { apply mapM_fun. intros p Ip. destruct (IP p Ip) as (g & Ig & ->). cbn [vp_g]. destruct (TL g t Ig Ht) as (ed & Eg & T). rewrite T. reflexivity. }
      assert (A2 : mapM (fun p => ta <- tally_of (vp_g p) fuel t ;; Some (ta_k ta)) ps = Some (map (fun p => K t (vp_g p)) ps)).
      { apply mapM_fun. intros p Ip. destruct (IP p Ip) as (g & Ig & ->). cbn [vp_g]. destruct (TL g t Ig Ht) as (ed & Eg & T). rewrite T. reflexivity. }
      rewrite A1, A2. cbn [obind].
      assert (Z1 : forall f : graph -> nat, zsum (map Z.of_nat (map (fun p => f (vp_g p)) ps)) = zsum (map (fun g => Z.of_nat (f g)) gs)).
      { intros f. unfold ps. rewrite !map_map. cbn [vp_g]. reflexivity. }
      rewrite (Z1 (J t)), (Z1 (K t)).
      rewrite each_all.
      2:{ intros p Ip. destruct (IP p Ip) as (g & Ig & ->). unfold chk_gedges. cbn [vp_g vp_ge]. destruct (TL g t Ig Ht) as (ed & Eg & T). rewrite T. cbn [obind ta_l].
          rewrite (NG t Ht), Eg. cbn [obind fst]. now rewrite Z.eqb_refl, Nat.eqb_refl. }
      cbn [obind]. rewrite forallb_repeat. rewrite each_all.
      2:{ intros p Ip. destruct (IP p Ip) as (g & Ig & ->). unfold chk_gpins. cbn [vp_g vp_ge]. rewrite (NG t Ht). cbn [obind snd]. rewrite Z.eqb_refl.
          destruct (sp_edges _ _ _ _ (proj1 (HP g Ig)) t Ht) as (es & ed & Ea & Eg & En & ds & Em & Es & Hr & Hc & _). rewrite Ea. cbn [obind]. apply forM_true. auto. }
      cbn [obind]. rewrite LP. apply IH. intros; apply Hts; right; auto. }
  unfold checkValidity. destruct ps as [|p0 ps0] eqn:Eps; [destruct gs; [congruence|discriminate]|]. rewrite <- Eps in *.
  assert (N0 : ntypes (vp_g p0) = nt).
  { destruct (IP p0) as (g & Ig & ->); [rewrite Eps; left; auto|]. cbn [vp_g]. apply (sp_nt _ _ _ _ (proj1 (HP g Ig))). }
  rewrite N0.
  assert (F : forallb (fun p => ntypes (vp_g p) =? nt) ps = true).
  { apply forallb_forall. intros p Ip. destruct (IP p Ip) as (g & Ig & ->). cbn [vp_g]. rewrite (sp_nt _ _ _ _ (proj1 (HP g Ig))). apply Nat.eqb_refl. }
  rewrite F. rewrite each_all.
  2:{ intros p Ip. destruct (IP p Ip) as (g & Ig & ->). unfold chk_count, count_verts. cbn [vp_g]. destruct (CV g Ig) as (vs & E1 & E2). rewrite E1. cbn [obind]. rewrite E2, Nat.eqb_refl. reflexivity. }
  cbn [obind]. rewrite forallb_repeat. unfold add_long.
  rewrite mapM_fun with (h := fun p => nlv (vp_g p)).
  2:{ intros p Ip. destruct (IP p Ip) as (g & Ig & ->). unfold count_verts. cbn [vp_g]. destruct (CV g Ig) as (vs & E1 & E2). rewrite E1. cbn [obind]. now rewrite E2. }
  cbn [obind].
  replace (zsum (map Z.of_nat (map (fun p => nlv (vp_g p)) ps))) with gv by (unfold ps, gv; rewrite !map_map; cbn [vp_g]; reflexivity).
  rewrite each_all.
  2:{ intros p Ip. destruct (IP p Ip) as (g & Ig & ->). unfold chk_verts. cbn [vp_g vp_gv]. rewrite Z.eqb_refl.
      destruct (sp_verts _ _ _ _ (proj1 (HP g Ig))) as (vs & E1 & E2 & H). rewrite E1. cbn [obind]. pose proof (sp_nt _ _ _ _ (proj1 (HP g Ig))) as Nt. rewrite Nt.
      assert (X : forM (fun h => forM (chk_degree g fuel h) (seq 0 nt)) vs = Some true).
      { apply forM_true. intros h Hh. apply forM_true. intros t Ht. apply in_seq in Ht. destruct (H h t Hh ltac:(lia)) as (es & A & B & _). unfold chk_degree. rewrite A, B. cbn [obind]. now rewrite Nat.eqb_refl. }
      rewrite X. cbn [obind]. apply forM_true. intros h Hh. apply forM_true. intros t Ht. apply in_seq in Ht. destruct (H h t Hh ltac:(lia)) as (es & A & B & C). unfold chk_incident. rewrite A. cbn [obind].
      apply forM_true. exact C. }
  cbn [obind]. rewrite LP. apply TY. intros t Ht. apply in_seq in Ht. lia.
Qed.
