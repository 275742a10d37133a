(** All the parts: one edge type. *)
From Verif Require Import Base GraphModel CsrProofs ConstructProofs AccessProofs Comm TagModel MigrateModel MigrateProofs1 MeshModel MeshProofs1 MeshProofs2.

(** a primary entity is owned by one part, once *)
Definition owned_once (ms : list pmesh) : Prop := forall p q m m' i j v, nth_error ms p = Some m -> nth_error ms q = Some m' ->
  nth_error (pm_prim m) i = Some (v, true) -> nth_error (pm_prim m') j = Some (v, true) -> p = q /\ i = j.
(** the hyperedge entities of all parts, [hs], fit the mesh *)
Record copies_ok (ms : list pmesh) (hs : list hdim) : Prop := mkCopies {
  co_len : length hs = length ms;
  co_down : forall p m h, nth_error ms p = Some m -> nth_error hs p = Some h -> length (h_down h) = length (pm_prim m);
  co_gid : forall p h, nth_error hs p = Some h -> NoDup (gids h);
  co_adj : forall p m h e w, nth_error ms p = Some m -> nth_error hs p = Some h -> In (e, w) (h_ents h) -> NoDup (en_adj e) /\ forall i, In i (en_adj e) -> i < length (pm_prim m);
  co_row : forall p h i row, nth_error hs p = Some h -> nth_error (h_down h) i = Some row ->
    NoDup row /\ forall k, In k row <-> exists e w, nth_error (h_ents h) k = Some (e, w) /\ In i (en_adj e);
  co_res : forall p h e w, nth_error hs p = Some h -> In (e, w) (h_ents h) -> NoDup (en_res e) /\
    forall q, In q (en_res e) <-> exists q' h', q = Z.of_nat q' /\ nth_error hs q' = Some h' /\ In (en_gid e) (gids h');
  co_shared : forall p h e w, nth_error hs p = Some h -> In (e, w) (h_ents h) -> (en_shared e = true <-> exists q, In q (en_res e) /\ q <> Z.of_nat p) }.
(** an owned primary entity v touches a copy of the entity with number x *)
Definition touch (ms : list pmesh) (hs : list hdim) (x v : Z) : Prop :=
  exists p m h e w, nth_error ms p = Some m /\ nth_error hs p = Some h /\ In (e, w) (h_ents h) /\ en_gid e = x /\ In v (adjl m e).

(** counting the records for one part *)
Definition sel {M} (s p : Z) (l : list (Z * M)) : list (Z * M) := map (fun m => (s, snd m)) (filter (fun m => Z.eqb (fst m) p) l).
Lemma sel_flat A M s p (f : A -> list (Z * M)) l : sel s p (flat_map f l) = flat_map (fun a => sel s p (f a)) l.
Proof. unfold sel. induction l as [|a l IH]; [reflexivity|]. cbn [flat_map]. now rewrite filter_app, map_app, IH. Qed.
Lemma sel_map M s p (c : M) l : sel s p (map (fun q => (q, c)) l) = repeat (s, c) (length (filter (fun q => Z.eqb q p) l)).
Proof. unfold sel. induction l as [|q l IH]; [reflexivity|]. cbn [map filter fst]. destruct (Z.eqb q p); cbn [map snd length repeat]; now rewrite IH. Qed.
Lemma cnt1_app x a b : cnt1 x (a ++ b) = cnt1 x a + cnt1 x b. Proof. unfold cnt1. now rewrite map_app, nsum_app. Qed.
Lemma cnt2_app x a b : cnt2 x (a ++ b) = cnt2 x a + cnt2 x b. Proof. unfold cnt2. now rewrite map_app, nsum_app. Qed.
Lemma cnt1_repeat x s y k c : cnt1 x (repeat (s, (y, c)) k) = k * (if Z.eqb y x then c else 0).
Proof. induction k as [|k IH]; [reflexivity|]. cbn [repeat]. change ((s, (y, c)) :: repeat (s, (y, c)) k) with ([(s, (y, c))] ++ repeat (s, (y, c)) k). rewrite cnt1_app, IH. unfold cnt1. cbn. lia. Qed.
Lemma cnt2_repeat x s y k c : cnt2 x (repeat (s, (y, c)) k) = k * (if Z.eqb y x then 1 else 0).
Proof. induction k as [|k IH]; [reflexivity|]. cbn [repeat]. change ((s, (y, c)) :: repeat (s, (y, c)) k) with ([(s, (y, c))] ++ repeat (s, (y, c)) k). rewrite cnt2_app, IH. unfold cnt2. cbn. lia. Qed.
Lemma ent_counts s p q m x e w : (en_shared e = true <-> exists q', In q' (en_res e) /\ q' <> q) -> cnt1 x (sel s p (out1 q m (e, w))) = cnt2 x (sel s p (out2 q m (e, w))).
Proof.
  intros HS. unfold out1, out2. cbn [fst].
  assert (R : cnt2 x (sel s p (flat_map (fun v => map (fun q0 => (q0, (en_gid e, v))) (others q e)) (adjl m e))) = length (adjl m e) * (length (filter (fun q0 => Z.eqb q0 p) (others q e)) * (if Z.eqb (en_gid e) x then 1 else 0))).
  { rewrite sel_flat. induction (adjl m e) as [|v l IH]; [reflexivity|]. cbn [flat_map length]. rewrite cnt2_app, IH, sel_map, cnt2_repeat. lia. }
  rewrite R. destruct (en_shared e) eqn:E.
  - rewrite sel_map, cnt1_repeat. destruct (Z.eqb (en_gid e) x); lia.
  - assert (O : others q e = []).
    { destruct (others q e) as [|y l] eqn:EO; auto. exfalso. assert (I : In y (others q e)) by (rewrite EO; now left). unfold others in I. apply filter_In in I as (I & B).
      assert (false = true); [|discriminate]. apply HS. exists y. split; auto. apply negb_true_iff in B. now apply Z.eqb_neq in B. }
    rewrite O. cbn. lia.
Qed.

Section OneType.
Variable ms : list pmesh.
Variable hs : list hdim.
Hypothesis HO : owned_once ms.
Hypothesis HC : copies_ok ms hs.

Definition triples : list (nat * (pmesh * hdim)) := combine (seq 0 (length ms)) (combine ms hs).
Definition S1 : list (list (Z * (Z * nat))) := map (fun t : nat * (pmesh * hdim) => flat_map (out1 (Z.of_nat (fst t)) (fst (snd t))) (h_ents (snd (snd t)))) triples.
Definition S2 : list (list (Z * (Z * Z))) := map (fun t : nat * (pmesh * hdim) => flat_map (out2 (Z.of_nat (fst t)) (fst (snd t))) (h_ents (snd (snd t)))) triples.
Lemma triples_len : length triples = length ms.
Proof. unfold triples. rewrite !combine_length, seq_length, (co_len _ _ HC). lia. Qed.
Lemma nth_combine2 A B (l : list A) (l' : list B) i a b : nth_error l i = Some a -> nth_error l' i = Some b -> nth_error (combine l l') i = Some (a, b).
Proof. revert l' i. induction l as [|x l IH]; intros [|y l'] [|i] H K; cbn in *; try discriminate; [congruence|auto]. Qed.
Lemma nth_combine2_inv A B (l : list A) (l' : list B) i a b : nth_error (combine l l') i = Some (a, b) -> nth_error l i = Some a /\ nth_error l' i = Some b.
Proof. revert l' i. induction l as [|x l IH]; intros [|y l'] [|i] H; cbn in *; try discriminate; [inversion H; auto|auto]. Qed.
Lemma triples_nth p t : nth_error triples p = Some t <-> fst t = p /\ nth_error ms p = Some (fst (snd t)) /\ nth_error hs p = Some (snd (snd t)).
Proof.
  destruct t as (i, (m, h)). cbn [fst snd]. unfold triples. split.
  - intros H. apply nth_combine2_inv in H as (H1 & H2). apply nth_combine2_inv in H2 as (H2 & H3). split; auto.
    assert (L : p < length ms) by (apply nth_error_Some; congruence). rewrite nth_error_seq in H1 by auto. inversion H1. lia.
  - intros (-> & H2 & H3). assert (L : p < length ms) by (apply nth_error_Some; congruence). apply nth_combine2; [now rewrite nth_error_seq|]. now apply nth_combine2.
Qed.
Lemma hs_nth p m : nth_error ms p = Some m -> exists h, nth_error hs p = Some h.
Proof. intros H. destruct (nth_error hs p) as [h|] eqn:E; eauto. apply nth_error_None in E. rewrite (co_len _ _ HC) in E. assert (p < length ms) by (apply nth_error_Some; congruence). lia. Qed.
Lemma S1_nth p m h : nth_error ms p = Some m -> nth_error hs p = Some h -> nth_error S1 p = Some (flat_map (out1 (Z.of_nat p) m) (h_ents h)).
Proof. intros H1 H2. unfold S1. rewrite nth_error_map. rewrite (proj2 (triples_nth p (p, (m, h)))) by (cbn; auto). reflexivity. Qed.
Lemma S2_nth p m h : nth_error ms p = Some m -> nth_error hs p = Some h -> nth_error S2 p = Some (flat_map (out2 (Z.of_nat p) m) (h_ents h)).
Proof. intros H1 H2. unfold S2. rewrite nth_error_map. rewrite (proj2 (triples_nth p (p, (m, h)))) by (cbn; auto). reflexivity. Qed.
Lemma same_counts p x : cnt1 x (addressed p S1) = cnt2 x (addressed p S2).
Proof.
  unfold addressed, S1, S2. rewrite !map_length.
  assert (G : forall T a, (forall t, In t T -> nth_error triples (fst t) = Some t) ->
    cnt1 x (flat_map (fun pm : nat * list (Z * (Z * nat)) => map (fun m => (Z.of_nat (fst pm), snd m)) (filter (fun m => Z.eqb (fst m) (Z.of_nat p)) (snd pm)))
       (combine (seq a (length T)) (map (fun t : nat * (pmesh * hdim) => flat_map (out1 (Z.of_nat (fst t)) (fst (snd t))) (h_ents (snd (snd t)))) T))) =
    cnt2 x (flat_map (fun pm : nat * list (Z * (Z * Z)) => map (fun m => (Z.of_nat (fst pm), snd m)) (filter (fun m => Z.eqb (fst m) (Z.of_nat p)) (snd pm)))
       (combine (seq a (length T)) (map (fun t : nat * (pmesh * hdim) => flat_map (out2 (Z.of_nat (fst t)) (fst (snd t))) (h_ents (snd (snd t)))) T)))).
  { induction T as [|t T IH]; intros a H; [reflexivity|]. cbn [length seq map combine flat_map fst snd]. rewrite cnt1_app, cnt2_app. f_equal; [|apply IH; intros; apply H; cbn; auto].
    specialize (H t (or_introl eq_refl)). apply triples_nth in H as (_ & H2 & H3). destruct t as (q, (m, h)). cbn [fst snd] in *.
    change (cnt1 x (sel (Z.of_nat a) (Z.of_nat p) (flat_map (out1 (Z.of_nat q) m) (h_ents h))) = cnt2 x (sel (Z.of_nat a) (Z.of_nat p) (flat_map (out2 (Z.of_nat q) m) (h_ents h)))).
    rewrite !sel_flat. assert (K : forall e w, In (e, w) (h_ents h) -> (en_shared e = true <-> exists q', In q' (en_res e) /\ q' <> Z.of_nat q)) by (intros e w I; eapply co_shared; eauto).
    induction (h_ents h) as [|(e, w) l IHl]; [reflexivity|]. cbn [flat_map]. rewrite cnt1_app, cnt2_app. f_equal; [apply ent_counts; eapply K; left; reflexivity|].
    apply IHl. intros; eapply K; right; eauto. }
  apply G. intros t Ht. apply In_nth_error in Ht as (i & Hi). pose proof Hi as Hj. apply triples_nth in Hj as (-> & _). exact Hi.
Qed.
(** what arrives *)
Lemma others_in q e y : In y (others q e) <-> In y (en_res e) /\ y <> q.
Proof. unfold others. rewrite filter_In, negb_true_iff, Z.eqb_neq. reflexivity. Qed.
Lemma out1_in q m x y r : In (y, r) (out1 q m x) -> en_gid (fst x) = fst r /\ In y (others q (fst x)).
Proof. unfold out1. destruct (en_shared (fst x)); [|intros []]. intros H. apply in_map_iff in H as (z & E & H). inversion E; subst. cbn. auto. Qed.
Lemma out2_in q m x y r : In (y, r) (out2 q m x) <-> en_gid (fst x) = fst r /\ In y (others q (fst x)) /\ In (snd r) (adjl m (fst x)).
Proof.
  unfold out2. rewrite in_flat_map. split.
  - intros (v & Hv & H). apply in_map_iff in H as (z & E & H). inversion E; subst. cbn. auto.
  - intros (E & Hy & Hv). exists (snd r). split; auto. apply in_map_iff. exists y. destruct r as (a, b). cbn in *. subst. auto.
Qed.
Lemma dest_ok p h e w y : nth_error hs p = Some h -> In (e, w) (h_ents h) -> In y (others (Z.of_nat p) e) -> (0 <= y < Z.of_nat (length ms))%Z.
Proof.
  intros Hh He Hy. apply others_in in Hy as (Hy & _). apply (co_res _ _ HC p h e w Hh He) in Hy as (q & h' & -> & Hq & _). rewrite <- (co_len _ _ HC). assert (q < length hs) by (apply nth_error_Some; congruence). lia.
Qed.
Lemma gid_here p h e w q hq : nth_error hs p = Some h -> In (e, w) (h_ents h) -> In (Z.of_nat q) (others (Z.of_nat p) e) -> nth_error hs q = Some hq -> In (en_gid e) (gids hq).
Proof.
  intros Hh He Hy Hq. apply others_in in Hy as (Hy & _). apply (co_res _ _ HC p h e w Hh He) in Hy as (q' & h' & E & Hq' & I). assert (q' = q) by lia. subst. congruence.
Qed.
Lemma arr1 p h r rec : nth_error hs p = Some h -> Permutation r (addressed p S1) -> In rec r -> In (fst (snd rec)) (gids h).
Proof.
  intros Hh P I. assert (I' : In rec (addressed p S1)) by (eapply Permutation_in; eauto). destruct rec as (s, (x, c)). cbn [fst snd].
  apply addressed_in in I' as (i & l & Hl & -> & Hm). unfold S1 in Hl. rewrite nth_error_map in Hl. destruct (nth_error triples i) as [t|] eqn:Et; [|discriminate]. cbn in Hl. inversion Hl; subst l.
  apply triples_nth in Et as (<- & H2 & H3). apply in_flat_map in Hm as ((e, w) & He & Hm). apply out1_in in Hm as (E & Ho). cbn [fst] in *. subst x. eapply gid_here; eauto.
Qed.
Lemma arr2 p s x v : In (s, (x, v)) (addressed p S2) <-> exists q m h e w, s = Z.of_nat q /\ nth_error ms q = Some m /\ nth_error hs q = Some h /\ In (e, w) (h_ents h) /\ en_gid e = x /\ In (Z.of_nat p) (others (Z.of_nat q) e) /\ In v (adjl m e).
Proof.
  rewrite addressed_in. split.
  - intros (i & l & Hl & -> & Hm). unfold S2 in Hl. rewrite nth_error_map in Hl. destruct (nth_error triples i) as [t|] eqn:Et; [|discriminate]. cbn in Hl. inversion Hl; subst l.
    apply triples_nth in Et as (<- & H2 & H3). apply in_flat_map in Hm as ((e, w) & He & Hm). apply out2_in in Hm as (E & Ho & Hv). cbn [fst snd] in *. destruct t as (i, (m, h)). cbn [fst snd] in *. exists i, m, h, e, w. auto 10.
  - intros (q & m & h & e & w & -> & H1 & H2 & H3 & H4 & H5 & H6). exists q. eexists. split; [apply S2_nth; eauto|]. split; auto. apply in_flat_map. exists (e, w). split; auto. apply out2_in. cbn. auto.
Qed.
Lemma verts_inj p q m m' v : nth_error ms p = Some m -> nth_error ms q = Some m' -> In v (verts_of m) -> In v (verts_of m') -> p = q.
Proof.
  intros H1 H2 I J. unfold verts_of in *. apply in_map_iff in I as ((a & b) & E & I). cbn in E. subst a. apply filter_In in I as (I & B). cbn in B. subst b.
  apply in_map_iff in J as ((a & b) & E & J). cbn in E. subst a. apply filter_In in J as (J & B). cbn in B. subst b. apply In_nth_error in I as (i & Hi). apply In_nth_error in J as (j & Hj). now apply (HO p q m m' i j v).
Qed.
Lemma verts_nodup p m : nth_error ms p = Some m -> NoDup (verts_of m).
Proof.
  intros H. assert (K : forall i j v, nth_error (pm_prim m) i = Some (v, true) -> nth_error (pm_prim m) j = Some (v, true) -> i = j) by (intros i j v H1 H2; now apply (HO p p m m i j v)).
  unfold verts_of. clear H. induction (pm_prim m) as [|(v, b) l IH]; [constructor|]. assert (N : NoDup (map fst (filter snd l))) by (apply IH; intros i j y H1 H2; specialize (K (S i) (S j) y H1 H2); lia).
  cbn [filter snd]. destruct b; [|exact N]. cbn [map fst]. constructor; auto. intros I. apply in_map_iff in I as ((a & b) & E & I). cbn in E. subst a. apply filter_In in I as (I & B). cbn in B. subst b.
  apply In_nth_error in I as (i & Hi). specialize (K 0 (S i) v eq_refl Hi). discriminate.
Qed.
Lemma adjl_nd p m h e w : nth_error ms p = Some m -> nth_error hs p = Some h -> In (e, w) (h_ents h) -> NoDup (adjl m e).
Proof. intros H1 H2 H3. apply adjl_nodup; [eapply co_adj; eauto|]. intros i j v K1 K2. now apply (HO p p m m i j v). Qed.
Lemma arr2_other p m s x v : nth_error ms p = Some m -> In (s, (x, v)) (addressed p S2) -> ~ In v (verts_of m).
Proof.
  intros Hm H I. apply arr2 in H as (q & mq & h & e & w & -> & H1 & H2 & H3 & H4 & H5 & H6). apply others_in in H5 as (_ & N). apply N. f_equal. apply (verts_inj p q m mq v); auto. eapply adjl_verts; eauto.
Qed.
Lemma gids_inj p h e w e' w' : nth_error hs p = Some h -> In (e, w) (h_ents h) -> In (e', w') (h_ents h) -> en_gid e = en_gid e' -> (e, w) = (e', w').
Proof.
  intros Hh H1 H2 E. pose proof (co_gid _ _ HC p h Hh) as N. unfold gids in N. apply In_nth_error in H1 as (i & Hi). apply In_nth_error in H2 as (j & Hj).
  assert (i = j). { eapply NoDup_nth_error_inj; eauto; rewrite nth_error_map; [rewrite Hi|rewrite Hj]; cbn; [reflexivity|now rewrite E]. } subst. congruence.
Qed.
(** the vertices arriving for one hyperedge are different *)
Lemma addressed_nodup p : NoDup (map snd (addressed p S2)).
Proof.
  assert (D : dests_ok S2).
  { intros l y Hl Hy. unfold S2 in *. rewrite map_length, triples_len. apply in_map_iff in Hl as (t & <- & Ht). apply In_nth_error in Ht as (i & Hi). apply triples_nth in Hi as (<- & H2 & H3).
    apply in_flat_map in Hy as ((e, w) & He & Hy). destruct y as (y, r). apply out2_in in Hy as (_ & Ho & _). cbn [fst] in *. eapply dest_ok; eauto. }
  destruct (delivered_exists _ _ D) as (rcv & Dv). assert (E : mapM (fun l : list (Z * (Z * Z)) => Some l) S2 = Some S2).
  { rewrite (mapM_some _ _ _ (fun l => l)) by auto. now rewrite map_id. }
  destruct (Nat.lt_ge_cases p (length S2)) as [L|G].
  2:{ assert (A : addressed p S2 = []); [|rewrite A; constructor]. destruct (addressed p S2) as [|(s, r) l] eqn:EA; auto. exfalso.
      assert (I : In (s, r) (addressed p S2)) by (rewrite EA; now left). apply addressed_in in I as (i & l' & Hl & _ & Hm). apply nth_error_In in Hl. specialize (D l' _ Hl Hm). cbn in D. lia. }
  destruct (nth_error rcv p) as [r|] eqn:Er; [|apply nth_error_None in Er; destruct Dv as (_ & Lr & _); lia].
  assert (N : NoDup (map snd r)).
  { eapply (arrived_nodup _ _ (fun l : list (Z * (Z * Z)) => Some l) S2 S2 rcv p r E Dv Er).
    - intros i a l Ha El. inversion El; subst l. unfold S2 in Ha. rewrite nth_error_map in Ha. destruct (nth_error triples i) as [t|] eqn:Et; [|discriminate]. cbn in Ha. inversion Ha; subst a.
      apply triples_nth in Et as (<- & H2 & H3). destruct t as (q, (m, h)). cbn [fst snd] in *.
      assert (Q : forall l, map snd (filter (fun m0 : Z * (Z * Z) => Z.eqb (fst m0) (Z.of_nat p)) l) = map snd (sel 0 (Z.of_nat p) l)) by (intros; unfold sel; now rewrite map_map).
      rewrite Q, sel_flat. rewrite flat_map_concat_map, concat_map, map_map, <- flat_map_concat_map.
      apply NoDup_flat_map.
      + apply (NoDup_map_inv (fun x => en_gid (fst x))). eapply co_gid; eauto.
      + intros (e, w) He. unfold out2. cbn [fst]. rewrite sel_flat, flat_map_concat_map, concat_map, map_map, <- flat_map_concat_map. apply NoDup_flat_map.
        * eapply adjl_nd; eauto.
        * intros v _. rewrite sel_map. assert (L1 : length (filter (fun q0 => Z.eqb q0 (Z.of_nat p)) (others (Z.of_nat q) e)) <= 1).
          { assert (N : NoDup (others (Z.of_nat q) e)) by (apply NoDup_filter; eapply co_res; eauto). clear - N. induction (others (Z.of_nat q) e) as [|y l IH]; [cbn; lia|]. inversion N; subst. cbn [filter].
            destruct (Z.eqb_spec y (Z.of_nat p)); [|auto]. subst. cbn [length]. replace (filter (fun q0 => Z.eqb q0 (Z.of_nat p)) l) with (@nil Z); [cbn; lia|].
            symmetry. destruct (filter (fun q0 => Z.eqb q0 (Z.of_nat p)) l) as [|z l'] eqn:EF; auto. exfalso. assert (I : In z (filter (fun q0 => Z.eqb q0 (Z.of_nat p)) l)) by (rewrite EF; now left).
            apply filter_In in I as (I & B). apply Z.eqb_eq in B. subst. tauto. }
          revert L1. generalize (length (filter (fun q0 => Z.eqb q0 (Z.of_nat p)) (others (Z.of_nat q) e))). intros [|[|k]] L1; [constructor|constructor; [intros []|constructor]|lia].
        * intros v v' r0 Hv Hv' I J. rewrite sel_map in *. apply in_map_iff in I as (a & <- & I). apply repeat_spec in I. subst a. apply in_map_iff in J as (b & E' & J). apply repeat_spec in J. subst b. cbn in E'. congruence.
      + intros (e, w) (e', w') r0 He He' I J. unfold sel in *. rewrite map_map in *. apply in_map_iff in I as ((y, a) & E1 & I). apply in_map_iff in J as ((y', b) & E2 & J). cbn [snd] in *. subst a b.
        apply filter_In in I as (I & _). apply filter_In in J as (J & _). apply out2_in in I as (I & _). apply out2_in in J as (J & _). cbn [fst] in *. eapply gids_inj; eauto. congruence.
    - intros i j a b l l' (x, v) Ha Hb E1 E2 I J. inversion E1; inversion E2; subst l l'.
      assert (A1 : In (Z.of_nat i, (x, v)) (addressed p S2)) by (apply addressed_in; exists i, a; auto). assert (A2 : In (Z.of_nat j, (x, v)) (addressed p S2)) by (apply addressed_in; exists j, b; auto).
      apply arr2 in A1 as (q & m & h & e & w & E3 & H1 & _ & _ & _ & _ & H6). apply arr2 in A2 as (q' & m' & h' & e' & w' & E4 & K1 & _ & _ & _ & _ & K6).
      assert (q = i) by lia. assert (q' = j) by lia. subst. apply (verts_inj i j m m' v); auto; eapply adjl_verts; eauto. }
  apply (Permutation_NoDup (l := map snd r)); auto. apply Permutation_map. destruct Dv as (_ & _ & Dv). now apply Dv.
Qed.
End OneType.
