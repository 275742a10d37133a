(** Facts about one part during migration. *)
From Verif Require Import Base GraphModel CsrProofs ConstructProofs GraphSpec AccessProofs AccessProofs2 GraphTop GraphTop2 GraphTop3 Comm TagModel TagProps MigrateModel MigrateSpec.

(* ---------------- generic ---------------- *)
Lemma phase_intro A M B (send : A -> option (list (Z * M))) (recv : A -> list (Z * M) -> option B) st (PB : nat -> B -> Prop) (Q : list B -> Prop) :
  (forall i a, nth_error st i = Some a -> exists ms, send a = Some ms /\ forall m, In m ms -> (0 <= fst m < Z.of_nat (length st))%Z) ->
  (forall sent rcv, mapM send st = Some sent -> delivered sent rcv ->
     forall i a r, nth_error st i = Some a -> nth_error rcv i = Some r -> exists b, recv a r = Some b /\ PB i b) ->
  (forall st', length st' = length st -> (forall i b, nth_error st' i = Some b -> PB i b) -> Q st') -> phase send recv st Q.
Proof.
  intros H1 H2 H3.
  assert (HS : exists sent, mapM send st = Some sent).
  { apply mapM_forall. intros a Ha. apply In_nth_error in Ha as (i & Hi). destruct (H1 i a Hi) as (ms & E & _). eauto. }
  destruct HS as (sent & ES). exists sent. split; [exact ES|]. pose proof (mapM_length _ _ _ _ _ ES) as LS. split.
  - intros ms m Hms Hm. apply In_nth_error in Hms as (i & Hi).
    destruct (nth_error st i) as [a|] eqn:Ea.
    + destruct (mapM_nth _ _ _ _ _ _ _ ES Ea) as (y & Hy & Ey). destruct (H1 i a Ea) as (ms' & E' & D). rewrite LS. apply D. congruence.
    + apply nth_error_None in Ea. assert (i < length sent) by (apply nth_error_Some; congruence). lia.
  - intros rcv D. assert (LR : length rcv = length st) by (destruct D as (_ & -> & _); auto).
    destruct (par2_total _ _ _ (fun _ a r => recv a r) 0 st rcv LR) as (st' & E').
    { intros i a b Ha Hb. destruct (H2 sent rcv ES D i a b Ha Hb) as (c & Ec & _). eauto. }
    exists st'. split; [exact E'|]. apply H3; [now apply par2_length in E' as (-> & _)|].
    intros i b Hb. destruct (par2_nth _ _ _ _ _ _ _ _ _ _ E' Hb) as (a & r & Ha & Hr & Er).
    destruct (H2 sent rcv ES D i a r Ha Hr) as (c & Ec & P). assert (c = b) by congruence. now subst.
Qed.
Lemma local_intro A B (f : A -> option B) st (PB : nat -> B -> Prop) (Q : list B -> Prop) :
  (forall i a, nth_error st i = Some a -> exists b, f a = Some b /\ PB i b) ->
  (forall st', length st' = length st -> (forall i b, nth_error st' i = Some b -> PB i b) -> Q st') -> local f st Q.
Proof.
  intros H1 H2. assert (HS : exists st', mapM f st = Some st').
  { apply mapM_forall. intros a Ha. apply In_nth_error in Ha as (i & Hi). destruct (H1 i a Hi) as (b & E & _). eauto. }
  destruct HS as (st' & E). exists st'. split; [exact E|]. pose proof (mapM_length _ _ _ _ _ E) as L. apply H2; auto.
  intros i b Hb. destruct (nth_error st i) as [a|] eqn:Ea.
  - destruct (mapM_nth _ _ _ _ _ _ _ E Ea) as (y & Hy & Ey). destruct (H1 i a Ea) as (b' & E' & P). assert (b' = b) by congruence. now subst.
  - apply nth_error_None in Ea. assert (i < length st') by (apply nth_error_Some; congruence). lia.
Qed.
(** arrivals in terms of what the parts send *)
Lemma arrived_in A M (send : A -> option (list (Z * M))) st sent rcv q r p m :
  mapM send st = Some sent -> delivered sent rcv -> nth_error rcv q = Some r ->
  In (p, m) r <-> exists i a ms, nth_error st i = Some a /\ send a = Some ms /\ p = Z.of_nat i /\ In (Z.of_nat q, m) ms.
Proof.
  intros E D Hr. rewrite (delivered_in _ _ _ _ _ _ _ D Hr). split.
  - intros (i & ms & Hi & -> & Hm). destruct (nth_error st i) as [a|] eqn:Ea.
    + destruct (mapM_nth _ _ _ _ _ _ _ E Ea) as (y & Hy & Ey). exists i, a, ms. repeat split; auto. congruence.
    + apply nth_error_None in Ea. apply mapM_length in E. assert (i < length sent) by (apply nth_error_Some; congruence). lia.
  - intros (i & a & ms & Ha & Es & -> & Hm). destruct (mapM_nth _ _ _ _ _ _ _ E Ha) as (y & Hy & Ey). exists i, ms. repeat split; auto. congruence.
Qed.
Lemma NoDup_flat_map A B (f : A -> list B) l : NoDup l -> (forall a, In a l -> NoDup (f a)) ->
  (forall a b x, In a l -> In b l -> In x (f a) -> In x (f b) -> a = b) -> NoDup (flat_map f l).
Proof.
  induction l as [|a l IH]; intros ND H1 H2; cbn; [constructor|]. inversion ND; subst. apply NoDup_app_iff. split; [apply H1; cbn; auto|]. split.
  - apply IH; auto; [intros; apply H1; cbn; auto|intros x y z Hx Hy; apply H2; cbn; auto].
  - intros x Hx Hin. apply in_flat_map in Hin as (b & Hb & Hxb). assert (a = b) by (eapply H2; cbn; eauto). subst. contradiction.
Qed.
(** arrivals are pairwise different when the records sent are *)
Lemma arrived_nodup A M (send : A -> option (list (Z * M))) st sent rcv q r :
  mapM send st = Some sent -> delivered sent rcv -> nth_error rcv q = Some r ->
  (forall i a ms, nth_error st i = Some a -> send a = Some ms -> NoDup (map snd (filter (fun m => Z.eqb (fst m) (Z.of_nat q)) ms))) ->
  (forall i j a b ms ms' m, nth_error st i = Some a -> nth_error st j = Some b -> send a = Some ms -> send b = Some ms' ->
     In (Z.of_nat q, m) ms -> In (Z.of_nat q, m) ms' -> i = j) -> NoDup (map snd r).
Proof.
  intros E (_ & _ & D) Hr H1 H2. specialize (D q r Hr). eapply Permutation_NoDup; [apply Permutation_map; symmetry; exact D|].
  assert (N : forall i ms, nth_error sent i = Some ms -> exists a, nth_error st i = Some a /\ send a = Some ms).
  { intros i ms Hi. destruct (nth_error st i) as [a|] eqn:Ea.
    + destruct (mapM_nth _ _ _ _ _ _ _ E Ea) as (y & Hy & Ey). exists a. split; auto. congruence.
    + apply nth_error_None in Ea. apply mapM_length in E. assert (i < length sent) by (apply nth_error_Some; congruence). lia. }
  assert (C : forall (l : list (list (Z * M))) a i ms, In (i, ms) (combine (seq a (length l)) l) -> a <= i /\ nth_error l (i - a) = Some ms).
  { clear. induction l as [|x l IH]; intros a i ms H; [destruct H|]. cbn in H. destruct H as [H|H].
    - inversion H; subst. rewrite Nat.sub_diag. auto.
    - apply IH in H as (? & ?). split; [lia|]. replace (i - a) with (S (i - S a)) by lia. auto. }
  unfold addressed.
  assert (G : forall l, map snd (flat_map (fun pm : nat * list (Z * M) => map (fun m => (Z.of_nat (fst pm), snd m)) (filter (fun m => Z.eqb (fst m) (Z.of_nat q)) (snd pm))) l)
     = flat_map (fun pm : nat * list (Z * M) => map snd (filter (fun m => Z.eqb (fst m) (Z.of_nat q)) (snd pm))) l).
  { induction l as [|x l IH]; cbn; auto. rewrite map_app, IH, map_map. reflexivity. }
  rewrite G. apply NoDup_flat_map.
  - assert (K : forall (l : list (list (Z * M))) a, map fst (combine (seq a (length l)) l) = seq a (length l)).
    { induction l as [|x l IH]; intros a; cbn; auto. now rewrite IH. }
    apply (NoDup_map_inv fst). rewrite K. apply seq_NoDup.
  - intros (i & ms) Hi. apply C in Hi as (_ & Hi). rewrite Nat.sub_0_r in Hi. cbn [snd]. destruct (N i ms Hi) as (a & Ha & Es). eapply H1; eauto.
  - intros (i & ms) (j & ms') x Hi Hj Hx Hx'. apply C in Hi as (_ & Hi). apply C in Hj as (_ & Hj). rewrite Nat.sub_0_r in Hi, Hj. cbn [snd] in *.
    apply in_map_iff in Hx as ((d & m) & Ex & Hx). apply in_map_iff in Hx' as ((d' & m') & Ex' & Hx'). cbn in Ex, Ex'. subst m m'.
    apply filter_In in Hx as (Hx & Ed). apply filter_In in Hx' as (Hx' & Ed'). cbn in Ed, Ed'. apply Z.eqb_eq in Ed, Ed'. subst d d'.
    destruct (N i ms Hi) as (a & Ha & Es). destruct (N j ms' Hj) as (b & Hb & Es').
    assert (i = j) by (eapply H2; eauto). subst j. f_equal. congruence.
Qed.
Lemma perm_by_mem A (l l' : list A) : NoDup l -> NoDup l' -> (forall x, In x l <-> In x l') -> Permutation l l'.
Proof. apply NoDup_Permutation. Qed.
Lemma NoDup_map_key A B (f : A -> B) l x y : NoDup (map f l) -> In x l -> In y l -> f x = f y -> x = y.
Proof.
  induction l as [|a l IH]; cbn; intros ND Hx Hy E; [destruct Hx|]. inversion ND as [|? ? N ND']; subst.
  destruct Hx as [<-|Hx], Hy as [<-|Hy]; auto.
  - exfalso. apply N. rewrite E. now apply in_map. - exfalso. apply N. rewrite <- E. now apply in_map.
Qed.
Lemma NoDup_filter_map A B (f : A -> B) p l : NoDup (map f l) -> NoDup (map f (filter p l)).
Proof.
  induction l as [|a l IH]; cbn; intros H; auto. inversion H; subst. destruct (p a); cbn; auto. constructor; auto.
  intros Hin. apply in_map_iff in Hin as (x & E & Hx). apply filter_In in Hx as (Hx & _). apply H2. rewrite <- E. now apply in_map.
Qed.

(* ---------------- neighbour edges ---------------- *)
Section AdjE.
Variables (g : graph) (verts wts ghosts : list Z) (tys : list (list (Z * list Z) * list Z)).
Hypothesis HR : Rep g verts wts ghosts tys.
Variables (t : nat) (es : list (Z * list Z)) (ws : list Z).
Hypothesis Ht : nth_error tys t = Some (es, ws).
Let all := verts ++ ghosts.
Let n := length verts.
Let h (v : Z) : nat := S (idx all v).
Let poff (i : nat) := nsum (firstn i (map (@length Z) (epins_of es))).
Let pa (i : nat) : list Z := match nth_error es i with Some e => snd e | None => [] end.
Let eh (i : nat) := getEdge (ntypes g) i t.

Lemma adj_e_outer : hyper g = true -> forall r eit count pit edge d,
  yields (eit_step g) eit (map eh r) ->
  (forall i, In i r -> exists gid ps, nth_error es i = Some (gid, ps) /\ ps <> []) ->
  edegree g edge = Some d -> d <= count ->
  yields (adj_estep g) (mkGiter count eit pit edge) (flat_map (fun i => map (fun _ => eh i) (pa i)) r).
Proof.
  intros Hh. induction r as [|i r IH]; intros eit count pit edge d Hy Hr Hd Hc.
  - cbn in Hy. destruct Hy as [eit' Hy]. cbn. exists (mkGiter count eit' None edge).
    unfold adj_estep, adj_step. rewrite Hh. cbn [gi_edge gi_count gi_eit]. rewrite Hd. cbn [obind].
    destruct (Nat.leb_spec d count); [|lia]. rewrite Hy. reflexivity.
  - cbn [map yields] in Hy. destruct Hy as (Hne & eit' & Hy & Hy').
    destruct (Hr i (or_introl eq_refl)) as (gid & ps & Hi & Hps).
    cbn [flat_map]. assert (Hpa : pa i = ps) by (unfold pa; now rewrite Hi).
    rewrite Hpa.
    assert (Hin : forall k m, m + k = length ps -> 1 <= m ->
      yields (adj_estep g) (mkGiter m eit' (Some (PHyper t (poff i + m) (poff i + length ps))) (eh i))
        (map (fun _ => eh i) (skipn m ps) ++ flat_map (fun i => map (fun _ => eh i) (pa i)) r)).
    { induction k as [|k IHk]; intros m Hm H1.
      - rewrite skipn_all2 by lia. cbn [map app]. eapply IH with (d := length ps); eauto; try lia.
        + intros j Hj. apply Hr. right; auto.
        + apply (edegree_hyper _ _ _ _ _ HR t es ws i gid ps Hh Ht Hi).
      - destruct (nth_error ps m) as [v|] eqn:Ev; [|apply nth_error_None in Ev; lia].
        assert (Es : skipn m ps = v :: skipn (S m) ps).
        { clear - Ev. revert ps Ev; induction m as [|m IHm]; intros [|a ps] Ev; simpl in *; try discriminate.
          - inversion Ev; auto. - now apply IHm. }
        rewrite Es. cbn [map app yields]. split; [exact Hne|].
        eexists; split.
        + unfold adj_estep, adj_step. rewrite Hh. cbn [gi_edge gi_count gi_eit gi_pit].
          unfold eh. rewrite (edegree_hyper _ _ _ _ _ HR t es ws i gid ps Hh Ht Hi). cbn [obind].
          destruct (Nat.leb_spec (length ps) m); [lia|].
          cbn [obind]. pose proof (pit_step_hyper _ _ _ _ _ HR t es ws i gid ps m v Ht Hi Ev) as Hp.
          cbv zeta in Hp. fold (poff i) in Hp. rewrite Hp. cbn [obind Nat.eqb gi_edge].
          rewrite Nat.add_1_r. reflexivity.
        + apply IHk; lia. }
    destruct ps as [|v ps']; [congruence|]. cbn [map app yields]. split; [exact Hne|].
    eexists; split.
    + unfold adj_estep, adj_step. rewrite Hh. cbn [gi_edge gi_count gi_eit gi_pit]. rewrite Hd. cbn [obind].
      destruct (Nat.leb_spec d count); [|lia]. rewrite Hy. cbn [obind].
      destruct (Nat.eqb_spec (eh i) 0); [congruence|].
      unfold eh. rewrite (pins_begin_hyper _ _ _ _ _ HR t es ws i gid (v :: ps') Hh Ht Hi). cbn [obind].
      pose proof (pit_step_hyper _ _ _ _ _ HR t es ws i gid (v :: ps') 0 v Ht Hi eq_refl) as Hp.
      cbv zeta in Hp. rewrite Nat.add_0_r in Hp. rewrite Hp. cbn [obind Nat.eqb gi_edge]. reflexivity.
    + change (map (fun _ => eh i) ps') with (map (fun _ => eh i) (skipn 1 (v :: ps'))). apply Hin with (k := length ps'); simpl; lia.
Qed.

Lemma adjacent_edges_hyper l v fuel : hyper g = true -> nth_error verts l = Some v ->
  length (flat_map pa (incident v es)) < fuel ->
  adjacent_edges g (S l) t fuel = Some (flat_map (fun i => map (fun _ => eh i) (pa i)) (incident v es)).
Proof.
  intros Hh Hv Hf. assert (Hl : l < n) by (apply nth_error_Some; unfold n in *; congruence).
  assert (Ev : vals_of l (occ_of g verts ghosts es) = incident v es).
  { unfold occ_of, epins_of, incident. rewrite Hh. apply vals_of_occs_hyper; auto; [apply HR|now rewrite nth_error_app1|].
    destruct (gtype_ok _ _ _ _ _ HR _ _ _ Ht) as (ed & _ & HE & _). apply (er_incl _ _ _ _ _ _ HE). }
  unfold adjacent_edges, adj_begin.
  assert (Hy : exists it, eit_vertex g (S l) t = Some it /\ yields (eit_step g) it (map eh (incident v es))).
  { pose proof (vertex_edges_hyper _ _ _ _ _ HR t es ws l (S (cnt_of l (occ_of g verts ghosts es))) Hh Ht Hl ltac:(lia)) as VE. rewrite Ev in VE.
    unfold vertex_edges in VE. destruct (eit_vertex g (S l) t) as [it|] eqn:Eit; [|discriminate]. cbn [obind] in VE.
    exists it; split; auto. clear - VE. revert VE. generalize (S (cnt_of l (occ_of g verts ghosts es))) as fuel. fold eh.
    generalize (map eh (incident v es)) as L.
    intros L fuel. revert it L. induction fuel as [|f IH]; intros it L H; simpl in H; [discriminate|].
    destruct (eit_step g it) as [[x it']|] eqn:Es; simpl in H; [|discriminate].
    destruct (Nat.eqb_spec x 0).
    - inversion H; subst. simpl. eauto.
    - destruct (drain (eit_step g) f it') as [r|] eqn:Ed; simpl in H; [|discriminate]. inversion H; subst.
      cbn [yields]. split; auto. exists it'. split; auto. }
  destruct Hy as (it & Eit & Hy). rewrite Eit. cbn [obind].
  apply drain_yields.
  - eapply adj_e_outer; eauto.
    + intros i Hi. rewrite <- Ev in Hi. eapply vals_in_pins; eauto.
    + unfold edegree. rewrite Hh. reflexivity.
  - replace (length (flat_map (fun i => map (fun _ => eh i) (pa i)) (incident v es))) with (length (flat_map pa (incident v es))); [exact Hf|].
    clear. induction (incident v es) as [|i r IH]; auto. cbn. now rewrite !app_length, map_length, IH.
Qed.
End AdjE.
