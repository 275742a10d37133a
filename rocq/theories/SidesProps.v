(** C41 (sides) and C42 (targets). *)
From Verif Require Import Base GraphModel GraphSpec GraphTop GraphTop2 AccessProofs Comm TagModel ConnModel MetricsModel MetricsProofs MigrateModel MigrateSpec SidesProofs GraphProps TagProps WeightMigProps MigrateProps.
From Coq Require Import Lqa Qround.
Local Open Scope nat_scope.

(** ** C41 *)
(** homes of the pins of an edge; the edge is cut when they are not all the same part; it borders on p when it is cut and has a pin on p *)
Definition homes (me : Z) (verts : list Z) (owns : zmap Z) (e : edge_input * Z) : list Z := map (part_of me verts owns) (snd (fst e)).
Definition is_cut (hs : list Z) : Prop := exists p q, In p hs /\ In q hs /\ p <> q.
Definition borders (hs : list Z) (p : Z) : Prop := is_cut hs /\ In p hs.
Definition cut_dec hs : {is_cut hs} + {~ is_cut hs}.
Proof. destruct (cutb hs) eqn:E; [left; now apply cutb_iff|right; intros H; apply cutb_iff in H; congruence]. Defined.
Definition borders_dec hs p : {borders hs p} + {~ borders hs p}.
Proof. destruct (cut_dec hs) as [C|C]; [|right; intros (A & _); auto]. destruct (in_dec Z.eq_dec p hs) as [I|I]; [left; split; auto|right; intros (_ & A); auto]. Defined.
(** total weight of the edges that satisfy a decidable property *)
Definition weight_where {P : edge_input * Z -> Prop} (f : Z -> Z) (dec : forall e, {P e} + {~ P e}) (l : list (edge_input * Z)) : Z :=
  zsum (map (fun e => if dec e then f (snd e) else 0%Z) l).
Lemma weight_where_filter P f (dec : forall e, {P e} + {~ P e}) b l : (forall e, b e = true <-> P e) ->
  weight_where f dec l = zsum (map (fun e => f (snd e)) (filter b l)).
Proof.
  intros H. unfold weight_where. induction l as [|e l IH]; [reflexivity|]. cbn [map zsum filter fold_right]. unfold zsum in *. rewrite IH. destruct (dec e) as [D|D].
  - rewrite (proj2 (H e) D). reflexivity.
  - destruct (b e) eqn:E; [exfalso; apply D, H; auto|]. apply Z.add_0_l.
Qed.

Lemma eweights_length hg verts vws tys es ws : valid_input hg verts vws tys -> In (es, ws) tys -> length (eweights (es, ws)) = length es.
Proof.
  intros (_ & _ & _ & HW) Hty. destruct (HW es ws Hty) as ([->|Hw] & _); unfold eweights; cbn [snd fst]; [apply repeat_length|]. destruct ws; [cbn in *; now rewrite repeat_length|exact Hw].
Qed.
(** what the API shows of the edges of a part of a hypergraph *)
Lemma observed_hyper me verts vws tys owns g t es ws fuel : valid_input true verts vws tys -> build_part me true verts vws tys owns = Some g ->
  nth_error tys t = Some (es, ws) -> length es < fuel -> observed g t fuel (map (fun e => (homes me verts owns e, snd e)) (erecs (es, ws))).
Proof.
  intros HV HB Ht HF. pose proof (p_constructed _ _ _ _ _ _ _ HV HB) as HC. eexists. split; [apply (w_iter_edges _ _ _ _ _ _ HC t es ws fuel Ht HF)|].
  pose proof (eweights_length _ _ _ _ _ _ HV (nth_error_In _ _ Ht)) as LW.
  assert (G : forall k es' ws', length ws' = length es' -> (forall i e, nth_error es' i = Some e -> nth_error es (k + i) = Some e) -> (forall i w, nth_error ws' i = Some w -> nth_error (eweights (es, ws)) (k + i) = Some w) ->
     Forall2 (fun e x => getResidence g e = Some (fst x) /\ eweight g e = Some (snd x)) (map (fun i => getEdge (ntypes g) i t) (seq k (length es'))) (map (fun e => (homes me verts owns e, snd e)) (combine es' ws'))).
  { intros k es'. revert k. induction es' as [|e es' IH]; intros k [|w ws'] L He Hw; try discriminate; cbn [length seq map combine]; constructor.
    - cbn [fst snd]. specialize (He 0 e eq_refl). specialize (Hw 0 w eq_refl). rewrite Nat.add_0_r in He, Hw. destruct e as (gid, ps). split.
      + unfold homes. cbn [fst snd]. eapply p_residence; eauto.
      + rewrite (w_edge _ _ _ _ _ _ HC t es ws k _ Ht He). unfold eweights in Hw. cbn [fst snd] in Hw. destruct ws; [apply nth_error_In, repeat_spec in Hw; now subst|exact Hw].
    - apply IH; [auto|..]; intros i x Hx; rewrite Nat.add_succ_l, <- Nat.add_succ_r; auto. }
  apply (G 0 es (eweights (es, ws)) LW); auto.
Qed.

(** the sides that a part finds: total weight over cut edges, and for every other part the weight of the edges it shares with it *)
Definition sides_right (f : Z -> Z) (me : Z) (hs : edge_input * Z -> list Z) (l : list (edge_input * Z)) (s : cont Z) : Prop :=
  c_total s = weight_where f (fun e => cut_dec (hs e)) l /\
  (forall p, p <> me -> cget 0%Z s p = weight_where f (fun e => borders_dec (hs e) p) l) /\
  (forall p, chas s p = true <-> p <> me /\ exists e, In e l /\ borders (hs e) p) /\ NoDup (map fst (c_d s)).
Lemma sides_hyper val f (P : Z -> Prop) me verts vws tys owns g t es ws fuel : P 0%Z -> (forall a w, P a -> P (a + f w)%Z) ->
  valid_input true verts vws tys -> build_part me true verts vws tys owns = Some g -> nth_error tys t = Some (es, ws) -> length es < fuel ->
  (forall e, In e (erecs (es, ws)) -> adds val f P (snd e)) ->
  exists s, makeSides val g t fuel = Some s /\ sides_right f me (homes me verts owns) (erecs (es, ws)) s.
Proof.
  intros P0 PS HV HB Ht HF HA. set (l := erecs (es, ws)) in *. pose proof (observed_hyper _ _ _ _ _ _ _ _ _ _ HV HB Ht HF) as OB. fold l in OB.
  destruct (sides_of val f P g P0 PS t fuel _ OB) as (s & E & Nd & _ & _ & T & F).
  { intros x Hx. apply in_map_iff in Hx as (e & <- & He). cbn. auto. }
  assert (SM : self g = me) by (eapply p_self; eauto). rewrite SM in *. exists s. split; auto.
  assert (FM : forall b : list Z * Z -> bool, map (fun x => f (snd x)) (filter b (map (fun e => (homes me verts owns e, snd e)) l)) = map (fun e => f (snd e)) (filter (fun e => b (homes me verts owns e, snd e)) l)).
  { intros b. clear. induction l as [|e l IH]; [reflexivity|]. cbn [map filter]. destruct (b (homes me verts owns e, snd e)); cbn [map fst snd]; congruence. }
  assert (EX : forall p, existsb (shares p) (map (fun e => (homes me verts owns e, snd e)) l) = true <-> exists e, In e l /\ borders (homes me verts owns e) p).
  { intros p. rewrite existsb_exists. split.
    - intros (x & Hx & S). apply in_map_iff in Hx as (e & <- & He). unfold shares in S. cbn in S. apply andb_true_iff in S as (A & B). exists e. split; auto. split; [now apply cutb_iff|now apply withb_iff].
    - intros (e & He & A & B). eexists. split; [apply in_map_iff; exists e; split; [reflexivity|auto]|]. unfold shares. cbn. apply andb_true_iff. split; [now apply cutb_iff|now apply withb_iff]. }
  repeat split; auto.
  - rewrite T, FM. symmetry. apply weight_where_filter. intros e. cbn. apply cutb_iff.
  - intros p Np. unfold cget. rewrite F. destruct (Z.eqb_spec p me); [contradiction|]. rewrite andb_true_r.
    rewrite (weight_where_filter _ f _ (fun e => shares p (homes me verts owns e, snd e))).
    + rewrite FM. destruct (existsb (shares p) (map (fun e => (homes me verts owns e, snd e)) l)) eqn:EE; [reflexivity|].
      assert (FE : filter (fun e => shares p (homes me verts owns e, snd e)) l = []).
      { clear - EE. induction l as [|e l IH]; [reflexivity|]. cbn in *. apply orb_false_iff in EE as (-> & EE). auto. }
      now rewrite FE.
    + intros e. unfold shares, borders. cbn [fst snd]. rewrite andb_true_iff, cutb_iff, withb_iff. reflexivity.
  - revert H. unfold chas. rewrite F. destruct (Z.eqb_spec p me); [rewrite andb_false_r; discriminate|]. auto.
  - revert H. unfold chas. rewrite F. intros H. apply EX. destruct (existsb (shares p) (map (fun e => (homes me verts owns e, snd e)) l)); [auto|discriminate].
  - intros (Np & He). unfold chas. rewrite F. apply EX in He. rewrite He. destruct (Z.eqb_spec p me); [contradiction|]. reflexivity.
Qed.

(** For weights that are whole numbers: the side toward p is the weight of the cut edges with a pin on p. *)
Theorem C41_hypergraph_partial : forall val f me verts vws tys owns g t ty fuel,
  valid_input true verts vws tys -> build_part me true verts vws tys owns = Some g -> nth_error tys t = Some ty -> length (fst ty) < fuel ->
  (forall e, In e (erecs ty) -> val (snd e) == inject_Z (f (snd e)))%Q ->
  exists s, makeSides val g t fuel = Some s /\ sides_right f me (homes me verts owns) (erecs ty) s.
Proof.
  intros val f me verts vws tys owns g t [es ws] fuel HV HB Ht HF HW. apply (sides_hyper val f (fun _ => True)) with (vws := vws) (tys := tys); auto.
  intros e He a _. apply int_add_whole. auto.
Qed.
Print Assumptions C41_hypergraph_partial.
(** For other weights that are not negative the fraction of every weight is lost. *)
Lemma sides_right_ext f f' me hs l s : (forall e, In e l -> f (snd e) = f' (snd e)) -> sides_right f me hs l s -> sides_right f' me hs l s.
Proof.
  intros H (A & B & C). assert (G : forall (P : edge_input * Z -> Prop) (dec : forall e, {P e} + {~ P e}), weight_where f dec l = weight_where f' dec l).
  { intros P dec. unfold weight_where. f_equal. apply map_ext_in. intros e He. destruct (dec e); auto. }
  split; [rewrite A; apply G|]. split; auto. intros p Hp. rewrite (B p Hp). apply G.
Qed.
Theorem C41_truncated : forall val me verts vws tys owns g t ty fuel,
  valid_input true verts vws tys -> build_part me true verts vws tys owns = Some g -> nth_error tys t = Some ty -> length (fst ty) < fuel ->
  (forall e, In e (erecs ty) -> 0 <= val (snd e))%Q ->
  exists s, makeSides val g t fuel = Some s /\ sides_right (fun w => Qfloor (val w)) me (homes me verts owns) (erecs ty) s.
Proof.
  intros val me verts vws tys owns g t [es ws] fuel HV HB Ht HF HW.
  destruct (sides_hyper val (fun w => Z.max 0 (trunc (val w))) (fun a => 0 <= a)%Z me verts vws tys owns g t es ws fuel) as (s & E & R); auto; [lia|lia|..].
  - intros e He a Ha. rewrite int_add_nonneg by auto. pose proof (trunc_nonneg _ (HW e He)). lia.
  - exists s. split; auto. revert R. apply sides_right_ext. intros e He. pose proof (trunc_nonneg _ (HW e He)). rewrite Z.max_r by auto. specialize (HW e He). unfold trunc. destruct (val (snd e)) as [n d].
    unfold Qle in HW. cbn in HW. cbn. rewrite Z.quot_div_nonneg by lia. reflexivity.
Qed.
Print Assumptions C41_truncated.

(** In a distributed hypergraph the side of part r toward part q is the weight of the edges of the whole hypergraph with pins on both, so it is the
    same seen from either part. *)
Definition on_both (own : Z -> nat) (r q : nat) (E : list (edge_input * Z)) : list (edge_input * Z) := filter (fun e => touches own r e && touches own q e) E.
Lemma pin_home own V T ps r p t es ws e v : distributed own V T ps -> nth_error ps r = Some p -> nth_error (pd_tys p) t = Some (es, ws) -> In e es -> In v (snd e) ->
  part_of (Z.of_nat r) (pd_verts p) (pd_owns p) v = Z.of_nat (own v).
Proof.
  intros (WF & _ & HP) Hr Ht He Hv. destruct (HP r p Hr) as (HV & Lo & PV & _ & _ & HO). unfold part_of.
  assert (VF : map fst (vrecs p) = pd_verts p). { unfold vrecs. destruct HV as (_ & Lw & _). clear - Lw Lo. unfold vweights.
    assert (L : length (combine (pd_vws p ++ repeat 1%Z (length (pd_verts p) - length (pd_vws p))) (pd_oo p)) = length (pd_verts p)) by (rewrite combine_length, app_length, repeat_length; lia).
    revert L. generalize (combine (pd_vws p ++ repeat 1%Z (length (pd_verts p) - length (pd_vws p))) (pd_oo p)). generalize (pd_verts p). induction l as [|x l IH]; intros [|y l'] H; cbn in *; try discriminate; auto. f_equal. auto. }
  destruct (in_dec Z.eq_dec v (pd_verts p)) as [I|I].
  - f_equal. rewrite <- VF in I. apply in_map_iff in I as (x & <- & Hx). apply (Permutation_in _ PV) in Hx. apply filter_In in Hx as (_ & E). apply Nat.eqb_eq in E. auto.
  - assert (G : In v (ghosts_of (pd_verts p) (pd_tys p))).
    { assert (IP : In v (all_pins (pd_tys p))). { apply in_flat_map. exists (es, ws). split; [eapply nth_error_In; eauto|]. apply in_concat. exists (snd e). split; auto. apply in_map. exact He. }
      clear - IP I. unfold ghosts_of. revert IP I. generalize (pd_verts p). induction (all_pins (pd_tys p)) as [|x l IH]; intros s IP I; [destruct IP|]. cbn [first_occ].
      destruct (existsb (Z.eqb x) s) eqn:E.
      - destruct IP as [->|IP]; auto. exfalso. apply existsb_exists in E as (y & Hy & E). apply Z.eqb_eq in E. subst. auto.
      - destruct (Z.eq_dec x v) as [->|N]; [left; auto|]. destruct IP as [IP|IP]; [congruence|]. right. apply IH; auto. rewrite ?in_app_iff. cbn [In]. tauto. }
    rewrite (HO v G). reflexivity.
Qed.
Theorem C41_distributed_partial : forall val f own V T ps r p g t E fuel,
  distributed own V T ps -> nth_error ps r = Some p -> nth_error T t = Some E -> build_part (Z.of_nat r) true (pd_verts p) (pd_vws p) (pd_tys p) (pd_owns p) = Some g ->
  length E < fuel -> (forall e, In e E -> val (snd e) == inject_Z (f (snd e)))%Q ->
  exists s, makeSides val g t fuel = Some s /\
    (forall q, q <> r -> cget 0%Z s (Z.of_nat q) = zsum (map (fun e => f (snd e)) (on_both own r q E))) /\
    (forall q, chas s q = true <-> exists n, q = Z.of_nat n /\ n <> r /\ on_both own r n E <> []) /\
    c_total s = zsum (map (fun e => f (snd e)) (filter (fun e => touches own r e && existsb (fun v => negb (own v =? r)) (snd (fst e))) E)) /\ NoDup (map fst (c_d s)).
Proof.
  intros val f own V T ps r p g t E fuel HD Hr HE HB HF HW. pose proof HD as (WF & _ & HP). destruct (HP r p Hr) as (HV & Lo & PV & LT & PE & HO).
  destruct (nth_error (pd_tys p) t) as [ty|] eqn:Ht. 2:{ apply nth_error_None in Ht. assert (t < length T) by (apply nth_error_Some; congruence). lia. }
  destruct ty as [es ws]. pose proof (PE t (es, ws) E Ht HE) as PM.
  assert (FL : forall (b : edge_input * Z -> bool) (l : list (edge_input * Z)), length (filter b l) <= length l) by (intros b l; induction l as [|x l IH]; cbn; [lia|destruct (b x); cbn; lia]).
  assert (LE : length es = length (erecs (es, ws))). { unfold erecs. rewrite combine_length. rewrite (eweights_length _ _ _ _ _ _ HV (nth_error_In _ _ Ht)). cbn [fst]. lia. }
  destruct (C41_hypergraph_partial val f (Z.of_nat r) (pd_verts p) (pd_vws p) (pd_tys p) (pd_owns p) g t (es, ws) fuel HV HB Ht) as (s & Es & TT & GG & HH & ND).
  { cbn [fst]. rewrite LE. rewrite (Permutation_length PM). pose proof (FL (touches own r) E). lia. }
  { intros e He. apply HW. apply (Permutation_in _ PM) in He. now apply filter_In in He. }
  assert (HM : forall e, In e (erecs (es, ws)) -> homes (Z.of_nat r) (pd_verts p) (pd_owns p) e = map (fun v => Z.of_nat (own v)) (snd (fst e))).
  { intros e He. unfold homes. apply map_ext_in. intros v Hv. eapply pin_home; eauto. unfold erecs in He. destruct e as [e w]. apply in_combine_l in He. exact He. }
  assert (TR : forall e q, touches own q e = true <-> In (Z.of_nat q) (map (fun v => Z.of_nat (own v)) (snd (fst e)))).
  { intros e q. unfold touches. rewrite existsb_exists, in_map_iff. split; intros (v & A & B).
    - apply Nat.eqb_eq in B. exists v. subst q. split; auto.
    - exists v. split; auto. apply Nat.eqb_eq. lia. }
  assert (BD : forall e q, In e (erecs (es, ws)) -> q <> r -> (touches own q e = true <-> borders (homes (Z.of_nat r) (pd_verts p) (pd_owns p) e) (Z.of_nat q))).
  { intros e q He Nq. rewrite (HM e He), TR. split; [|intros (_ & A); auto]. intros A. split; auto. exists (Z.of_nat q), (Z.of_nat r). split; auto. split; [|lia].
    apply TR. apply (Permutation_in _ PM) in He. now apply filter_In in He. }
  assert (SUM : forall (P : edge_input * Z -> Prop) (dec : forall e, {P e} + {~ P e}) (b : edge_input * Z -> bool), (forall e, In e (erecs (es, ws)) -> (b e = true <-> P e)) ->
     weight_where f dec (erecs (es, ws)) = zsum (map (fun e => f (snd e)) (filter (fun e => touches own r e && b e) E))).
  { intros P dec b H. assert (W : weight_where f dec (erecs (es, ws)) = zsum (map (fun e => if b e then f (snd e) else 0%Z) (erecs (es, ws)))).
    { unfold weight_where. f_equal. apply map_ext_in. intros e He. specialize (H e He). destruct (dec e) as [D|D]; destruct (b e) eqn:B; auto; exfalso; [apply H in D; congruence|apply D, H; auto]. }
    rewrite W. rewrite (zsum_perm _ _ (Permutation_map _ PM)). clear. induction E as [|e l IH]; [reflexivity|]. cbn [filter]. destruct (touches own r e); cbn [andb]; auto. cbn [map]. destruct (b e); cbn [map]; unfold zsum in *; cbn [fold_right]; rewrite IH; reflexivity. }
  exists s. split; auto. split; [|split; [|split; auto]].
  - intros q Nq. rewrite GG by lia. unfold on_both. apply SUM. intros e He. apply (BD e q He Nq).
  - intros q. rewrite HH. split.
    + intros (Nq & e & He & B). pose proof B as (_ & I). rewrite (HM e He) in I. apply in_map_iff in I as (v & <- & Hv). exists (own v). split; auto. split; [lia|].
      intros X. apply (Permutation_in _ PM) in He. apply filter_In in He as (He & A). assert (Y : In e (on_both own r (own v) E)); [|rewrite X in Y; destruct Y].
      apply filter_In. split; auto. rewrite A. cbn. unfold touches. apply existsb_exists. exists v. split; auto. apply Nat.eqb_refl.
    + intros (n & -> & Nn & NE). split; [lia|]. destruct (on_both own r n E) as [|e l] eqn:O; [congruence|]. assert (I : In e (on_both own r n E)) by (rewrite O; left; auto).
      apply filter_In in I as (I & A). apply andb_true_iff in A as (A1 & A2). assert (He : In e (erecs (es, ws))) by (apply (Permutation_in _ (Permutation_sym PM)), filter_In; auto).
      exists e. split; auto. apply (BD e n He Nn); auto.
  - rewrite TT. apply SUM. intros e He. rewrite (HM e He). apply (Permutation_in _ PM) in He. apply filter_In in He as (_ & A). apply TR in A. rewrite existsb_exists. split.
    + intros (v & Hv & N). apply negb_true_iff, Nat.eqb_neq in N. exists (Z.of_nat (own v)), (Z.of_nat r). split; [apply in_map_iff; eauto|]. split; auto. lia.
    + intros (a & b & Ha & Hb & N). apply in_map_iff in Ha as (v & <- & Hv). apply in_map_iff in Hb as (w & <- & Hw).
      destruct (Nat.eq_dec (own v) r) as [X|X]; [exists w|exists v]; split; auto; apply negb_true_iff, Nat.eqb_neq; lia.
Qed.
Print Assumptions C41_distributed_partial.
(** both parts of a pair see the same side *)
Theorem C41_symmetric_partial : forall val f own V T ps r1 r2 p1 p2 g1 g2 t E fuel s1 s2,
  distributed own V T ps -> nth_error ps r1 = Some p1 -> nth_error ps r2 = Some p2 -> nth_error T t = Some E -> r1 <> r2 ->
  build_part (Z.of_nat r1) true (pd_verts p1) (pd_vws p1) (pd_tys p1) (pd_owns p1) = Some g1 -> build_part (Z.of_nat r2) true (pd_verts p2) (pd_vws p2) (pd_tys p2) (pd_owns p2) = Some g2 ->
  length E < fuel -> (forall e, In e E -> val (snd e) == inject_Z (f (snd e)))%Q -> makeSides val g1 t fuel = Some s1 -> makeSides val g2 t fuel = Some s2 ->
  cget 0%Z s1 (Z.of_nat r2) = cget 0%Z s2 (Z.of_nat r1) /\ chas s1 (Z.of_nat r2) = chas s2 (Z.of_nat r1).
Proof.
  intros val f own V T ps r1 r2 p1 p2 g1 g2 t E fuel s1 s2 HD H1 H2 HE N B1 B2 HF HW S1 S2.
  destruct (C41_distributed_partial val f own V T ps r1 p1 g1 t E fuel HD H1 HE B1 HF HW) as (s1' & X1 & G1 & K1 & _). rewrite S1 in X1. inversion X1; subst s1'.
  destruct (C41_distributed_partial val f own V T ps r2 p2 g2 t E fuel HD H2 HE B2 HF HW) as (s2' & X2 & G2 & K2 & _). rewrite S2 in X2. inversion X2; subst s2'.
  assert (OB : on_both own r1 r2 E = on_both own r2 r1 E) by (unfold on_both; apply filter_ext; intros e; apply andb_comm). split; [rewrite G1, G2, OB by auto; reflexivity|].
  assert (I : chas s1 (Z.of_nat r2) = true <-> chas s2 (Z.of_nat r1) = true).
  { rewrite K1, K2. split; intros (n & A & B & C); apply Nat2Z.inj in A; subst n; eexists; repeat split; eauto; congruence. }
  destruct (chas s1 (Z.of_nat r2)); destruct (chas s2 (Z.of_nat r1)); auto; destruct I as (I1 & I2); [discriminate (I1 eq_refl)|discriminate (I2 eq_refl)].
Qed.
Print Assumptions C41_symmetric_partial.

(** the fraction of a weight is lost: two cut edges of weight 1/2 make a side of 0, not 1 *)
Definition half_tys : list type_input := [([(100, [1; 2]); (101, [2; 1])], [7; 7])]%Z.
Theorem C41_fractional_refuted : exists g s, build_part 0 true [1%Z] [] half_tys [(2, 1)]%Z = Some g /\ valid_input true [1%Z] [] half_tys /\
  makeSides (fun _ => 1 # 2)%Q g 0 10 = Some s /\ cget 0%Z s 1%Z = 0%Z /\ c_total s = 0%Z /\ chas s 1%Z = true.
Proof.
  destruct (build_part 0 true [1%Z] [] half_tys [(2, 1)]%Z) as [g|] eqn:E; [|vm_compute in E; discriminate]. exists g. vm_compute in E. inversion E; subst g. eexists. split; [reflexivity|].
  split; [|repeat split; vm_compute; reflexivity]. split; [repeat constructor; cbn; intuition congruence|]. split; [cbn; lia|]. split; [cbn; lia|]. intros es ws [H|[]]; inversion H; subst; (split; [auto|discriminate]).
Qed.
Print Assumptions C41_fractional_refuted.
(** three edges, two of them cut, seen from the two parts *)
Example C41_example : distributed MigrateProps.ex_own ex_V [ex_E] ex_ps /\
  (mps <- mapM (fun rp => build_part (Z.of_nat (fst rp)) true (pd_verts (snd rp)) (pd_vws (snd rp)) (pd_tys (snd rp)) (pd_owns (snd rp))) (combine [0; 1] ex_ps) ;;
   mapM (fun g => makeSides inject_Z g 0 20) mps) = Some [mkC [(1, 7)] 7; mkC [(0, 7)] 7]%Z /\
  zsum (map snd (on_both MigrateProps.ex_own 0 1 ex_E)) = 7%Z.
Proof. split; [apply distributedb_ok; vm_compute; reflexivity|]. split; vm_compute; reflexivity. Qed.

(** ** C42 *)
(** p may receive: the side is not too long (for a hypergraph on more than two parts) and no dimension balanced before protects p *)
Definition may_receive (hyper : bool) (peers : nat) (s : cont Z) (sideTol : Z) (completed : list (cont Q * Q)) (p : Z) : Prop :=
  (hyper = false \/ (cget 0%Z s p <= sideTol)%Z \/ peers = 2) /\ (forall w tol, In (w, tol) completed -> cget 0 w p < tol)%Q.
Lemma can_send_iff hyper peers s sideTol completed p : can_send hyper peers (cget 0%Z s p) sideTol completed p = true <-> may_receive hyper peers s sideTol completed p.
Proof.
  unfold can_send, may_receive. rewrite andb_true_iff, !orb_true_iff, negb_true_iff, Z.leb_le, Nat.eqb_eq, forallb_forall. split; intros (A & B); (split; [tauto|]).
  - intros w tol H. specialize (B _ H). apply negb_true_iff in B. cbn in B. destruct (Qlt_le_dec (cget 0%Q w p) tol); auto. apply Qle_bool_iff in q. congruence.
  - intros (w, tol) H. specialize (B _ _ H). apply negb_true_iff. cbn. destruct (Qle_bool tol (cget 0%Q w p)) eqn:E; auto. apply Qle_bool_iff in E. lra.
Qed.
(** the values of a container *)
Definition values {A} (c : cont A) : list A := map snd (c_d c).
Lemma zput_sum m k x : NoDup (map fst m) -> (qsum (map snd (zput m k x)) == qsum (map snd m) + x - match zfind m k with Some old => old | None => 0 end)%Q.
Proof.
  induction m as [|[a y] m IH]; intros N; cbn [zput zfind map snd qsum]; [ring|]. inversion N; subst. destruct (Z.eqb_spec a k) as [->|E]; cbn [map snd qsum].
  - rewrite Z.eqb_refl. ring.
  - rewrite IH by auto. destruct (Z.eqb_spec k a); [congruence|]. ring.
Qed.
Lemma cset_ok c k x : NoDup (map fst (c_d c)) -> (c_total c == qsum (values c))%Q ->
  NoDup (map fst (c_d (cset c k x))) /\ (c_total (cset c k x) == qsum (values (cset c k x)))%Q /\ (forall p, zfind (c_d (cset c k x)) p = if Z.eqb k p then Some x else zfind (c_d c) p).
Proof.
  intros N T. unfold cset. cbn [c_d]. split; [now apply zput_nodup|]. split; [|intros p; apply zfind_zput]. cbn [c_total]. unfold values. cbn [c_d]. rewrite zput_sum by auto.
  unfold values in T. destruct (zfind (c_d c) k); rewrite T; ring.
Qed.
Section T.
Variables (hyper : bool) (peers : nat) (step : Q) (s : cont Z) (w : cont Q) (my : Q) (sideTol : Z) (completed : list (cont Q * Q)).
(** the targets after a part l of the sides *)
Definition TInv (l : list (Z * Z)) (c : cont Q) : Prop :=
  NoDup (map fst (c_d c)) /\ (c_total c == qsum (values c))%Q /\
  (forall p, chas c p = true <-> In p (map fst l) /\ may_receive hyper peers s sideTol completed p /\ (cget 0 w p < my)%Q) /\
  (forall p x, In (p, x) l -> chas c p = true -> (cget 0 c p == (my - cget 0 w p) * (inject_Z x / inject_Z (c_total s)) * step)%Q).
Lemma targets_loop : c_total s <> 0%Z -> forall l l0 c, NoDup (map fst (l0 ++ l)) -> TInv l0 c ->
  exists c', foldM (target_side hyper peers step s w my sideTol completed) l c = Some c' /\ TInv (l0 ++ l) c'.
Proof.
  intros T0. assert (Q0 : ~ (inject_Z (c_total s) == 0)%Q) by (intros X; apply T0; unfold Qeq, inject_Z in X; cbn in X; lia).
  induction l as [|[p x] l IH]; intros l0 c N I; [exists c; rewrite app_nil_r; auto|]. cbn [foldM].
  assert (NP : ~ In p (map fst l0)). { rewrite map_app in N. cbn [map fst] in N. apply NoDup_remove_2 in N. rewrite in_app_iff in N. tauto. }
  assert (G : exists c1, target_side hyper peers step s w my sideTol completed c (p, x) = Some c1 /\ TInv (l0 ++ [(p, x)]) c1).
  { destruct I as (A & B & C & D). unfold target_side. cbn [fst snd].
    assert (SAME : ~ (may_receive hyper peers s sideTol completed p /\ (cget 0 w p < my)%Q) -> TInv (l0 ++ [(p, x)]) c).
    { intros NO. split; auto. split; auto. split.
      - intros q. rewrite C, map_app, in_app_iff. cbn [map fst In]. split; [tauto|]. intros ([H|[<-|[]]] & H'); tauto.
      - intros q y Hy Hc. apply in_app_iff in Hy as [Hy|[E|[]]]; auto. inversion E; subst. apply C in Hc. tauto. }
    pose proof (can_send_iff hyper peers s sideTol completed p) as CS. destruct (can_send hyper peers (cget 0%Z s p) sideTol completed p).
    2:{ exists c. split; auto. apply SAME. intros (H & _). apply CS in H. discriminate. }
    destruct (Qle_bool my (cget 0%Q w p)) eqn:EL; cbn [negb].
    { exists c. split; auto. apply SAME. intros (_ & H). apply Qle_bool_iff in EL. lra. }
    assert (LT : (cget 0 w p < my)%Q). { destruct (Qlt_le_dec (cget 0%Q w p) my) as [L|L]; auto. apply Qle_bool_iff in L. congruence. }
    assert (MR : may_receive hyper peers s sideTol completed p) by (apply CS; reflexivity).
    rewrite qdiv_some by auto. cbn [obind]. eexists. split; [reflexivity|]. match goal with |- TInv _ (cset _ _ ?v) => set (amount := v) end.
    destruct (cset_ok c p amount A B) as (A' & B' & F). split; auto. split; auto. split.
    - intros q. unfold chas. rewrite F. rewrite map_app, in_app_iff. cbn [map fst In]. specialize (C q). unfold chas in C. destruct (Z.eqb_spec p q) as [->|Nq]; [split; auto|]. rewrite C. split; [tauto|]. intros ([H|[H|[]]] & H'); [tauto|congruence].
    - intros q y Hy Hc. apply in_app_iff in Hy as [Hy|[E|[]]].
      + assert (Nq : p <> q) by (intros ->; apply NP; apply (in_map fst) in Hy; exact Hy). unfold cget at 1. unfold chas in Hc. rewrite F in *. destruct (Z.eqb_spec p q); [congruence|]. apply (D q y Hy Hc).
      + inversion E; subst. unfold cget at 1. rewrite F, Z.eqb_refl. reflexivity. }
  destruct G as (c1 & E1 & I1). rewrite E1. cbn [obind]. destruct (IH (l0 ++ [(p, x)]) c1) as (c' & E & I'); auto; [rewrite <- app_assoc; auto|]. exists c'. split; auto. rewrite <- app_assoc in I'. exact I'.
Qed.
End T.

(** Exactly the neighbours that may receive and are lighter get a target; it is the difference of the weights, times the fraction of the side, times the
    step factor; the total is the sum of the targets. *)
Theorem C42_targets : forall hyper peers step s w my sideTol completed, NoDup (map fst (c_d s)) -> c_total s <> 0%Z ->
  exists T, makeTargets hyper peers step s w my sideTol completed = Some T /\ NoDup (map fst (c_d T)) /\ (c_total T == qsum (values T))%Q /\
    (forall p, chas T p = true <-> chas s p = true /\ may_receive hyper peers s sideTol completed p /\ (cget 0 w p < my)%Q) /\
    (forall p, chas T p = true -> (cget 0 T p == (my - cget 0 w p) * (inject_Z (cget 0%Z s p) / inject_Z (c_total s)) * step)%Q).
Proof.
  intros hyper peers step s w my sideTol completed N T0. unfold makeTargets.
  destruct (targets_loop hyper peers step s w my sideTol completed T0 (c_d s) [] (mkC [] 0%Q) N) as (T & E & A & B & C & D).
  { split; [constructor|]. split; [reflexivity|]. split; [intros p; cbn; split; [discriminate|intros ([] & _)]|intros p x []]. }
  cbn [app] in *. exists T. split; auto. split; auto. split; auto.
  assert (KE : forall p, chas s p = true <-> In p (map fst (c_d s))). { intros p. rewrite zfind_key. unfold chas. destruct (zfind (c_d s) p); split; congruence. }
  split; [intros p; rewrite C, KE; tauto|]. intros p Hp. pose proof Hp as Hp'. apply C in Hp' as (I & _). apply in_map_iff in I as ((q, x) & Eq & I). cbn in Eq. subst q.
  rewrite (D p x I Hp). unfold cget at 3. rewrite (zfind_in _ _ _ _ N I). reflexivity.
Qed.
Print Assumptions C42_targets.
(** Bounds: no target is negative, none exceeds the step factor times the difference, and the total outflow is at most
    the step factor times the largest difference times the ratio of the sum of the sides to their total (1 when no edge has pins on three parts). *)
Theorem C42_bounded : forall hyper peers step s w my sideTol completed T m, NoDup (map fst (c_d s)) -> (0 < c_total s)%Z -> (0 <= step)%Q ->
  (forall p, 0 <= cget 0 s p <= c_total s)%Z -> (forall p, chas s p = true -> m <= cget 0 w p)%Q -> (m <= my)%Q ->
  makeTargets hyper peers step s w my sideTol completed = Some T ->
  (forall p, chas T p = true -> 0 <= cget 0 T p <= step * (my - cget 0 w p))%Q /\
  (c_total T <= step * (my - m) * (inject_Z (zsum (values s)) / inject_Z (c_total s)))%Q.
Proof.
  intros hyper peers step s w my sideTol completed T m N TP SP SB WM MM ET.
  destruct (C42_targets hyper peers step s w my sideTol completed N ltac:(lia)) as (T' & E' & NT & TT & CH & CG). rewrite ET in E'. inversion E'; subst T'. clear E'.
  assert (QP : (0 < inject_Z (c_total s))%Q) by (rewrite <- (Zlt_Qlt 0); auto).
  assert (FR : forall p, (0 <= inject_Z (cget 0%Z s p) / inject_Z (c_total s) <= 1)%Q).
  { intros p. destruct (SB p) as (A & B). split; [apply Qle_shift_div_l; auto; rewrite Qmult_0_l; rewrite <- (Zle_Qle 0); auto|apply Qle_shift_div_r; auto; rewrite Qmult_1_l; rewrite <- Zle_Qle; auto]. }
  split.
  - intros p Hp. rewrite (CG p Hp). pose proof (FR p) as (A & B). apply CH in Hp as (_ & _ & L). set (d := (my - cget 0 w p)%Q) in *. assert (0 <= d)%Q by (unfold d; lra).
    set (q := (inject_Z (cget 0%Z s p) / inject_Z (c_total s))%Q) in *. assert (P1 : (0 <= d * q)%Q) by (apply Qmult_le_0_compat; auto). assert (P2 : (d * q <= d * 1)%Q) by (rewrite !(Qmult_comm d); apply Qmult_le_compat_r; auto).
    split; [apply Qmult_le_0_compat; auto|]. rewrite (Qmult_comm step). apply Qmult_le_compat_r; auto. lra.
  - rewrite TT. unfold values at 1.
    assert (V : forall p x, In (p, x) (c_d T) -> (x <= step * (my - m) * (inject_Z (cget 0%Z s p) / inject_Z (c_total s)))%Q).
    { intros p x Hx. assert (Hp : chas T p = true) by (unfold chas; rewrite (zfind_in _ _ _ _ NT Hx); auto). pose proof (CG p Hp) as G. unfold cget at 1 in G. rewrite (zfind_in _ _ _ _ NT Hx) in G. rewrite G.
      apply CH in Hp as (Hs & _ & L). specialize (WM p Hs). destruct (FR p) as (A & _). set (q := (inject_Z (cget 0%Z s p) / inject_Z (c_total s))%Q) in *.
      assert (P : ((my - cget 0 w p) * (q * step) <= (my - m) * (q * step))%Q) by (apply Qmult_le_compat_r; [lra|apply Qmult_le_0_compat; auto]). lra. }
    assert (IN : incl (map fst (c_d T)) (map fst (c_d s))).
    { intros p Hp. apply zfind_key. apply zfind_key in Hp. assert (H : chas T p = true) by (unfold chas; destruct (zfind (c_d T) p); auto). apply CH in H as (H & _). unfold chas in H. destruct (zfind (c_d s) p); [discriminate|congruence]. }
    set (k := (step * (my - m) / inject_Z (c_total s))%Q). assert (K0 : (0 <= k)%Q) by (unfold k; apply Qle_shift_div_l; auto; rewrite Qmult_0_l; apply Qmult_le_0_compat; lra).
    assert (S1 : (qsum (map snd (c_d T)) <= qsum (map (fun p => k * inject_Z (cget 0%Z s p)) (map fst (c_d T))))%Q).
    { clear - V. revert V. generalize (c_d T). induction z as [|[p x] z IH]; intros V; cbn [map fst snd qsum]; [lra|]. specialize (IH ltac:(intros; apply V; right; auto)). pose proof (V p x (or_introl eq_refl)) as H.
      assert (E : (k * inject_Z (cget 0%Z s p) == step * (my - m) * (inject_Z (cget 0%Z s p) / inject_Z (c_total s)))%Q) by (unfold k, Qdiv; ring). lra. }
    assert (S2 : forall A B : list Z, NoDup A -> incl A B -> (qsum (map (fun p => k * inject_Z (cget 0%Z s p)) A) <= qsum (map (fun p => k * inject_Z (cget 0%Z s p)) B))%Q).
    { assert (NN : forall p, (0 <= k * inject_Z (cget 0%Z s p))%Q) by (intros p; apply Qmult_le_0_compat; auto; rewrite <- (Zle_Qle 0); apply SB).
      clear - NN. induction A as [|a A IH]; intros B NA I; cbn [map qsum]; [apply qsum_nonneg; intros x Hx; apply in_map_iff in Hx as (p & <- & _); auto|].
      assert (Ha : In a B) by (apply I; left; auto). apply in_split in Ha as (B1 & B2 & ->). inversion NA; subst.
      specialize (IH (B1 ++ B2) H2). rewrite !map_app, !qsum_app in *. cbn [map qsum]. assert (I' : incl A (B1 ++ B2)). { intros x Hx. specialize (I x (or_intror Hx)). rewrite in_app_iff in *. destruct I as [I|[->|I]]; tauto. } specialize (IH I'). lra. }
    specialize (S2 _ _ NT IN). eapply Qle_trans; [exact S1|]. eapply Qle_trans; [exact S2|]. clear S1 S2.
    assert (S3 : (qsum (map (fun p => k * inject_Z (cget 0%Z s p)) (map fst (c_d s))) == k * inject_Z (zsum (values s)))%Q).
    { unfold values. assert (G : forall z : zmap Z, (forall p x, In (p, x) z -> cget 0%Z s p = x) -> (qsum (map (fun p => k * inject_Z (cget 0%Z s p)) (map fst z)) == k * inject_Z (zsum (map snd z)))%Q).
      { clear. induction z as [|[p x] z IH]; intros F; cbn [map fst snd qsum]; [cbn; ring|]. unfold zsum in *. cbn [fold_right]. rewrite inject_Z_plus, (F p x (or_introl eq_refl)), IH by (intros; apply F; right; auto). ring. }
      apply G. intros p x H. unfold cget. now rewrite (zfind_in _ _ _ _ N H). }
    rewrite S3. unfold k, Qdiv. lra.
Qed.
Print Assumptions C42_bounded.
(** The hypotheses on the sides hold for the sides that makeSides finds when the weights are whole and positive: *)
Lemma weight_where_le (P1 P2 : edge_input * Z -> Prop) f (d1 : forall e, {P1 e} + {~ P1 e}) (d2 : forall e, {P2 e} + {~ P2 e}) l :
  (forall e, In e l -> 0 <= f (snd e))%Z -> (forall e, P1 e -> P2 e) -> (0 <= weight_where f d1 l <= weight_where f d2 l)%Z.
Proof.
  intros H I. unfold weight_where. induction l as [|e l IH]; [cbn; lia|]. cbn [map]. unfold zsum in *. cbn [fold_right]. pose proof (H e (or_introl eq_refl)). specialize (IH (fun x Hx => H x (or_intror Hx))).
  destruct (d1 e) as [A|A]; destruct (d2 e) as [B|B]; try lia. exfalso. auto.
Qed.
Theorem C42_sides_fit : forall f me hs l s, sides_right f me hs l s -> (forall e, In e l -> 0 < f (snd e))%Z ->
  NoDup (map fst (c_d s)) /\ (forall p, 0 <= cget 0 s p <= c_total s)%Z /\ ((exists p, chas s p = true) -> (0 < c_total s)%Z).
Proof.
  intros f me hs l s (T & G & H & N) W. assert (W' : forall e, In e l -> (0 <= f (snd e))%Z) by (intros e He; specialize (W e He); lia).
  assert (B : forall p, (0 <= weight_where f (fun e => borders_dec (hs e) p) l <= weight_where f (fun e => cut_dec (hs e)) l)%Z) by (intros p; apply weight_where_le; auto; intros e (A & _); auto).
  split; auto. split.
  - intros p. rewrite T. destruct (Z.eq_dec p me) as [->|Np]; [|rewrite G by auto; apply B].
    assert (X : chas s me = false) by (destruct (chas s me) eqn:E; auto; apply H in E; tauto). unfold chas, cget in *. destruct (zfind (c_d s) me); [discriminate|]. specialize (B me). lia.
  - intros (p & Hp). apply H in Hp as (_ & e & He & C & _). rewrite T. unfold weight_where. clear - W W' He C. induction l as [|x l IH]; [destruct He|]. cbn [map]. unfold zsum in *. cbn [fold_right].
    assert (R : (0 <= fold_right Z.add 0 (map (fun e => if cut_dec (hs e) then f (snd e) else 0) l))%Z).
    { clear - W'. induction l as [|y l IH]; [cbn; lia|]. cbn [map fold_right]. pose proof (W' y (or_intror (or_introl eq_refl))). specialize (IH (fun z Hz => W' z (match Hz with or_introl A => or_introl A | or_intror A => or_intror (or_intror A) end))). destruct (cut_dec (hs y)); lia. }
    destruct He as [->|He].
    + pose proof (W e (or_introl eq_refl)). destruct (cut_dec (hs e)); [lia|contradiction].
    + specialize (IH (fun y Hy => W y (or_intror Hy)) (fun y Hy => W' y (or_intror Hy)) He). pose proof (W' x (or_introl eq_refl)). destruct (cut_dec (hs x)); lia.
Qed.
Print Assumptions C42_sides_fit.
(** but for weights below 1 the total of the sides is 0 (C41_fractional_refuted) and the target of a lighter neighbour is 0/0, not a number *)
Theorem C42_zero_total_refuted : forall hyper peers step s w my sideTol completed p, c_total s = 0%Z -> chas s p = true ->
  may_receive hyper peers s sideTol completed p -> (cget 0 w p < my)%Q -> makeTargets hyper peers step s w my sideTol completed = None.
Proof.
  intros hyper peers step s w my sideTol completed p T0 Hp MR LT. unfold makeTargets. assert (I : In p (map fst (c_d s))) by (apply zfind_key; unfold chas in Hp; destruct (zfind (c_d s) p); [discriminate|congruence]).
  assert (Q0 : (inject_Z (c_total s) == 0)%Q) by (rewrite T0; reflexivity). revert I. generalize (mkC [] 0%Q). generalize (c_d s) at 1 2. intros l. induction l as [|[q x] l IH]; intros c I; [destruct I|]. cbn [foldM].
  destruct (target_side hyper peers step s w my sideTol completed c (q, x)) as [c1|] eqn:E; [|reflexivity]. cbn [obind]. destruct (Z.eq_dec q p) as [->|Nq].
  - exfalso. unfold target_side in E. cbn [fst snd] in E. rewrite (proj2 (can_send_iff hyper peers s sideTol completed p) MR) in E. destruct (Qle_bool my (cget 0%Q w p)) eqn:EL; [apply Qle_bool_iff in EL; lra|].
    cbn [negb] in E. rewrite qdiv_none in E by auto. discriminate.
  - apply IH. destruct I as [I|I]; [cbn in I; congruence|auto].
Qed.
Print Assumptions C42_zero_total_refuted.

(** After the exchange of weights part q knows the weight of exactly the parts that have a side toward it, whatever the order of arrival. *)
Theorem C42_weights : forall (ss : list (cont Z)) (ws : list Q) recv q r w, length ws = length ss -> (forall s, In s ss -> NoDup (map fst (c_d s))) ->
  delivered (map (fun x => weights_sent (fst x) (snd x)) (combine ss ws)) recv -> nth_error recv q = Some r -> weights_recv r = w ->
  (forall i s x, nth_error ss i = Some s -> nth_error ws i = Some x -> chas s (Z.of_nat q) = true -> chas w (Z.of_nat i) = true /\ cget 0%Q w (Z.of_nat i) = x) /\
  (forall i s, nth_error ss i = Some s -> chas s (Z.of_nat q) = false -> chas w (Z.of_nat i) = false /\ cget 0%Q w (Z.of_nat i) = 0%Q).
Proof.
  intros ss ws recv q r w L N D Hr <-.
  assert (SN : forall i s x, nth_error ss i = Some s -> nth_error ws i = Some x -> nth_error (map (fun x => weights_sent (fst x) (snd x)) (combine ss ws)) i = Some (weights_sent s x)).
  { intros i s x A B. rewrite nth_error_map. assert (C : nth_error (combine ss ws) i = Some (s, x)). { clear - A B. revert i ws A B. induction ss as [|a ss IH]; intros [|i] [|b ws] A B; cbn in *; try discriminate; [congruence|auto]. } rewrite C. reflexivity. }
  assert (SI : forall i ms, nth_error (map (fun x => weights_sent (fst x) (snd x)) (combine ss ws)) i = Some ms -> exists s x, nth_error ss i = Some s /\ nth_error ws i = Some x /\ ms = weights_sent s x).
  { intros i ms A. rewrite nth_error_map in A. destruct (nth_error (combine ss ws) i) as [[s x]|] eqn:C; [|discriminate]. inversion A; subst. exists s, x. split; [|split; [|reflexivity]]; clear - C; revert i ws C; induction ss as [|a ss IH]; intros [|i] [|b ws] C; cbn in *; try discriminate; try congruence; eauto. }
  assert (IN : forall p x, In (p, x) r <-> exists i s, p = Z.of_nat i /\ nth_error ss i = Some s /\ nth_error ws i = Some x /\ chas s (Z.of_nat q) = true).
  { intros p x. rewrite (delivered_in _ _ _ q r p x D Hr). split.
    - intros (i & ms & A & -> & I). apply SI in A as (s & y & A & B & ->). unfold weights_sent in I. apply in_map_iff in I as ((k, z) & E & I). cbn in E. inversion E; subst. exists i, s. repeat split; auto.
      unfold chas. apply (in_map fst) in I. apply zfind_key in I. cbn in I. destruct (zfind (c_d s) (Z.of_nat q)); congruence.
    - intros (i & s & -> & A & B & C). exists i, (weights_sent s x). split; auto. split; auto. unfold weights_sent. apply in_map_iff. unfold chas in C. destruct (zfind (c_d s) (Z.of_nat q)) as [z|] eqn:E; [|discriminate].
      exists (Z.of_nat q, z). split; auto. now apply zfind_in2. }
  assert (FUN : forall p x y, In (p, x) r -> In (p, y) r -> x = y).
  { intros p x y A B. apply IN in A as (i & s & -> & A1 & A2 & _). apply IN in B as (j & s' & E & B1 & B2 & _). apply Nat2Z.inj in E. subst j. congruence. }
  assert (G : forall l c, (forall p x y, In (p, x) l -> In (p, y) l -> x = y) -> forall p,
     (forall x, In (p, x) l -> zfind (c_d (fold_left (fun c m => cset c (fst m) (snd m)) l c)) p = Some x) /\ (~ In p (map fst l) -> zfind (c_d (fold_left (fun c (m : Z * Q) => cset c (fst m) (snd m)) l c)) p = zfind (c_d c) p)).
  { clear. induction l as [|[k y] l IH]; intros c F p; cbn [fold_left fst snd map In]; [split; [intros x []|auto]|].
    destruct (IH (cset c k y) ltac:(intros; eapply F; right; eauto) p) as (A & B). split.
    - intros x [E|I]; [|auto]. inversion E; subst. destruct (in_dec Z.eq_dec p (map fst l)) as [J|J].
      + apply in_map_iff in J as ((p', y') & E' & J). cbn in E'. subst p'. rewrite (A y' J). f_equal. apply (F p); [right|left]; auto.
      + rewrite (B J). unfold cset. cbn [c_d]. rewrite zfind_zput, Z.eqb_refl. reflexivity.
    - intros NI. rewrite B by tauto. unfold cset. cbn [c_d]. rewrite zfind_zput. destruct (Z.eqb_spec k p); [tauto|reflexivity]. }
  specialize (G r (mkC [] 0%Q) FUN). fold (weights_recv r) in G. split.
  - intros i s x A B C. destruct (G (Z.of_nat i)) as (G1 & _). assert (I : In (Z.of_nat i, x) r) by (apply IN; exists i, s; auto). specialize (G1 x I). unfold chas, cget. rewrite G1. auto.
  - intros i s A C. destruct (G (Z.of_nat i)) as (_ & G2). assert (I : ~ In (Z.of_nat i) (map fst r)).
    { intros I. apply in_map_iff in I as ((p, x) & E & I). cbn in E. subst p. apply IN in I as (j & s' & E & B & _ & C'). apply Nat2Z.inj in E. subst j. congruence. }
    specialize (G2 I). unfold chas, cget. rewrite G2. cbn. auto.
Qed.
Print Assumptions C42_weights.

(** The part weight targets ignore both conditions: the neighbour 2, heavier than its tolerance in a dimension already balanced, still gets its target as
    soon as some other neighbour may receive. *)
Theorem C42_part_weight_refuted : exists s wp completed T, pw_targets false s wp 10%Z completed = Some T /\ chas s 2%Z = true /\
  ~ may_receive false 3 s 10%Z completed 2%Z /\ (0 < cget 0 T 2%Z)%Q.
Proof.
  exists (mkC [(1, 1); (2, 1)]%Z 2%Z), [(0%Z, [(2%Z, 4%Q)])], [(mkC [(2%Z, 9%Q)] 9%Q, 5%Q)]. eexists. split; [vm_compute; reflexivity|]. split; [reflexivity|]. split; [|vm_compute; reflexivity].
  intros (_ & H). specialize (H _ _ (or_introl eq_refl)). vm_compute in H. discriminate.
Qed.
Print Assumptions C42_part_weight_refuted.
(** and a flow to a part that is not a neighbour makes get insert into the map that is being traversed *)
Theorem C42_part_weight_insert_refuted : exists s wp, pw_targets false s wp 10%Z [] = None /\ chas s 3%Z = false /\ c_total s <> 0%Z.
Proof. exists (mkC [(1, 1)]%Z 1%Z), [(0%Z, [(3%Z, 4%Q)])]. repeat split; try (vm_compute; reflexivity). discriminate. Qed.
Print Assumptions C42_part_weight_insert_refuted.

(** three neighbours: 1 lighter, 2 protected, 3 heavier *)
Definition ex_sides : cont Z := mkC [(1, 2); (2, 3); (3, 1)]%Z 5%Z.
Definition ex_wgts : cont Q := mkC [(1%Z, 4%Q); (2%Z, 1%Q); (3%Z, 20%Q)] 25%Q.
Definition ex_done : list (cont Q * Q) := [(mkC [(2%Z, 9%Q)] 9%Q, 5%Q)].
Example C42_example : NoDup (map fst (c_d ex_sides)) /\ (0 < c_total ex_sides)%Z /\ (forall p, 0 <= cget 0 ex_sides p <= c_total ex_sides)%Z /\
  option_map (fun T => map (fun x => (fst x, Qred (snd x))) (c_d T)) (makeTargets true 4 (1 # 2) ex_sides ex_wgts 9 4%Z ex_done) = Some [(1%Z, 1%Q)] /\
  may_receive true 4 ex_sides 4%Z ex_done 1%Z /\ ~ may_receive true 4 ex_sides 4%Z ex_done 2%Z.
Proof.
  split; [repeat constructor; cbn; intuition congruence|]. split; [reflexivity|]. split; [intros p; unfold cget, ex_sides, zfind; cbn [c_d c_total]; repeat destruct (Z.eqb _ _); lia|]. split; [vm_compute; reflexivity|].
  split; [apply (can_send_iff true 4); reflexivity|]. intros H. apply (can_send_iff true 4) in H. vm_compute in H. discriminate.
Qed.
