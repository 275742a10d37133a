(** Receiving edges and building the migrated part. *)
From Verif Require Import Base GraphModel CsrProofs ConstructProofs GraphSpec AccessProofs AccessProofs2 GraphTop GraphTop3 Comm TagModel TagProps MigrateModel MigrateSpec MigrateProofs1 MigrateProofs2 MigrateProofs3.

(** owners collected so far agree with F and cover the pins of x owned elsewhere *)
Definition agrees (F : Z -> Z) (m : zmap Z) : Prop := forall v o, zfind m v = Some o -> o = F v.
Definition covers (F : Z -> Z) (me : Z) (m : zmap Z) (e : medge) : Prop := forall v, In v (me_pins e) -> F v <> me -> zfind m v <> None.
Lemma note_fold F me ps : forall m, agrees F m ->
  let m' := fold_left (fun m po => if Z.eqb (snd po) me then m else zset m (fst po) (snd po)) (combine ps (map F ps)) m in
  agrees F m' /\ (forall v, zfind m v <> None -> zfind m' v <> None) /\ forall v, In v ps -> F v <> me -> zfind m' v <> None.
Proof.
  induction ps as [|w ps IH]; intros m A; cbn [map combine fold_left]; cbv zeta; [split; [auto|split; [auto|intros v []]]|]. cbn [fst snd].
  set (m1 := if Z.eqb (F w) me then m else zset m w (F w)).
  assert (A1 : agrees F m1).
  { unfold m1. destruct (Z.eqb (F w) me); auto. intros v o. unfold zset. cbn. destruct (Z.eqb_spec v w) as [->|]; [congruence|apply A]. }
  assert (K1 : forall v, zfind m v <> None -> zfind m1 v <> None).
  { unfold m1. destruct (Z.eqb (F w) me); auto. intros v Hv. unfold zset. cbn. destruct (Z.eqb v w); [discriminate|auto]. }
  destruct (IH m1 A1) as (B1 & B2 & B3). split; [exact B1|]. split; [intros v Hv; apply B2, K1, Hv|].
  intros v [<-|Hv] Hne; [|now apply B3]. apply B2. unfold m1. destruct (Z.eqb_spec (F w) me); [congruence|]. cbn. rewrite Z.eqb_refl. discriminate.
Qed.
Lemma note_one F me m x : agrees F m -> let m' := note_owners me m (Mk F x) in
  agrees F m' /\ covers F me m' (Mk F x) /\ forall e, covers F me m e -> covers F me m' e.
Proof.
  intros A. destruct (note_fold F me (snd (fst x)) m A) as (B1 & B2 & B3). unfold note_owners. cbn [Mk me_pins me_own]. cbv zeta.
  split; [exact B1|]. split; [exact B3|]. intros e C v Hv Hne. apply B2, C; auto.
Qed.
Lemma note_all F me xs : forall m, agrees F m -> let m' := fold_left (note_owners me) (map (Mk F) xs) m in
  agrees F m' /\ (forall e, covers F me m e -> covers F me m' e) /\ forall x, In x xs -> covers F me m' (Mk F x).
Proof.
  induction xs as [|x xs IH]; intros m A; cbn [map fold_left]; cbv zeta; [split; [auto|split; [auto|intros x []]]|].
  destruct (note_one F me m x A) as (A1 & C1 & K1). destruct (IH _ A1) as (A2 & K2 & C2). split; [exact A2|]. split; [intros e He; apply K2, K1, He|].
  intros y [<-|Hy]; [apply K2, C1|apply C2, Hy].
Qed.

(** merging the arrivals into the edges collected so far *)
Definition eid (x : edge_input * Z) : Z := fst (fst x).
Lemma recv_fold F me (l : list (Z * medge)) (X : list (edge_input * Z)) : (forall s m, In (s, m) l -> exists x, In x X /\ m = Mk F x) -> forall xs m,
  NoDup (map eid xs) -> agrees F m -> (forall x, In x xs -> covers F me m (Mk F x)) ->
  exists xs' m', fold_left (recv_one true me) l (map (Mk F) xs, m) = (map (Mk F) xs', m') /\ NoDup (map eid xs') /\ agrees F m' /\
    (forall x, In x xs' -> covers F me m' (Mk F x)) /\ incl xs xs' /\
    (forall x, In x xs' -> In x xs \/ exists s, In (s, Mk F x) l) /\
    (forall s m, In (s, m) l -> exists x, In x xs' /\ me_id m = eid x).
Proof.
  revert X. induction l as [|(s, e) l IH]; intros X HX xs m ND A C.
  - exists xs, m. cbn. split; [auto|]. split; [auto|]. split; [auto|]. split; [auto|]. split; [apply incl_refl|]. split; [auto|intros ? ? []].
  - cbn [fold_left]. destruct (HX s e (or_introl eq_refl)) as (x & Hx & ->). unfold recv_one at 2. cbn [snd fst andb].
    assert (HX' : forall s m, In (s, m) l -> exists x, In x X /\ m = Mk F x) by (intros; eapply HX; right; eauto).
    destruct (existsb (fun y => Z.eqb (me_id y) (me_id (Mk F x))) (map (Mk F) xs)) eqn:Ex.
    + destruct (IH X HX' xs m ND A C) as (xs' & m' & E & ND' & A' & C' & I' & J' & K').
      exists xs', m'. rewrite E. split; [auto|]. split; [auto|]. split; [auto|]. split; [auto|]. split; [auto|]. split.
      * intros y Hy. destruct (J' y Hy) as [|(s' & Hs)]; [auto|right; exists s'; right; auto].
      * intros s' e' [Hs|Hs]; [|eapply K'; eauto]. inversion Hs; subst. apply existsb_exists in Ex as (y & Hy & Ey).
        apply in_map_iff in Hy as (z & <- & Hz). apply Z.eqb_eq in Ey. cbn [Mk me_id] in *. exists z. split; [now apply I'|]. symmetry. exact Ey.
    + destruct (note_one F me m x A) as (A1 & C1 & K1).
      assert (N1 : ~ In (eid x) (map eid xs)).
      { intros Hin. apply in_map_iff in Hin as (z & Ez & Hz). assert (existsb (fun y => Z.eqb (me_id y) (me_id (Mk F x))) (map (Mk F) xs) = true); [|congruence].
        apply existsb_exists. exists (Mk F z). split; [now apply in_map|]. apply Z.eqb_eq. exact Ez. }
      replace (map (Mk F) xs ++ [Mk F x]) with (map (Mk F) (xs ++ [x])) by (rewrite map_app; reflexivity).
      destruct (IH X HX' (xs ++ [x]) (note_owners me m (Mk F x))) as (xs' & m' & E & ND' & A' & C' & I' & J' & K').
      * rewrite map_app. cbn. apply NoDup_app_iff. split; [auto|]. split; [constructor; [intros []|constructor]|]. intros v Hv [<-|[]]. contradiction.
      * exact A1.
      * intros y Hy. apply in_app_iff in Hy as [Hy|[<-|[]]]; [apply K1, C, Hy|exact C1].
      * exists xs', m'. split; [exact E|]. split; [auto|]. split; [auto|]. split; [auto|]. split; [intros y Hy; apply I', in_app_iff; auto|]. split.
        -- intros y Hy. destruct (J' y Hy) as [Hy'|(s' & Hs)]; [|right; exists s'; right; auto].
           apply in_app_iff in Hy' as [|[<-|[]]]; [auto|right; exists s; left; reflexivity].
        -- intros s' e' [Hs|Hs]; [|eapply K'; eauto]. inversion Hs; subst. exists x. split; [apply I', in_app_iff; cbn; auto|reflexivity].
Qed.

(** every stored record has as many pins as its degree says *)
Definition wfme (m : medge) : Prop := me_deg m = length (me_pins m).
Lemma recv_fold_wf me l : (forall s m, In (s, m) l -> wfme m) -> forall xs m, Forall wfme xs -> Forall wfme (fst (fold_left (recv_one true me) l (xs, m))).
Proof.
  induction l as [|(s, e) l IH]; intros H xs m W; cbn [fold_left]; [exact W|]. unfold recv_one at 2. cbn [snd fst andb].
  assert (H' : forall s m, In (s, m) l -> wfme m) by (intros; eapply H; right; eauto).
  destruct (existsb _ xs); [now apply IH|]. apply IH; auto. apply Forall_app. split; auto. constructor; auto. eapply H; left; reflexivity.
Qed.

(** the construction input of the migrated part *)
Definition ty_of (ms : list medge) : type_input := (map (fun m => (me_id m, me_pins m)) ms, map me_w ms).
Definition pd_of (w : mwork) : pdesc :=
  mkPD (map fst (w_verts w)) (map (fun v => fst (snd v)) (w_verts w)) (map ty_of (w_edges w)) (w_gown w) (map (fun v => snd (snd v)) (w_verts w)).
Lemma pd_of_valid w : NoDup (map fst (w_verts w)) -> length (w_edges w) <= 7 ->
  valid_input true (pd_verts (pd_of w)) (pd_vws (pd_of w)) (pd_tys (pd_of w)).
Proof.
  intros ND L. cbn [pd_of pd_verts pd_vws pd_tys]. split; [auto|]. split; [now rewrite !map_length|]. split; [now rewrite map_length|].
  intros es ws Hin. apply in_map_iff in Hin as (ms & E & _). inversion E; subst. split; [right; now rewrite !map_length|discriminate].
Qed.
Lemma pd_of_vrecs w : vrecs (pd_of w) = w_verts w.
Proof.
  unfold vrecs, vweights. cbn [pd_of pd_verts pd_vws pd_oo]. rewrite !map_length, Nat.sub_diag. cbn [repeat]. rewrite app_nil_r.
  induction (w_verts w) as [|(v, (x, o)) l IH]; cbn; auto. now rewrite IH.
Qed.
Lemma ty_of_erecs F xs : erecs (ty_of (map (Mk F) xs)) = xs.
Proof.
  unfold erecs, eweights, ty_of. cbn [fst snd]. rewrite !map_map. cbn [Mk me_id me_pins me_w].
  assert (E : forall l : list (edge_input * Z), combine (map (fun x => (fst (fst x), snd (fst x))) l) (map snd l) = l).
  { induction l as [|((i, p), y) l IH]; cbn; auto. now rewrite IH. }
  destruct xs as [|x xs]; [reflexivity|]. cbn [map]. rewrite <- (E (x :: xs)) at 1. destruct x as ((i, p), y). reflexivity.
Qed.
Lemma mig_build_built w r : hyper (mp_g (w_part w)) = true -> self (mp_g (w_part w)) = Z.of_nat r ->
  NoDup (map fst (w_verts w)) -> length (w_edges w) <= 7 -> Forall (Forall wfme) (w_edges w) ->
  exists s', mig_build w = Some s' /\ built_from true r (pd_of w) s'.
Proof.
  intros HH HS ND L W. pose proof (pd_of_valid w ND L) as HV.
  destruct (construction_total (Z.of_nat r) true _ _ _ (pd_owns (pd_of w)) HV) as (g1 & _ & g' & E').
  exists (g', ainit (pd_oo (pd_of w))). split; [|split; [exact E'|reflexivity]].
  unfold mig_build. rewrite HH, HS.
  replace (length (w_verts w)) with (length (map fst (w_verts w))) by (now rewrite map_length).
  rewrite constructVerts_arr_vec by (now rewrite !map_length).
  unfold build_part, build_graph in E'. cbn [pd_of pd_verts pd_vws pd_tys pd_owns] in E'.
  destruct (constructVerts (Z.of_nat r) true (map fst (w_verts w)) (map (fun v => fst (snd v)) (w_verts w))) as [g0|]; [|discriminate]. cbn [obind] in *.
  rewrite (foldM_map_l _ ty_of) in E'.
  match goal with |- context [foldM ?f (w_edges w) g0] => replace (foldM f (w_edges w) g0) with (foldM (fun s x => call_constructEdges s (ty_of x)) (w_edges w) g0) end.
  - destruct (foldM _ (w_edges w) g0) as [g2|]; [|discriminate]. cbn [obind] in *. rewrite E'. reflexivity.
  - apply foldM_ext_in. intros g es Hes. rewrite Forall_forall in W. specialize (W es Hes). rewrite Forall_forall in W.
    unfold call_constructEdges, ty_of. cbn [fst snd]. unfold pins_of. rewrite !map_map. cbn [fst snd].
    assert (Ed : map me_deg es = map (fun x => length (me_pins x)) es) by (apply map_ext_in; intros m Hm; now apply W).
    rewrite Ed. symmetry. replace (length es) with (length (map me_id es)) by (now rewrite map_length).
    rewrite constructEdges_arr_vec; [reflexivity|now rewrite !map_length| |now rewrite !map_length].
    clear. unfold nsum. induction es as [|e es IH]; auto. cbn [map concat fold_right]. now rewrite app_length, IH.
Qed.
