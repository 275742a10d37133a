(** Splitting: renamed owners, empty processes. *)
From Verif Require Import Base GraphModel CsrProofs ConstructProofs GraphSpec AccessProofs AccessProofs2 CountProofs GraphTop GraphTop2 GraphTop3 Comm TagModel TagProps MigrateModel MigrateSpec MigrateProofs1 MigrateProofs5 MigrateTop RepartModel SplitModel.

(** ** construction does not look at the rank *)
Definition sw (me : Z) (g : graph) : graph := with_self g me.
Lemma verts_self me me' hg verts vws : constructVerts me' hg verts vws = option_map (sw me') (constructVerts me hg verts vws).
Proof. unfold constructVerts. match goal with |- obind ?x _ = _ => destruct x as [[[lu lw] vm]|] end; reflexivity. Qed.
Lemma core_self me' g a b c d e f : construct_core (sw me' g) a b c d e f = option_map (fun r => (sw me' (fst r), snd r)) (construct_core g a b c d e f).
Proof.
  unfold construct_core. change (ntypes (sw me' g)) with (ntypes g). destruct (ntypes g =? 7); [reflexivity|].
  cbn [sw with_self hyper nlv ngv lunmap lwgts gunmap vmap types owners self].
  destruct (aset (anew (a + 1)) 0 0) as [pd0|]; [|reflexivity]. cbn [obind].
  match goal with |- obind ?x _ = _ => destruct x as [[[[em eu] pd] q]|]; [|reflexivity] end. cbn [obind].
  match goal with |- obind ?x _ = _ => destruct x as [deg|]; [|reflexivity] end. cbn [obind].
  match goal with |- obind ?x _ = _ => destruct x as [tot|]; [|reflexivity] end. cbn [obind].
  match goal with |- obind ?x _ = _ => destruct x as [gu|]; [|reflexivity] end. cbn [obind].
  match goal with |- obind ?x _ = _ => destruct x as [[[el tc] gu']|]; [|reflexivity] end. cbn [obind].
  destruct f as [w|]; reflexivity.
Qed.
Lemma edges_self me' g ty : call_constructEdges (sw me' g) ty = option_map (sw me') (call_constructEdges g ty).
Proof.
  unfold call_constructEdges, constructEdges. destruct (_ =? _); [|reflexivity]. rewrite core_self. destruct (construct_core _ _ _ _ _ _ _) as [[g' k]|]; reflexivity.
Qed.
Lemma graph_self me me' hg verts vws tys : build_graph me' hg verts vws tys = option_map (sw me') (build_graph me hg verts vws tys).
Proof.
  unfold build_graph. rewrite (verts_self me me'). destruct (constructVerts me hg verts vws) as [g|]; [|reflexivity]. cbn [option_map obind].
  revert g. induction tys as [|ty tys IH]; intros g; [reflexivity|]. cbn [foldM]. rewrite edges_self. destruct (call_constructEdges g ty) as [g'|]; [|reflexivity]. cbn [option_map obind]. apply IH.
Qed.

(** ** renaming the owners *)
Definition rename (L : list Z) (owns : zmap Z) : zmap Z := map (fun kv => (fst kv, nth (Z.to_nat (snd kv)) L 0%Z)) owns.
Lemma zfind_rename L owns v : zfind (rename L owns) v = option_map (fun p => nth (Z.to_nat p) L 0%Z) (zfind owns v).
Proof. induction owns as [|[k p] r IH]; [reflexivity|]. cbn. destruct (Z.eqb v k); auto. Qed.

Lemma foldM_owners (L : list Z) (os : list Z) : (forall o, In o os -> (0 <= o < Z.of_nat (length L))%Z) ->
  foldM (fun a i => o <- aget a i ;; (if (o <? 0)%Z then None else r <- nth_error L (Z.to_nat o) ;; aset a i r)) (seq 0 (length os)) (ainit os)
  = Some (ainit (map (fun o => nth (Z.to_nat o) L 0%Z) os)).
Proof.
  intros H. set (f := fun o => nth (Z.to_nat o) L 0%Z).
  destruct (foldM_inv (fun (a : arr Z) i => o <- aget a i ;; (if (o <? 0)%Z then None else r <- nth_error L (Z.to_nat o) ;; aset a i r))
     (fun pre a => a = ainit (map f (firstn (length pre) os)) ++ ainit (skipn (length pre) os)) (seq 0 (length os)) (ainit os)) as (a & E & Ha).
  - reflexivity.
  - intros pre x post a Hs Ha. assert (Lp : length pre < length os). { rewrite <- (seq_length (length os) 0), Hs, app_length; cbn; lia. }
    assert (N : nth_error (seq 0 (length os)) (length pre) = Some x) by (rewrite Hs, nth_error_app2, Nat.sub_diag; auto).
    rewrite nth_error_seq in N by auto. inversion N; subst x. cbn [Nat.add]. clear N Hs.
    destruct (nth_error os (length pre)) as [o|] eqn:Eo; [|apply nth_error_None in Eo; lia].
    assert (SK : skipn (length pre) os = o :: skipn (S (length pre)) os).
    { clear - Eo. revert os Eo. generalize (length pre). induction n as [|n IH]; intros [|x os] E; cbn in *; try discriminate; [inversion E; auto|]. now apply IH. }
    assert (Lf : length (ainit (map f (firstn (length pre) os))) = length pre) by (rewrite ainit_length, map_length, firstn_length; lia).
    assert (EG : aget a (length pre) = Some o). { rewrite Ha. unfold aget. rewrite nth_error_app2, Lf, Nat.sub_diag by lia. rewrite SK. reflexivity. }
    rewrite EG. cbn [obind]. destruct (H o (nth_error_In _ _ Eo)) as [H0 H1]. destruct (Z.ltb_spec o 0); [lia|].
    assert (EL : nth_error L (Z.to_nat o) = Some (f o)) by (apply nth_error_nth'; lia). rewrite EL. cbn [obind].
    rewrite aset_some by (rewrite Ha, app_length, Lf, SK; cbn; lia). eexists. split; [reflexivity|]. rewrite app_length. cbn [length].
    replace (length pre + 1) with (S (length pre)) by lia. rewrite (firstn_S_nth _ _ _ _ Eo), map_app. cbn [map]. rewrite Ha.
    replace (length pre) with (length (ainit (map f (firstn (length pre) os))) + 0) at 3 by (rewrite Lf; lia).
    rewrite upd_app_r, SK. cbn [ainit map upd]. unfold ainit. rewrite map_app, <- app_assoc. reflexivity.
  - rewrite E, Ha, seq_length, firstn_all, skipn_all. now rewrite app_nil_r.
Qed.

(** the part after expandParts and the change of communicator is the part built with the renamed owners at the new rank *)
Lemma expanded_build me me' hg verts vws tys owns g L : valid_input hg verts vws tys -> build_part me hg verts vws tys owns = Some g ->
  (forall v, In v (ghosts_of verts tys) -> exists p, zfind owns v = Some p /\ (0 <= p < Z.of_nat (length L))%Z) ->
  exists g1, changeOwners g L = Some g1 /\ build_part me' hg verts vws tys (rename L owns) = Some (with_self g1 me').
Proof.
  intros HV HB HO. destruct (part_rep _ _ _ _ _ _ _ HV HB) as (HR & RO & Hh & Hs).
  assert (CO : changeOwners g L = Some (mkGraph (hyper g) (nlv g) (ngv g) (lunmap g) (lwgts g) (gunmap g) (vmap g) (types g)
      (ainit (map (fun o => nth (Z.to_nat o) L 0%Z) (map (look owns) (ghosts_of verts tys)))) (self g))).
  { unfold changeOwners. rewrite RO, (rp_ngv _ _ _ _ _ HR). rewrite <- (map_length (look owns) (ghosts_of verts tys)). rewrite foldM_owners; [reflexivity|].
    intros o Ho. apply in_map_iff in Ho as (v & <- & Hv). destruct (HO v Hv) as (p & Ep & Hp). unfold look. now rewrite Ep. }
  eexists. split; [exact CO|].
  unfold build_part in HB |- *. rewrite (graph_self me me'). destruct (build_graph me hg verts vws tys) as [g0|] eqn:E0; [|discriminate].
  cbn [obind option_map] in *. destruct (build_graph_ok me hg verts vws tys HV) as (g0' & E0' & HR0 & Hh0 & Hs0 & _). rewrite E0 in E0'. inversion E0'; subst g0'. clear E0'.
  assert (HR0' : Rep (sw me' g0) verts (vws ++ repeat 1%Z (length verts - length vws)) (ghosts_of verts tys) (map eff_ty tys)).
  { destruct HR0. constructor; auto. }
  destruct (constructGhosts_owners_ok _ _ _ _ _ (rename L owns) HR0') as (g2 & E2 & HR2 & RO2 & Hh2 & Hs2 & Ht2). rewrite E2. f_equal.
  assert (G2 : g2 = mkGraph (hyper g0) (nlv g0) (ngv g0) (lunmap g0) (lwgts g0) (gunmap g0) (vmap g0) (types g0) (owners g2) me').
  { unfold constructGhosts_owners in E2. match type of E2 with obind ?x _ = _ => destruct x as [ow|]; [|discriminate] end. cbn [obind] in E2. inversion E2; subst g2. reflexivity. }
  assert (G1 : g = mkGraph (hyper g0) (nlv g0) (ngv g0) (lunmap g0) (lwgts g0) (gunmap g0) (vmap g0) (types g0) (owners g) (self g)).
  { unfold constructGhosts_owners in HB. match type of HB with obind ?x _ = _ => destruct x as [ow|]; [|discriminate] end. cbn [obind] in HB. inversion HB; subst g. reflexivity. }
  rewrite G2, RO2. unfold with_self. cbn [hyper nlv ngv lunmap lwgts gunmap vmap types owners self].
  rewrite G1. cbn [hyper nlv ngv lunmap lwgts gunmap vmap types owners self]. f_equal. f_equal. rewrite map_map. apply map_ext_in. intros v Hv.
  unfold look. rewrite zfind_rename. destruct (HO v Hv) as (p & -> & _). reflexivity.
Qed.

(** ** processes without a graph: same behaviour as a part with empty edge types *)
Definition with_types (g : graph) (ts : list etd) : graph :=
  mkGraph (hyper g) (nlv g) (ngv g) (lunmap g) (lwgts g) (gunmap g) (vmap g) ts (owners g) (self g).
Definition void (ts1 ts2 : list etd) (s1 s2 : mpart) : Prop :=
  exists g, mp_g s1 = with_types g ts1 /\ mp_g s2 = with_types g ts2 /\ mp_oo s1 = mp_oo s2 /\ mp_plan s1 = mkPlan [] [] /\ mp_plan s2 = mkPlan [] [] /\ nlv g = 0.
Definition sim (ts1 ts2 : list etd) (s1 s2 : mpart) : Prop := s1 = s2 \/ void ts1 ts2 s1 s2.
Definition wsim (ts1 ts2 : list etd) (w1 w2 : mwork) : Prop :=
  w_verts w1 = w_verts w2 /\ w_edges w1 = w_edges w2 /\ w_gown w1 = w_gown w2 /\ sim ts1 ts2 (w_part w1) (w_part w2).

Lemma local_sim A1 A2 B1 B2 (R : A1 -> A2 -> Prop) (R' : B1 -> B2 -> Prop) (f1 : A1 -> option B1) (f2 : A2 -> option B2) st1 st2 (Q1 : list B1 -> Prop) (Q2 : list B2 -> Prop) :
  Forall2 R st1 st2 -> (forall a1 a2 b2, R a1 a2 -> f2 a2 = Some b2 -> exists b1, f1 a1 = Some b1 /\ R' b1 b2) ->
  (forall l1 l2, Forall2 R' l1 l2 -> Q2 l2 -> Q1 l1) -> local f2 st2 Q2 -> local f1 st1 Q1.
Proof.
  intros HF Hf HQ (l2 & E & H2). assert (G : exists l1, mapM f1 st1 = Some l1 /\ Forall2 R' l1 l2).
  { clear - HF Hf E. revert l2 E. induction HF as [|a1 a2 r1 r2 H HF IH]; intros l2 E; cbn in *.
    - inversion E; subst. exists []. auto.
    - destruct (f2 a2) as [b2|] eqn:E2; [|discriminate]. cbn in E. destruct (mapM f2 r2) as [k2|] eqn:Er; [|discriminate]. cbn in E. inversion E; subst.
      destruct (Hf _ _ _ H E2) as (b1 & -> & HR). destruct (IH _ eq_refl) as (k1 & -> & HK). cbn. eauto. }
  destruct G as (l1 & E1 & F1). exists l1. split; auto. eapply HQ; eauto.
Qed.
Lemma phase_sim A1 A2 B1 B2 M (R : A1 -> A2 -> Prop) (R' : B1 -> B2 -> Prop) (s1 : A1 -> option (list (Z * M))) s2 r1 r2 st1 st2 (Q1 : list B1 -> Prop) (Q2 : list B2 -> Prop) :
  Forall2 R st1 st2 -> (forall a1 a2, R a1 a2 -> s1 a1 = s2 a2) ->
  (forall a1 a2 m b2, R a1 a2 -> r2 a2 m = Some b2 -> exists b1, r1 a1 m = Some b1 /\ R' b1 b2) ->
  (forall l1 l2, Forall2 R' l1 l2 -> Q2 l2 -> Q1 l1) -> phase s2 r2 st2 Q2 -> phase s1 r1 st1 Q1.
Proof.
  intros HF Hs Hr HQ (sent & E & D & K). exists sent. split.
  { clear - HF Hs E. revert sent E. induction HF as [|a1 a2 t1 t2 H HF IH]; intros sent E; cbn in *; auto. rewrite (Hs _ _ H).
    destruct (s2 a2) as [y|]; [|discriminate]. cbn in *. destruct (mapM s2 t2) as [ys|]; [|discriminate]. cbn in E. rewrite (IH ys eq_refl). exact E. }
  split; auto. intros rcv Dl. destruct (K rcv Dl) as (st' & E' & H2). clear - HF Hr HQ E' H2.
  assert (G : forall q, par2 (fun _ a r => r2 a r) q st2 rcv = Some st' -> exists l1, par2 (fun _ a r => r1 a r) q st1 rcv = Some l1 /\ Forall2 R' l1 st').
  { clear - HF Hr. revert rcv st'. induction HF as [|a1 a2 t1 t2 H HF IH]; intros rcv st' q E.
    - destruct rcv; [|discriminate]. inversion E; subst. exists []. auto.
    - destruct rcv as [|m rcv]; [discriminate|]. cbn in E. destruct (r2 a2 m) as [b2|] eqn:E2; [|discriminate]. cbn in E.
      destruct (par2 (fun _ a r => r2 a r) (S q) t2 rcv) as [k2|] eqn:Ek; [|discriminate]. cbn in E. inversion E; subst.
      destruct (Hr _ _ _ _ H E2) as (b1 & X & HR). destruct (IH _ _ _ Ek) as (k1 & Y & HK). cbn. rewrite X. cbn. rewrite Y. cbn. eauto. }
  destruct (G 0 E') as (l1 & X & Y). eauto.
Qed.

Section Sim.
Variables (fuel : nat) (ts1 ts2 : list etd).
Hypothesis HF : 0 < fuel.
Hypothesis T1 : forall ed, In ed ts1 -> e_num ed = 0.
Hypothesis T2 : forall ed, In ed ts2 -> e_num ed = 0.
Hypothesis LT2 : length ts2 <= 7.

Lemma no_verts g : nlv g = 0 -> all_verts g fuel = Some [].
Proof. intros N. destruct fuel as [|f]; [lia|]. unfold all_verts, vit_begin. cbn [drain]. unfold vit_step. rewrite N. reflexivity. Qed.
Lemma no_edges g ts t : (forall ed, In ed ts -> e_num ed = 0) -> t < 7 -> all_edges (with_types g ts) t fuel = Some [].
Proof.
  intros T L. unfold all_edges, eit_begin, num_edges, gtype. cbn [with_types types].
  assert (E : (match nth_error ts t with Some ed => Some (e_num ed) | None => if t <? 7 then Some 0 else None end) = Some 0).
  { destruct (nth_error ts t) as [ed|] eqn:E; [rewrite (T ed); auto; eapply nth_error_In; eauto|]. apply Nat.ltb_lt in L. now rewrite L. }
  rewrite E. cbn [obind]. destruct fuel as [|f]; [lia|]. cbn [drain]. unfold eit_step, mk_eiter. cbn [ei_end ei_loc].
  rewrite Nat.add_0_l. rewrite Nat.leb_refl. reflexivity.
Qed.
Lemma upd_types l : forall g ts, foldM upd_one l (with_types g ts) = option_map (fun g' => with_types g' ts) (foldM upd_one l g).
Proof.
  induction l as [|m l IH]; intros g ts; [destruct g; reflexivity|]. cbn [foldM].
  assert (E : upd_one (with_types g ts) m = option_map (fun g' => with_types g' ts) (upd_one g m)).
  { unfold upd_one. destruct (snd m) as (gid, own). cbn [with_types vmap nlv owners]. destruct (zfind (vmap g) gid) as [k|]; (destruct (nlv g <=? _); [destruct (aset (owners g) _ own); reflexivity|reflexivity]). }
  rewrite E. destruct (upd_one g m) as [g'|]; [|reflexivity]. cbn [obind option_map]. apply IH.
Qed.
Lemma upd_nlv l : forall g g', foldM upd_one l g = Some g' -> nlv g' = nlv g.
Proof.
  induction l as [|m l IH]; intros g g' E; cbn [foldM] in E; [inversion E; auto|]. destruct (upd_one g m) as [h|] eqn:X; [|discriminate]. cbn [obind] in E. rewrite (IH _ _ E).
  unfold upd_one in X. destruct (snd m) as (gid, own). destruct (zfind (vmap g) gid) as [k|]; (destruct (nlv g <=? _); [destruct (aset (owners g) _ own); [|discriminate]|]); cbn [obind] in X; inversion X; reflexivity.
Qed.

Lemma migrate_sim st1 st2 Q : Forall2 (sim ts1 ts2) st1 st2 -> max_types st1 = max_types st2 -> max_types st2 <= 7 ->
  migrate fuel st2 Q -> migrate fuel st1 Q.
Proof.
  intros HS HM M7. unfold migrate. rewrite HM. set (nt := max_types st2) in *. clearbody nt. clear HM.
  eapply local_sim with (R' := sim ts1 ts2); [exact HS| |].
  { intros a1 a2 b2 [->|(g & G1 & G2 & O & P1 & P2 & N)] E; [exists b2; split; auto; left; auto|].
    unfold mig_cleanup in *. rewrite P2, G2 in E. rewrite P1, G1. unfold plan_new in *. cbn [with_types nlv pl_sending foldM] in *. rewrite N in *. cbn [Nat.eqb obind foldM] in *. inversion E; subst b2.
    eexists. split; [reflexivity|]. right. exists g. cbn [mp_g mp_oo mp_plan]. repeat split; auto. }
  clear st1 st2 HS. intros st1 st2 HS. eapply phase_sim with (R' := sim ts1 ts2); [exact HS| | |].
  { intros a1 a2 [->|(g & G1 & G2 & O & P1 & P2 & N)]; auto. unfold upd_send. rewrite P1, P2. reflexivity. }
  { intros a1 a2 m b2 [->|(g & G1 & G2 & O & P1 & P2 & N)] E; [exists b2; split; auto; left; auto|].
    unfold upd_recv in *. rewrite G2, upd_types in E. rewrite G1, upd_types. destruct (foldM upd_one m g) as [g'|] eqn:EU; [|discriminate].
    cbn [option_map obind] in *. inversion E; subst b2. eexists. split; [reflexivity|]. right. exists g'. cbn [mp_g mp_oo mp_plan]. rewrite (upd_nlv _ _ _ EU). repeat split; auto. }
  clear st1 st2 HS. intros st1 st2 HS. eapply local_sim with (R' := wsim ts1 ts2); [exact HS| |].
  { intros a1 a2 b2 [->|(g & G1 & G2 & O & P1 & P2 & N)] E; [exists b2; split; auto; repeat split; left; auto|].
    assert (S1 : forall a ts, (forall ed, In ed ts -> e_num ed = 0) -> mp_g a = with_types g ts -> mp_plan a = mkPlan [] [] ->
       mig_setup fuel nt a = Some (mkMW a [] (repeat [] nt) [])).
    { intros a ts T G P. unfold mig_setup. assert (KV : kept_verts fuel a = Some []).
      { unfold kept_verts, affected_verts. rewrite P, G. cbn [pl_sending mapM obind filter map]. rewrite no_verts by exact N. reflexivity. }
      rewrite KV. cbn [obind]. assert (KE : mapM (kept_edges fuel a) (seq 0 nt) = Some (repeat [] nt)).
      { rewrite (mapM_some _ _ _ (fun _ => [])); [f_equal; clear; generalize 0; induction nt; intros; cbn; auto; f_equal; auto|].
        intros t Ht. apply in_seq in Ht. unfold kept_edges. rewrite G, no_edges by (auto; lia). reflexivity. }
      rewrite KE. cbn [obind]. f_equal. f_equal. clear. induction nt; cbn; auto. }
    rewrite (S1 a2 ts2 T2 G2 P2) in E. rewrite (S1 a1 ts1 T1 G1 P1). inversion E; subst b2. eexists. split; [reflexivity|].
    repeat split. right. exists g. repeat split; auto. }
  clear st1 st2 HS. intros st1 st2 HS. eapply phase_sim with (R' := wsim ts1 ts2); [exact HS| | |].
  { intros w1 w2 (_ & _ & _ & [Ep|(g & G1 & G2 & O & P1 & P2 & N)]); unfold vert_send; [now rewrite Ep|]. rewrite P1, P2. reflexivity. }
  { intros w1 w2 m b2 (A & B & C & D) E. unfold vert_recv in *. inversion E; subst b2. eexists. split; [reflexivity|]. unfold wsim. cbn. rewrite A. auto. }
  clear st1 st2 HS. intros st1 st2 HS. assert (HT : forall t, In t (seq 0 nt) -> t < 7) by (intros t Ht; apply in_seq in Ht; lia).
  assert (SELF : forall s1 s2, sim ts1 ts2 s1 s2 -> self (mp_g s1) = self (mp_g s2) /\ hyper (mp_g s1) = hyper (mp_g s2)).
  { intros s1 s2 [->|(g & G1 & G2 & _)]; auto. rewrite G1, G2. auto. }
  revert st1 st2 HS. generalize (seq 0 nt). induction l as [|t l IH]; intros st1 st2 HS; cbn [edge_phases].
  - eapply local_sim with (R' := eq); [exact HS| |].
    + intros w1 w2 b2 (A & B & C & D) E. exists b2. split; auto. destruct (SELF _ _ D) as (S1 & S2). unfold mig_build in *. rewrite A, B, C, S1, S2. exact E.
    + intros l1 l2 X. assert (l1 = l2) by (clear - X; induction X; congruence). now subst.
  - eapply phase_sim with (R' := wsim ts1 ts2); [exact HS| | |exact IH].
    + intros w1 w2 (_ & _ & _ & [Ep|(g & G1 & G2 & O & P1 & P2 & N)]); unfold edge_send; [now rewrite Ep|]. unfold affected_edges, affected_verts. rewrite P1, P2. reflexivity.
    + intros w1 w2 m b2 (A & B & C & D) E. destruct (SELF _ _ D) as (S1 & S2). unfold edge_recv in *. rewrite B, C, S1, S2.
      destruct (nth_error (w_edges w2) t) as [es|]; [|discriminate]. cbn [obind] in *. destruct (fold_left _ m (es, w_gown w2)) as (es', mm). inversion E; subst b2.
      eexists. split; [reflexivity|]. unfold wsim. cbn. auto.
Qed.
End Sim.
