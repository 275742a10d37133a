(** One part of the mesh: filling the pins. *)
From Verif Require Import Base GraphModel CsrProofs ConstructProofs AccessProofs Comm TagModel MigrateModel MeshModel MeshProofs1.

Definition out2 (me : Z) (m : pmesh) (x : ment * Z) : list (Z * (Z * Z)) := flat_map (fun v => map (fun q => (q, (en_gid (fst x), v))) (others me (fst x))) (adjl m (fst x)).
Fixpoint lps (m : pmesh) (k : nat) (l : list (ment * Z)) : list (nat * nat) :=
  match l with [] => [] | x :: r => map (fun v => (k, idx (verts_of m) v)) (adjl m (fst x)) ++ lps m (S k) r end.
Lemma lps_app m k l1 l2 : lps m k (l1 ++ l2) = lps m k l1 ++ lps m (k + length l1) l2.
Proof. revert k. induction l1 as [|x l1 IH]; intros k; cbn; [now rewrite Nat.add_0_r|]. rewrite IH, <- app_assoc. do 3 f_equal. lia. Qed.
Lemma vals_pairs A u k (f : A -> nat) (l : list A) : vals_of u (map (fun v => (k, f v)) l) = if u =? k then map f l else [].
Proof. unfold vals_of. induction l as [|a l IH]; cbn; [destruct (u =? k); reflexivity|]. rewrite (Nat.eqb_sym k u). destruct (u =? k) eqn:E; cbn; rewrite IH, ?E; reflexivity. Qed.
Lemma lps_vals m l : forall k u, vals_of u (lps m k l) = if k <=? u then match nth_error l (u - k) with Some x => map (idx (verts_of m)) (adjl m (fst x)) | None => [] end else [].
Proof.
  induction l as [|x l IH]; intros k u; cbn [lps].
  - cbn. destruct (k <=? u); [|reflexivity]. destruct (u - k); reflexivity.
  - rewrite vals_of_app, vals_pairs, IH. destruct (Nat.eqb_spec u k) as [E|N].
    + subst. rewrite Nat.leb_refl, Nat.sub_diag. cbn [nth_error]. destruct (Nat.leb_spec (S k) k); [lia|]. now rewrite app_nil_r.
    + cbn [app]. destruct (Nat.leb_spec (S k) u), (Nat.leb_spec k u); try lia; [|reflexivity]. replace (u - k) with (S (u - S k)) by lia. reflexivity.
Qed.
Lemma cnt_mid A u w (x : A) l1 l2 : cnt_of w l1 <= cnt_of w (l1 ++ (u, x) :: l2) /\ cnt_of u l1 < cnt_of u (l1 ++ (u, x) :: l2).
Proof.
  split; [rewrite cnt_of_app; lia|]. replace (l1 ++ (u, x) :: l2) with ((l1 ++ [(u, x)]) ++ l2) by (rewrite <- app_assoc; reflexivity). rewrite cnt_of_app, cnt_of_snoc_eq. lia.
Qed.
Lemma FillInv_counts n tot tot' pre s : (forall u, u < n -> cnt_of u tot = cnt_of u tot') -> FillInv n tot pre s -> FillInv n tot' pre s.
Proof.
  intros H (H1 & H2 & H3). assert (O : forall u, u <= n -> off tot u = off tot' u).
  { intros u Hu. unfold off. f_equal. apply map_ext_in. intros w Hw. apply in_seq in Hw. apply H. lia. }
  split; [exact H1|]. split; [intros u Hu; rewrite <- O by lia; auto|]. rewrite H3. f_equal. apply map_ext_in. intros u Hu. apply in_seq in Hu. unfold block. now rewrite H by lia.
Qed.

Lemma fill_local_ok a m h em gh n tot s0 : a_m a = m -> MapInv em (gids h) -> MapInv (a_vm a) (verts_of m ++ gh) -> NoDup (verts_of m ++ gh) -> n = length (h_ents h) ->
  (forall e w i, In (e, w) (h_ents h) -> In i (en_adj e) -> i < length (pm_prim m)) -> (forall u, cnt_of u (lps m 0 (h_ents h)) <= cnt_of u tot) -> FillInv n tot [] s0 ->
  exists s, foldM (fill1 (a_me a) (a_m a) (a_vm a) em) (h_ents h) (s0, []) = Some (s, flat_map (out2 (a_me a) m) (h_ents h)) /\ FillInv n tot (lps m 0 (h_ents h)) s.
Proof.
  intros Ea M MV ND En HA HC H0. rewrite Ea.
  destruct (foldM_inv (fill1 (a_me a) m (a_vm a) em) (fun pre st => FillInv n tot (lps m 0 pre) (fst st) /\ snd st = flat_map (out2 (a_me a) m) pre) (h_ents h) (s0, [])) as ((s & o) & E & H1 & H2).
  - split; [exact H0|reflexivity].
  - intros pre (e, w) post (s, o) Hs (H1 & H2). cbn [fst snd] in *. unfold fill1. cbn [fst snd].
    assert (K : nth_error (h_ents h) (length pre) = Some (e, w)) by (rewrite Hs, nth_error_app2, Nat.sub_diag by lia; reflexivity).
    assert (L : length pre < n) by (subst n; apply nth_error_Some; congruence).
    rewrite (em_nth em h _ e w M K). cbn [obind]. rewrite owned_adj_ok by (intros i Hi; eapply HA; eauto; eapply nth_error_In; eauto). cbn [obind].
    rewrite Hs, lps_app in HC. cbn [lps Nat.add fst] in HC.
    destruct (foldM_inv (fill_pin (a_me a) (a_vm a) e (length pre)) (fun vp st => FillInv n tot (lps m 0 pre ++ map (fun v => (length pre, idx (verts_of m) v)) vp) (fst st) /\
        snd st = flat_map (out2 (a_me a) m) pre ++ flat_map (fun v => map (fun q => (q, (en_gid e, v))) (others (a_me a) e)) vp) (adjl m e) (s, o)) as (st & E & G1 & G2).
    + cbn [fst snd map flat_map]. rewrite !app_nil_r. auto.
    + intros vp v vq (s1, o1) Hv (G1 & G2). cbn [fst snd] in *. unfold fill_pin. cbn [fst snd].
      assert (IV : In v (verts_of m)) by (apply (adjl_verts m e); rewrite Hv; apply in_or_app; right; now left).
      assert (Z1 : zfind (a_vm a) v = Some (idx (verts_of m) v)).
      { rewrite (MapInv_find _ _ v MV) by (auto; apply in_or_app; auto). now rewrite idx_app. }
      rewrite Z1. cbn [obind].
      rewrite Hv, map_app in HC. cbn [map] in HC.
      assert (C' : forall x, cnt_of x ((lps m 0 pre ++ map (fun v => (length pre, idx (verts_of m) v)) vp) ++ (length pre, idx (verts_of m) v) :: (map (fun v => (length pre, idx (verts_of m) v)) vq ++ lps m (S (length pre)) post)) <= cnt_of x tot).
      { intros x. specialize (HC x). rewrite <- !app_assoc in *. exact HC. }
      destruct (fill_step n tot _ (length pre) (idx (verts_of m) v) s1 G1 L) as (s2 & E2 & F2).
      { intros x. specialize (C' x). pose proof (proj1 (cnt_mid nat (length pre) x (idx (verts_of m) v) (lps m 0 pre ++ map (fun v => (length pre, idx (verts_of m) v)) vp) (map (fun v => (length pre, idx (verts_of m) v)) vq ++ lps m (S (length pre)) post))). lia. }
      { specialize (C' (length pre)). pose proof (proj2 (cnt_mid nat (length pre) 0 (idx (verts_of m) v) (lps m 0 pre ++ map (fun v => (length pre, idx (verts_of m) v)) vp) (map (fun v => (length pre, idx (verts_of m) v)) vq ++ lps m (S (length pre)) post))). lia. }
      rewrite E2. cbn [obind]. eexists. split; [reflexivity|]. cbn [fst snd]. rewrite map_app, flat_map_app. cbn [map flat_map]. rewrite app_nil_r. split; [now rewrite app_assoc|]. now rewrite G2, app_assoc.
    + rewrite E. exists st. split; [reflexivity|]. rewrite lps_app, flat_map_app. cbn [lps flat_map Nat.add fst]. rewrite !app_nil_r. split; [exact G1|]. rewrite G2. reflexivity.
  - exists s. cbn [fst snd] in *. rewrite E, H2. auto.
Qed.

Lemma Forall2_snoc A B (R : A -> B -> Prop) l l' a b : Forall2 R l l' -> R a b -> Forall2 R (l ++ [a]) (l' ++ [b]).
Proof. intros H. induction H; intros K; cbn; constructor; auto. Qed.
Lemma Forall2_impl2 A B (R R' : A -> B -> Prop) l l' : (forall a b, R a b -> R' a b) -> Forall2 R l l' -> Forall2 R' l l'.
Proof. intros H K. induction K; constructor; auto. Qed.
Definition pairing (h : hdim) (all : list Z) (r : Z * (Z * Z)) (u : nat * nat) : Prop := nth_error (gids h) (fst u) = Some (fst (snd r)) /\ nth_error all (snd u) = Some (snd (snd r)).
Lemma pairing_cnt h all l ps u x : NoDup (gids h) -> nth_error (gids h) u = Some x -> Forall2 (pairing h all) l ps -> cnt_of u ps = cnt2 x l.
Proof.
  intros N Hu H. induction H as [|r (k, i) l ps (P1 & P2) H IH]; [reflexivity|]. cbn [fst snd] in *.
  change ((k, i) :: ps) with ([(k, i)] ++ ps). rewrite cnt_of_app, IH. unfold cnt2. cbn [map nsum fold_right]. f_equal.
  unfold cnt_of. destruct (Z.eqb_spec (fst (snd r)) x) as [E|NE].
  - assert (k = u) by (eapply NoDup_nth_error_inj; eauto; congruence). subst. now rewrite vals_of_single_eq.
  - rewrite vals_of_single_neq; [reflexivity|]. intros ->. congruence.
Qed.
Lemma pairing_lt h all l ps u : Forall2 (pairing h all) l ps -> length (gids h) <= u -> cnt_of u ps = 0.
Proof.
  intros H L. induction H as [|r (k, i) l ps (P1 & P2) H IH]; [reflexivity|]. cbn [fst snd] in *. change ((k, i) :: ps) with ([(k, i)] ++ ps). rewrite cnt_of_app, IH.
  unfold cnt_of. rewrite vals_of_single_neq; [reflexivity|]. intros ->. assert (k < length (gids h)) by (apply nth_error_Some; congruence). lia.
Qed.
Lemma pairing_grow h all ext l ps : Forall2 (pairing h all) l ps -> Forall2 (pairing h (all ++ ext)) l ps.
Proof. apply Forall2_impl2. intros r u (P1 & P2). split; auto. rewrite nth_error_app1; auto. apply nth_error_Some. congruence. Qed.

Lemma recv_ok n verts h em gh own vm tot lp fill0 arrived : n = length verts -> MapInv em (gids h) -> NoDup (gids h) -> MapInv vm (verts ++ gh) -> NoDup (verts ++ gh) ->
  FillInv (length (gids h)) tot lp fill0 -> (forall r, In r arrived -> In (fst (snd r)) (gids h)) -> (forall r, In r arrived -> ~ In (snd (snd r)) verts) ->
  (forall u x, nth_error (gids h) u = Some x -> cnt_of u lp + cnt2 x arrived = cnt_of u tot) -> (forall u, length (gids h) <= u -> cnt_of u lp = 0) ->
  exists vm' ext exto fill' ps, foldM (recv_pin n em) arrived (mkR vm gh own fill0) = Some (mkR vm' (gh ++ ext) (own ++ exto) fill') /\
    MapInv vm' (verts ++ gh ++ ext) /\ NoDup (verts ++ gh ++ ext) /\ Forall2 (fun v o => exists x, In (o, (x, v)) arrived) ext exto /\
    FillInv (length (gids h)) (lp ++ ps) (lp ++ ps) fill' /\ (forall u, u < length (gids h) -> cnt_of u (lp ++ ps) = cnt_of u tot) /\ Forall2 (pairing h (verts ++ gh ++ ext)) arrived ps.
Proof.
  intros En M NG MV ND F0 HG HV HC HL.
  destruct (foldM_inv (recv_pin n em) (fun pre s => exists ext exto ps, r_gh s = gh ++ ext /\ r_own s = own ++ exto /\ MapInv (r_vm s) (verts ++ gh ++ ext) /\ NoDup (verts ++ gh ++ ext) /\
      Forall2 (fun v o => exists x, In (o, (x, v)) pre) ext exto /\ FillInv (length (gids h)) tot (lp ++ ps) (r_fill s) /\ Forall2 (pairing h (verts ++ gh ++ ext)) pre ps) arrived (mkR vm gh own fill0)) as (s & E & ext & exto & ps & H1 & H2 & H3 & H4 & H5 & H6 & H7).
  - exists [], [], []. cbn [r_gh r_own r_vm r_fill]. rewrite !app_nil_r. repeat (split; [auto|]). auto.
  - intros pre (s0, (x, v)) post s Hs (ext & exto & ps & H1 & H2 & H3 & H4 & H5 & H6 & H7). unfold recv_pin. cbn [fst snd].
    assert (IA : In (s0, (x, v)) arrived) by (rewrite Hs; apply in_or_app; right; now left).
    pose proof (HG _ IA) as I. cbn [fst snd] in I. apply In_nth_error in I as (u & Hu). assert (zfind em x = Some u) as -> by (apply M; exact Hu). cbn [obind].
    assert (Lu : u < length (gids h)) by (apply nth_error_Some; congruence).
    assert (CL : forall w, cnt_of w (lp ++ ps) <= cnt_of w tot /\ (w = u -> cnt_of w (lp ++ ps) < cnt_of w tot)).
    { intros w. rewrite cnt_of_app. destruct (nth_error (gids h) w) as [y|] eqn:Ey.
      - rewrite (pairing_cnt _ _ _ _ _ _ NG Ey H7), <- (HC w y Ey). rewrite Hs. unfold cnt2. rewrite map_app, nsum_app. cbn [map nsum fold_right fst snd]. split; [lia|].
        intros ->. assert (y = x) by congruence. subst. rewrite Z.eqb_refl. lia.
      - apply nth_error_None in Ey. rewrite (HL w Ey), (pairing_lt _ _ _ _ _ H7 Ey). split; [lia|]. intros ->. lia. }
    assert (FS : forall i, exists f', push_row (r_fill s) u i = Some f' /\ FillInv (length (gids h)) tot (lp ++ ps ++ [(u, i)]) f').
    { intros i. rewrite app_assoc. apply fill_step; auto; [intros w; apply CL|apply (CL u); auto]. }
    destruct (zfind (r_vm s) v) as [i|] eqn:Ev.
    + destruct (FS i) as (f' & Ef & Ff). rewrite Ef. cbn [obind]. eexists. split; [reflexivity|]. exists ext, exto, (ps ++ [(u, i)]). cbn [r_gh r_own r_vm r_fill].
      split; auto. split; auto. split; auto. split; auto. split; [|split; auto].
      * apply (Forall2_impl2 _ _ _ _ _ _) with (2 := H5). intros a b (y & Hy). exists y. apply in_or_app. auto.
      * apply Forall2_snoc; auto. split; [exact Hu|]. cbn [fst snd]. apply H3. exact Ev.
    + destruct (FS (n + length (r_gh s))) as (f' & Ef & Ff). rewrite Ef. cbn [obind]. eexists. split; [reflexivity|]. exists (ext ++ [v]), (exto ++ [s0]), (ps ++ [(u, n + length (r_gh s))]). cbn [r_gh r_own r_vm r_fill].
      assert (NV : ~ In v (verts ++ gh ++ ext)).
      { intros I. apply In_nth_error in I as (k & Hk). apply H3 in Hk. congruence. }
      assert (Ln : n + length (r_gh s) = length (verts ++ gh ++ ext)) by (rewrite En, H1, !app_length; lia).
      split; [rewrite H1; now rewrite app_assoc|]. split; [rewrite H2; now rewrite app_assoc|].
      assert (EQ : verts ++ gh ++ ext ++ [v] = (verts ++ gh ++ ext) ++ [v]) by (now rewrite !app_assoc).
      rewrite EQ. split; [rewrite Ln; apply MapInv_snoc; auto|]. split; [|split; [|split; [exact Ff|]]].
      * apply NoDup_app_iff. split; auto. split; [constructor; [tauto|constructor]|]. intros y Hy [<-|[]]. auto.
      * apply Forall2_snoc; [|exists x; apply in_or_app; right; now left]. apply (Forall2_impl2 _ _ _ _ _ _) with (2 := H5). intros a b (y & Hy). exists y. apply in_or_app. auto.
      * apply Forall2_snoc; [now apply pairing_grow|]. split; [exact Hu|]. cbn [fst snd]. rewrite Ln, nth_error_app2, Nat.sub_diag by lia. reflexivity.
  - assert (CE : forall u, u < length (gids h) -> cnt_of u (lp ++ ps) = cnt_of u tot).
    { intros u Hu. rewrite cnt_of_app. destruct (nth_error (gids h) u) as [x|] eqn:Ex; [|apply nth_error_None in Ex; lia]. rewrite (pairing_cnt _ _ _ _ _ _ NG Ex H7). now apply HC. }
    exists (r_vm s), ext, exto, (r_fill s), ps. split; [rewrite E; destruct s as [a0 b0 c0 d0]; cbn [MeshModel.r_gh MeshModel.r_own MeshModel.r_vm MeshModel.r_fill] in *; subst; reflexivity|]. split; auto. split; auto. split; auto. split; auto.
    apply FillInv_counts with (tot := tot); auto. intros u Hu. now rewrite CE.
Qed.
