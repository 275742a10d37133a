From Verif Require Import Base GraphModel GraphSpec CsrProofs ConstructProofs AccessProofs BinModel BinProofs BinCsr Comm TagProps GraphIOModel GraphIOProps MigrateModel MigrateProofs1 MigrateTop ColorProofs ColorProofs2 ZoltanProps VcutModel VcutSpec VcutProofs.

Section Fill2.
Variables (vm : zmap nat) (V : list Z).
Hypothesis HM : MapInv vm V.
Hypothesis NV : NoDup V.
Let n := length V.
Variable D : list (Z * Z).
Hypothesis HD : forall r, In r D -> In (snd r) V.
Definition crow (p : nat * (Z * Z)) : nat * nat := (idx V (snd (snd p)), n + fst p).
Definition crows : list (nat * nat) := map crow (combine (seq 0 (length D)) D).
Lemma crows_cnt k : cnt_of k crows = cnt_of k (keys V D).
Proof.
  unfold crows, keys. generalize 0. induction D as [|r l IH]; intros a; [reflexivity|]. cbn [length seq combine map]. unfold cnt_of, vals_of in *. cbn [filter fst crow snd]. specialize (IH (fun x Hx => HD x (or_intror Hx)) (S a)).
  destruct (idx V (snd r) =? k); cbn [map length]; rewrite IH; reflexivity.
Qed.
Lemma crows_nth i r : nth_error D i = Some r -> nth_error crows i = Some (idx V (snd r), n + i).
Proof.
  intros H. unfold crows. rewrite nth_error_map. assert (E : nth_error (combine (seq 0 (length D)) D) i = Some (i, r)).
  { assert (G : forall l a j x, nth_error l j = Some x -> nth_error (combine (seq a (length l)) l) j = Some (a + j, x : Z * Z)).
    { induction l as [|y l IH]; intros a [|j] x Hj; try discriminate; cbn in *; [injection Hj as ->; now rewrite Nat.add_0_r|]. rewrite (IH (S a) j x Hj). do 2 f_equal. lia. }
    apply (G D 0 i r H). }
  rewrite E. reflexivity.
Qed.
Lemma crows_len : length crows = length D.
Proof. unfold crows. rewrite map_length, combine_length, seq_length. lia. Qed.
Lemma crows_lt p : In p crows -> fst p < n.
Proof. intros H. apply in_map_iff in H as (x & <- & Hx). cbn [crow fst]. apply idx_lt, HD. destruct x. eapply in_combine_r; eauto. Qed.
Lemma crows_firstn i r : nth_error D i = Some r -> firstn (i + 1) crows = firstn i crows ++ [(idx V (snd r), n + i)].
Proof. intros H. rewrite Nat.add_1_r. apply firstn_next. now apply crows_nth. Qed.
Lemma crows_cnt_le k u : cnt_of u (firstn k crows) <= cnt_of u crows.
Proof. rewrite <- (firstn_skipn k crows) at 2. rewrite cnt_of_app. lia. Qed.
Lemma fill2_ok tc : length tc = n -> (forall u, u < n -> aget tc u = Some (off crows u)) ->
  exists tc', foldM (fun (s : arr nat * arr nat * arr Z * arr Z) i => let '(el, tc, gu, ow) := s in
        d <- nth_error (map (fun r => (snd r, fst r)) D) i ;; l <- zfind vm (fst d) ;; '(el', tc') <- push_row (el, tc) l (n + i) ;;
        gu' <- aset gu i (fst d) ;; ow' <- aset ow i (snd d) ;; Some (el', tc', gu', ow'))
      (seq 0 (length D)) (anew (length D), tc, anew (length D), anew (length D)) =
    Some (ainit (concat (map (fun u => vals_of u crows) (seq 0 n))), tc', ainit (map snd D), ainit (map fst D)).
Proof.
  intros Lt Ht.
  destruct (foldM_count _ (fun (s : arr nat * arr nat * arr Z * arr Z) i => let '(el, tc, gu, ow) := s in
        d <- nth_error (map (fun r => (snd r, fst r)) D) i ;; l <- zfind vm (fst d) ;; '(el', tc') <- push_row (el, tc) l (n + i) ;;
        gu' <- aset gu i (fst d) ;; ow' <- aset ow i (snd d) ;; Some (el', tc', gu', ow')) (fun i => i) (length D)
    (fun k s => let '(el, tc, gu, ow) := s in FillInv n crows (firstn k crows) (el, tc) /\ gu = ainit (map snd (firstn k D)) ++ anew (length D - k) /\ ow = ainit (map fst (firstn k D)) ++ anew (length D - k))
    (anew (length D), tc, anew (length D), anew (length D))) as ((((el & tc') & gu) & ow) & E & H1 & H2 & H3).
  - cbn [firstn]. split; [|cbn; rewrite Nat.sub_0_r; auto]. rewrite <- crows_len, <- (off_total crows n crows_lt). now apply fill_init.
  - intros k (((el & tc0) & gu) & ow) Hk (H1 & H2 & H3). destruct (nth_error D k) as [r|] eqn:Er; [|apply nth_error_None in Er; lia]. rewrite nth_error_map, Er. cbn [option_map obind fst snd].
    assert (I : In (snd r) V) by (apply HD; eapply nth_error_In; eauto). rewrite (MapInv_find _ _ _ HM I NV). cbn [obind].
    destruct (fill_step n crows (firstn k crows) (idx V (snd r)) (n + k) (el, tc0) H1) as ((el' & tc1) & E1 & F1).
    + now apply idx_lt.
    + intros w. apply crows_cnt_le.
    + pose proof (crows_cnt_le (k + 1) (idx V (snd r))) as C. rewrite (crows_firstn _ _ Er), cnt_of_snoc_eq in C. lia.
    + rewrite E1. cbn [obind]. rewrite H2, H3. rewrite !fill_at by (rewrite ?map_length, ?firstn_length; lia). cbn [obind]. eexists. split; [reflexivity|]. cbn beta iota.
      rewrite (crows_firstn _ _ Er), Nat.add_1_r, (firstn_next _ _ _ _ Er), !map_app. cbn [map]. replace (length D - k - 1) with (length D - S k) by lia. auto.
  - rewrite map_id in E. rewrite firstn_all2 in H1 by (rewrite crows_len; lia). apply fill_done in H1. cbn [fst] in H1. rewrite firstn_all, Nat.sub_diag in H2, H3. cbn in H2, H3. rewrite app_nil_r in H2, H3. exists tc'. subst. exact E.
Qed.
End Fill2.

(** the whole second round on part q *)
Lemma split_ok q A V g arrived : cut1 q A V g -> let D := filter (here V) arrived in
  exists deg g', split_build true g arrived = Some (mkVC g' deg (ainit (concat (map (fun u => vals_of u (crows V D)) (seq 0 (length V))))) []) /\
    g' = mkGraph false (length V) (length D) (lunmap g) (lwgts g) (ainit (map snd D)) (vmap g) (types g) (ainit (map fst D)) (Z.of_nat q) /\
    (forall k, k <= length V -> aget deg k = Some (off (crows V D) k)).
Proof.
  intros [NV IV (vm & deg0 & ow0 & -> & HM & Hdeg)] D. unfold split_build. cbn [nlv hyper lunmap lwgts vmap types self].
  assert (HD : forall r, In r D -> In (snd r) V). { intros r Hr. apply filter_In in Hr as (_ & Hr). unfold here in Hr. destruct (in_dec Z.eq_dec (snd r) V); [auto|discriminate]. }
  match goal with |- context [split_recv ?G arrived] => destruct (recv_run vm V HM NV G arrived eq_refl eq_refl) as (cnt & E1 & L1 & C0 & C1); rewrite E1 end. fold D in C1. fold D. cbn [obind].
  destruct (sums_run V cnt (fun k => cnt_of k (crows V D)) L1 C0) as (deg & E2 & L2 & C2). { intros k Hk. rewrite C1, crows_cnt by auto. reflexivity. }
  rewrite E2. cbn [obind]. rewrite C2 by auto. cbn [obind]. fold (off (crows V D) (length V)). rewrite (off_total (crows V D) (length V)) by (apply crows_lt; auto). rewrite crows_len, map_length, Nat.eqb_refl.
  assert (E3 : copy_counts true (length V) deg = Some (ainit (map (off (crows V D)) (seq 0 (length V))))).
  { unfold copy_counts. rewrite mapM_some with (h := off (crows V D)); [reflexivity|]. intros k Hk. apply in_seq in Hk. apply C2. lia. }
  rewrite E3. cbn [obind]. destruct (fill2_ok vm V HM NV D HD (ainit (map (off (crows V D)) (seq 0 (length V))))) as (tc' & E4).
  - now rewrite ainit_length, map_length, seq_length.
  - intros u Hu. rewrite aget_ainit, nth_error_map, nth_error_seq by auto. reflexivity.
  - match goal with |- context [foldM ?f ?l ?a] => assert (E5 : foldM f l a = Some (ainit (concat (map (fun u => vals_of u (crows V D)) (seq 0 (length V)))), tc', ainit (map snd D), ainit (map fst D))) by exact E4; rewrite E5 end. cbn [obind]. do 2 eexists. split; [reflexivity|]. split; [reflexivity|]. exact C2.
Qed.

(** the result on part q meets the specification; [arrived] is what it received in the second round *)
Lemma result_ok ins q A V g arrived deg g' : cut1 q A V g -> q < length ins -> let D := filter (here V) arrived in
  Permutation A (assigned q ins) -> NoDup arrived ->
  (forall p v, In v V -> (In (p, v) arrived <-> exists r, p = Z.of_nat r /\ r < length ins /\ r <> q /\ touches (assigned r ins) v)) ->
  g' = mkGraph false (length V) (length D) (lunmap g) (lwgts g) (ainit (map snd D)) (vmap g) (types g) (ainit (map fst D)) (Z.of_nat q) ->
  (forall k, k <= length V -> aget deg k = Some (off (crows V D) k)) ->
  cut_part ins q (mkVC g' deg (ainit (concat (map (fun u => vals_of u (crows V D)) (seq 0 (length V))))) []).
Proof.
  intros [NV IV (vm & deg0 & ow0 & -> & HM & Hdeg)] Hq D PA ND HAr Eg' Hd. cbn [lunmap lwgts vmap types] in Eg'. unfold cut_part. cbn [vc_g]. set (R := map (fun a => (idx V (fst a), idx V (snd a))) A) in *.
  assert (HV : forall l v, nth_error V l = Some v -> vgid g' (S l) = Some v /\ owner g' (S l) = Some (Z.of_nat q) /\ vweight g' (S l) = Some 1%Z).
  { intros l v Hl. assert (L : l < length V) by (apply nth_error_Some; congruence). rewrite Eg'. unfold vgid, owner, vweight. cbn [vlid obind nlv ngv lunmap self lwgts]. destruct (Nat.leb_spec (length V) l); [lia|]. destruct (Nat.leb_spec (length V + length D) l); [lia|]. destruct (Nat.ltb_spec l (length V)); [|lia]. split; [now rewrite aget_ainit|]. split; auto. rewrite aget_ainit. now apply nth_error_repeat. }
  exists A. split; auto. split; [rewrite Eg'; reflexivity|]. split; [rewrite Eg'; reflexivity|]. split.
  { exists V. rewrite Eg'. cbn [lunmap nlv]. auto. }
  intros v Hv. apply IV in Hv. pose proof (idx_lt V v Hv) as Ll. pose proof (idx_nth V v Hv) as Nl. set (l := idx V v) in *. exists (S l). destruct (HV l v Nl) as (G1 & G2 & G3).
  split. { unfold findGID. rewrite Eg'. cbn [vmap]. rewrite (MapInv_find _ _ _ HM Hv NV). cbn [obind]. unfold l. now rewrite Nat.add_1_r. }
  split; auto. split; auto. split; auto.
  assert (TA : forall a, In a A -> In (fst a) V /\ In (snd a) V) by (intros a Ha; split; apply IV; exists a; auto).
  split.
  - intros fuel Hf. exists (map S (vals_of l R)).
    assert (ER : vals_of l R = map (idx V) (map snd (filter (fun a => Z.eqb (fst a) v) A))).
    { unfold R, vals_of. clear - TA Hv. unfold l in *. induction A as [|a A' IH]; [reflexivity|]. cbn [map filter fst snd]. assert (Ia := TA a (or_introl eq_refl)). specialize (IH (fun b Hb => TA b (or_intror Hb))).
      destruct (Z.eqb_spec (fst a) v) as [->|N].
      - rewrite Nat.eqb_refl. cbn [map snd]. now rewrite IH.
      - destruct (Nat.eqb_spec (idx V (fst a)) (idx V v)) as [E|_]; [|exact IH]. exfalso. apply N. eapply idx_inj; eauto; tauto. }
    split; [|split].
    + eapply csr_adjacent with (tot := R); try (rewrite Eg'; reflexivity).
      * cbn [e_deg]. apply Hdeg. lia.
      * cbn [e_deg]. rewrite Nat.add_1_r. apply Hdeg. lia.
      * intros m x Hm. cbn [e_list]. rewrite aget_ainit. unfold off, cnt_of. apply (concat_row nat (fun u => vals_of u R) (length V) l m x Ll Hm).
      * unfold cnt_of. rewrite ER, !map_length. eapply Nat.le_lt_trans; [|exact Hf]. apply filter_len.
    + rewrite ER, map_map. set (ds := map snd (filter (fun a => Z.eqb (fst a) v) A)). assert (Hds : forall d, In d ds -> In d V). { intros d Hd'. apply in_map_iff in Hd' as (a & <- & Ha). apply filter_In in Ha as (Ha & _). now apply TA. }
      clearbody ds. clear - Hds HV. induction ds as [|d ds IH]; [reflexivity|]. cbn [map mapM]. destruct (HV _ _ (idx_nth V d (Hds d (or_introl eq_refl)))) as (E & _). rewrite E. cbn [obind]. rewrite IH by (intros; apply Hds; right; auto). reflexivity.
    + intros x Hx. apply in_map_iff in Hx as (k & <- & Hk). rewrite ER in Hk. apply in_map_iff in Hk as (d & <- & Hd'). assert (In d V) by (apply in_map_iff in Hd' as (a & <- & Ha); apply filter_In in Ha as (Ha & _); now apply TA). now apply (HV _ d (idx_nth V d H)).
  - set (Dv := filter (fun p : nat * (Z * Z) => Z.eqb (snd (snd p)) v) (combine (seq 0 (length D)) D)).
    assert (HDV : forall r, In r D -> In (snd r) V). { intros r Hr. apply filter_In in Hr as (_ & Hr). unfold here in Hr. destruct (in_dec Z.eq_dec (snd r) V); [auto|discriminate]. }
    assert (EV : vals_of l (crows V D) = map (fun p => length V + fst p) Dv).
    { unfold crows, vals_of, Dv. assert (HC : forall p, In p (combine (seq 0 (length D)) D) -> In (snd (snd p)) V) by (intros (i, r) Hp; apply in_combine_r in Hp; cbn; auto). revert HC. generalize (combine (seq 0 (length D)) D). clear - Hv. unfold l in *.
      induction l0 as [|p l0 IH]; intros HC; [reflexivity|]. cbn [map filter fst snd crow]. specialize (IH (fun x Hx => HC x (or_intror Hx))). pose proof (HC p (or_introl eq_refl)) as Ip. destruct (Z.eqb_spec (snd (snd p)) v) as [E|N].
      - rewrite E, Nat.eqb_refl. cbn [map snd crow]. now rewrite IH.
      - destruct (Nat.eqb_spec (idx V (snd (snd p))) (idx V v)) as [E|_]; [|exact IH]. exfalso. apply N. eapply idx_inj; eauto. }
    assert (HDn : forall p, In p Dv -> nth_error D (fst p) = Some (snd p) /\ snd (snd p) = v).
    { intros (i, r) Hp. apply filter_In in Hp as (Hp & E). cbn [fst snd] in *. apply Z.eqb_eq in E. split; auto. clear - Hp.
      assert (G : forall (L : list (Z * Z)) a, In (i, r) (combine (seq a (length L)) L) -> a <= i /\ nth_error L (i - a) = Some r).
      { induction L as [|y L IH]; intros a H; [destruct H|]. cbn [length seq combine] in H. destruct H as [E|H]; [injection E as <- <-; rewrite Nat.sub_diag; auto|]. apply IH in H as (? & H). split; [lia|]. replace (i - a) with (S (i - S a)) by lia. exact H. }
      destruct (G D 0 Hp) as (_ & H). now rewrite Nat.sub_0_r in H. }
    assert (HG : forall p, In p Dv -> vgid g' (S (length V + fst p)) = Some v /\ owner g' (S (length V + fst p)) = Some (fst (snd p))).
    { intros p Hp. destruct (HDn p Hp) as (E & Ev). assert (L : fst p < length D) by (apply nth_error_Some; congruence). rewrite Eg'. unfold vgid, owner. cbn [vlid obind nlv ngv gunmap owners]. destruct (Nat.leb_spec (length V) (length V + fst p)); [|lia]. destruct (Nat.leb_spec (length V + length D) (length V + fst p)); [lia|]. destruct (Nat.ltb_spec (length V + fst p) (length V)); [lia|].
      replace (length V + fst p - length V) with (fst p) by lia. rewrite !aget_ainit, !nth_error_map, E. cbn. now rewrite Ev. }
    exists (map (fun p => S (length V + fst p)) Dv), (map (fun p => fst (snd p)) Dv). split; [|split; [|split; [|split]]].
    + unfold split_ends. cbn [vlid obind vc_deg vc_edges]. rewrite !Hd by lia. cbn [obind]. assert (EO : off (crows V D) (l + 1) = off (crows V D) l + cnt_of l (crows V D)) by (rewrite Nat.add_1_r; apply off_S). rewrite EO, Nat.add_comm, Nat.add_sub.
      unfold cnt_of at 1. rewrite (mapM_seq_nth _ _ (vals_of l (crows V D))). { cbn [obind]. rewrite EV, map_map. reflexivity. }
      intros j x Hj. rewrite aget_ainit. unfold off, cnt_of. apply (concat_row nat (fun u => vals_of u (crows V D)) (length V) l j x Ll Hj).
    + rewrite map_map. clear - HG. induction Dv as [|p L IH]; [reflexivity|]. cbn [map mapM]. rewrite (proj1 (HG p (or_introl eq_refl))). cbn [obind]. rewrite IH by (intros; apply HG; right; auto). reflexivity.
    + clear - HG. induction Dv as [|p L IH]; [reflexivity|]. cbn [map mapM]. rewrite (proj2 (HG p (or_introl eq_refl))). cbn [obind]. rewrite IH by (intros; apply HG; right; auto). reflexivity.
    + assert (E : map (fun p => fst (snd p)) Dv = map fst (filter (fun r => Z.eqb (snd r) v) D)).
      { unfold Dv. clear. generalize 0. induction D as [|r L IH]; intros a; [reflexivity|]. cbn [length seq combine filter snd]. destruct (Z.eqb (snd r) v); cbn [map fst snd]; now rewrite IH. }
      rewrite E. assert (NDD : NoDup D) by (apply NoDup_filter; auto). clear - NDD. induction D as [|r L IH]; [constructor|]. inversion NDD; subst. cbn [filter]. destruct (Z.eqb_spec (snd r) v) as [E|]; auto. cbn [map]. constructor; auto. intros Hx. apply in_map_iff in Hx as (r' & E1 & Hr'). apply filter_In in Hr' as (Hr' & E2). apply Z.eqb_eq in E2. destruct r, r'. cbn in *. subst. auto.
    + intros p. rewrite <- (HAr p v Hv). split.
      * intros Hp. apply in_map_iff in Hp as (x & <- & Hx). destruct (HDn x Hx) as (E & Ev). apply nth_error_In in E. apply filter_In in E as (E & _). rewrite <- Ev. destruct (snd x); auto.
      * intros Hp. assert (I : In (p, v) D). { apply filter_In. split; auto. unfold here. cbn [snd]. destruct (in_dec Z.eq_dec v V); auto. } apply In_nth_error in I as (i & Hi). apply in_map_iff. exists (i, (p, v)). split; auto. apply filter_In. cbn [snd]. split; [|apply Z.eqb_refl].
        assert (G : forall (L : list (Z * Z)) a j x, nth_error L j = Some x -> In (a + j, x) (combine (seq a (length L)) L)).
        { clear. induction L as [|y L IH]; intros a [|j] x H; try discriminate; cbn in *; [injection H as ->; left; f_equal; lia|]. right. replace (a + S j) with (S a + j) by lia. auto. }
        apply (G D 0 i (p, v) Hi).
Qed.
