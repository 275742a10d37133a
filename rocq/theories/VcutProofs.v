From Verif Require Import Base GraphModel GraphSpec CsrProofs ConstructProofs AccessProofs BinModel BinProofs BinCsr Comm TagProps GraphIOModel GraphIOProps MigrateModel MigrateProofs1 MigrateTop ColorProofs ZoltanProps VcutModel VcutSpec.

(** ** Messages *)
Lemma addressed_snd M q (sent : list (list (Z * M))) : map snd (addressed q sent) = flat_map (fun ms => map snd (filter (fun m => Z.eqb (fst m) (Z.of_nat q)) ms)) sent.
Proof.
  unfold addressed. generalize 0. induction sent as [|ms l IH]; intros a; [reflexivity|]. cbn [length seq combine flat_map]. rewrite map_app, map_map, IH. reflexivity.
Qed.
Lemma addressed_nodup M q (sent : list (list (Z * M))) : (forall ms, In ms sent -> NoDup ms) -> NoDup (addressed q sent).
Proof.
  intros H. unfold addressed. apply NoDup_flat_map.
  - assert (G : forall a, NoDup (combine (seq a (length sent)) sent)). { clear. induction sent as [|x l IH]; intros a; cbn; constructor; auto. intros Hx. apply in_combine_l in Hx. apply in_seq in Hx. lia. } apply G.
  - intros (i, ms) Hi. apply in_combine_r in Hi. cbn [fst snd]. specialize (H ms Hi). clear Hi. induction ms as [|m ms IH]; [constructor|]. inversion H as [|? ? N ND]; subst. cbn [filter]. destruct (Z.eqb_spec (fst m) (Z.of_nat q)) as [E|]; [|auto]. cbn [map]. constructor; auto.
    intros Hx. apply in_map_iff in Hx as (m' & E' & Hm'). apply filter_In in Hm' as (Hm' & E2). apply Z.eqb_eq in E2. injection E' as E'. apply N. destruct m, m'. cbn in *. subst. auto.
  - intros (i, ms) (j, ms') x Hi Hj Hx Hy. cbn [fst snd] in *. apply in_map_iff in Hx as (m & <- & _). apply in_map_iff in Hy as (m' & E & _). injection E as E _. apply Nat2Z.inj in E. subst j.
    assert (G : forall (l : list (list (Z * M))) a k y, In (k, y) (combine (seq a (length l)) l) -> nth_error l (k - a) = Some y /\ a <= k).
    { clear. induction l as [|z l IH]; intros a k y Hk; [destruct Hk|]. cbn [length seq combine] in Hk. destruct Hk as [E|Hk]; [injection E as <- <-; rewrite Nat.sub_diag; auto|]. apply IH in Hk as (E & L). split; [|lia]. replace (k - a) with (S (k - S a)) by lia. auto. }
    apply G in Hi as (Hi & _). apply G in Hj as (Hj & _). congruence.
Qed.

(** ** The first round *)
Lemma send_ok r i s : holds r i s -> (forall e, In e (ci_map i) -> fst e < length (ci_arcs i)) ->
  vc_send s = Some (map (fun e => (snd e, match nth_error (ci_arcs i) (fst e) with Some a => a | None => (0, 0)%Z end)) (ci_map i)).
Proof.
  intros (HS & HH & HG & HU & HN & HM & HE) Hk. unfold vc_send. rewrite HM. apply mapM_some. intros e He. specialize (Hk e He). destruct (nth_error (ci_arcs i) (fst e)) as [a|] eqn:Ea; [|apply nth_error_None in Ea; lia].
  specialize (HE _ _ Ea). unfold edge_ends in HE. set (g := b_g s) in *. destruct (gtype g 0) as [ed|] eqn:Et.
  - assert (Hnt : 0 < ntypes g) by (unfold ntypes; apply nth_error_Some; unfold gtype in Et; congruence).
    unfold u_of, v_of in HE. rewrite HH, edec_getEdge in HE by auto. cbn [obind] in *. destruct (u_lid g (fst e) 0) as [u|]; [|discriminate]. cbn [obind] in *. assert (E0 : (getEdge (ntypes g) (fst e) 0 =? 0) = false) by (apply Nat.eqb_neq; unfold getEdge; lia). rewrite E0, Et in HE. cbn [obind] in HE.
    destruct (aget (e_list ed) (fst e)) as [x|]; [|discriminate]. cbn [obind] in *. unfold vgid in HE. rewrite !Nat.add_1_r in HE. cbn [vlid obind] in HE. rewrite HU in HE.
    assert (GN : forall k, aget (@nil (option Z)) k = None) by (intros [|k]; reflexivity). destruct (nlv g <=? u); [rewrite GN in HE; discriminate|]. destruct (aget (lunmap g) u) as [a1|]; [|discriminate]. cbn [obind] in *. destruct (nlv g <=? x); [rewrite GN in HE; discriminate|]. destruct (aget (lunmap g) x) as [b1|]; [|discriminate]. cbn [obind] in *. congruence.
  - exfalso. unfold u_of, u_lid in HE. unfold gtype in Et. apply nth_error_None in Et. assert (Hn : ntypes g = 0) by (unfold ntypes; lia). rewrite Hn in HE. unfold edec, getEdge in HE. cbn in HE. discriminate.
Qed.
Lemma moved_ok q i : (forall e, In e (ci_map i) -> fst e < length (ci_arcs i)) ->
  map snd (filter (fun m : Z * (Z * Z) => Z.eqb (fst m) (Z.of_nat q)) (map (fun e => (snd e, match nth_error (ci_arcs i) (fst e) with Some a => a | None => (0, 0)%Z end)) (ci_map i))) = moved q i.
Proof.
  unfold moved. induction (ci_map i) as [|e m IH]; intros H; [reflexivity|]. cbn [map filter flat_map fst snd]. destruct (nth_error (ci_arcs i) (fst e)) as [a|] eqn:Ea.
  - destruct (Z.eqb (snd e) (Z.of_nat q)); cbn [map app snd]; rewrite IH by (intros; apply H; right; auto); reflexivity.
  - apply nth_error_None in Ea. specialize (H e (or_introl eq_refl)). lia.
Qed.

(** ranks *)
Lemma ranks_ok N me ids : (forall v, In v ids -> v < N) -> (0 <= me)%Z -> exists rk, vc_ranks N me ids = Some rk /\ length rk = N /\ forall v, v < N -> nth_error rk v = Some (if in_dec Nat.eq_dec v ids then me else (-1)%Z).
Proof.
  intros H Hme. unfold vc_ranks.
  destruct (foldM_inv (fun l v => if v <? length l then Some (upd l v me) else None) (fun pre rk => length rk = N /\ forall v, v < N -> nth_error rk v = Some (if in_dec Nat.eq_dec v pre then me else (-1)%Z)) ids (repeat (-1)%Z N)) as (rk & E & L & HR).
  - split; [apply repeat_length|]. intros v Hv. destruct (in_dec Nat.eq_dec v []) as [[]|_]. rewrite nth_error_repeat by auto. reflexivity.
  - intros pre x post rk Hs (L & HR). assert (Hx : x < N) by (apply H; rewrite Hs; apply in_or_app; right; left; auto). rewrite L. destruct (Nat.ltb_spec x N); [|lia]. eexists. split; [reflexivity|]. rewrite upd_len. split; auto. intros v Hv. destruct (Nat.eq_dec x v) as [->|Ne].
    + rewrite nth_upd_eq by lia. destruct (in_dec Nat.eq_dec v (pre ++ [v])) as [_|N0]; auto. exfalso. apply N0. apply in_or_app. right. left. auto.
    + rewrite nth_upd_neq by auto. rewrite HR by auto. destruct (in_dec Nat.eq_dec v pre) as [I|I], (in_dec Nat.eq_dec v (pre ++ [x])) as [J|J]; auto; exfalso.
      * apply J. apply in_or_app. auto.
      * apply in_app_or in J as [J|[J|[]]]; auto.
  - eauto.
Qed.
(** what part q has after the first round: edges [A], vertices [V] *)
Record cut1 (q : nat) (A : list (Z * Z)) (V : list Z) (g : graph) : Prop := mkC1 {
  c1_nodup : NoDup V;
  c1_verts : forall v, In v V <-> touches A v;
  c1_eq : exists vm deg ow, g = mkGraph false (length V) 0 (ainit V) (ainit (repeat 1%Z (length V))) [] vm
     [mkEtd (length A) (2 * length A) [] [] ow deg (ainit (concat (map (fun u => vals_of u (map (fun a => (idx V (fst a), idx V (snd a))) A)) (seq 0 (length V))))) [] []] [] (Z.of_nat q) /\
     MapInv vm V /\ forall k, k <= length V -> aget deg k = Some (off (map (fun a => (idx V (fst a), idx V (snd a))) A) k) }.
Lemma build_ok N q s r : self (b_g s) = Z.of_nat q -> ngv (b_g s) = 0 -> (forall m, In m r -> (0 <= fst (snd m) < Z.of_nat N /\ 0 <= snd (snd m) < Z.of_nat N)%Z) ->
  exists g V, vc_build N s r = Some g /\ cut1 q (map snd r) V g /\ gtype g 0 <> None /\ e_wgts (nth 0 (types g) (mkEtd 0 0 [] [] [] [] [] [] [])) = match gtype (b_g s) 0 with Some ed => e_wgts ed | None => [] end.
Proof.
  intros HS HG HA. set (A := map snd r). set (me := Z.of_nat q) in *. set (es := map (fun a : Z * Z => (Z.to_nat (fst a), Z.to_nat (snd a))) A).
  assert (HA' : forall a, In a A -> (0 <= fst a < Z.of_nat N /\ 0 <= snd a < Z.of_nat N)%Z) by (intros a Ha; apply in_map_iff in Ha as (m & <- & Hm); auto).
  assert (HE : mapM as_id (flat_map (fun r => [fst (snd r); snd (snd r)]) r) = Some (ends es)).
  { unfold es, A. clear - HA. induction r as [|m r IH]; [reflexivity|]. cbn [flat_map app mapM map]. destruct (HA m (or_introl eq_refl)) as (H1 & H2). unfold as_id at 1. destruct (Z.ltb_spec (fst (snd m)) 0); [lia|]. cbn [obind]. unfold as_id at 1. destruct (Z.ltb_spec (snd (snd m)) 0); [lia|]. cbn [obind].
    rewrite IH by (intros; apply HA; right; auto). reflexivity. }
  assert (EZ : forall a, In a A -> Z.of_nat (Z.to_nat (fst a)) = fst a /\ Z.of_nat (Z.to_nat (snd a)) = snd a) by (intros a Ha; specialize (HA' a Ha); split; apply Z2Nat.id; lia).
  assert (HT : forall v, In v (ends es) <-> touches A (Z.of_nat v)).
  { intros v. unfold ends, touches, es. split.
    - intros Hv. apply in_flat_map in Hv as (e & He & Hv). apply in_map_iff in He as (a & <- & Ha). destruct (EZ a Ha) as (E1 & E2). exists a. split; auto. destruct Hv as [<-|[<-|[]]]; cbn [fst snd]; [left|right]; auto.
    - intros (a & Ha & E). apply in_flat_map. exists (Z.to_nat (fst a), Z.to_nat (snd a)). split; [apply in_map_iff; eauto|]. destruct E as [E|E]; rewrite E, Nat2Z.id; cbn; auto. }
  assert (HB : forall v, In v (ends es) -> v < N). { intros v Hv. apply HT in Hv as (a & Ha & E). specialize (HA' a Ha). lia. }
  assert (LE : length (ends es) / 2 = length es) by (rewrite ends_length, Nat.mul_comm; apply Nat.div_mul; lia). assert (LA : length es = length A) by apply map_length.
  unfold vc_build. rewrite HS. rewrite HE. cbn [obind]. rewrite LE. destruct (ranks_ok N me (ends es) HB ltac:(unfold me; lia)) as (ranks & ER & LR & HR). rewrite ER. cbn [obind].
  assert (HL : forall v, isloc ranks me v = true <-> In v (ends es)).
  { intros v. rewrite isloc_rank. split.
    - intros E. assert (Hv : v < N) by (rewrite <- LR; apply nth_error_Some; congruence). rewrite HR in E by auto. destruct (in_dec Nat.eq_dec v (ends es)); auto. exfalso. injection E as E. unfold me in E. lia.
    - intros Hv. rewrite HR by auto. destruct (in_dec Nat.eq_dec v (ends es)); [auto|contradiction]. }
  assert (Hin : forall v, In v (ends es) -> v < length ranks) by (rewrite LR; auto).
  assert (Hsrc : forall e, In e es -> isloc ranks me (fst e) = true) by (intros e He; apply HL; unfold ends; apply in_flat_map; exists e; cbn; auto).
  set (n := length (filter (Z.eqb me) ranks)). set (V := LBp ranks me (ends es)).
  assert (NV : NoDup V) by apply LBp_nodup. assert (IV : forall v, In v V <-> touches A v).
  { intros v. unfold V. rewrite in_LBp. split.
    - intros (w & -> & Hw & _). now apply HT.
    - intros T. pose proof T as (a & Ha & E). assert (Z.of_nat (Z.to_nat v) = v) by (apply Z2Nat.id; specialize (HA' a Ha); lia). exists (Z.to_nat v). split; auto. assert (I : In (Z.to_nat v) (ends es)) by (apply HT; congruence). split; auto. now apply HL. }
  assert (LV : length V = n).
  { unfold n. rewrite <- nlocal. rewrite <- (map_length Z.of_nat (filter (isloc ranks me) _)). apply Permutation_length, NoDup_Permutation; auto.
    - apply FinFun.Injective_map_NoDup; [intros x y; apply Nat2Z.inj|]. apply NoDup_filter, seq_NoDup.
    - intros x. unfold V. rewrite in_LBp, in_map_iff. split.
      + intros (v & -> & Hv & HL'). exists v. split; auto. apply filter_In. split; auto. apply in_seq. specialize (Hin v Hv). lia.
      + intros (v & <- & Hv). apply filter_In in Hv as (Hv & HL'). exists v. split; auto. split; auto. now apply HL. }
  destruct (relabel_ok ranks me es Hin) as (vm & Er & HM). fold n V in Er, HM. rewrite Er. cbn [obind].
  destruct (count_ok ranks me es Hin Hsrc) as (tc & Et & Lt & Htc). fold n in Et, Lt, Htc. rewrite Et. cbn [obind].
  destruct (offsets_ok n tc (fun u => cnt_of u (rows ranks me es)) Htc) as (deg & Ed & Ld & Hd). rewrite Ed. cbn [obind].
  pose proof (fill_ok ranks me es Hin Hsrc deg Ld Hd) as EF. fold n in EF. rewrite EF. cbn [obind]. rewrite HG. cbn [Nat.eqb].
  assert (RW : rows ranks me es = map (fun a => (idx V (fst a), idx V (snd a))) A).
  { unfold rows, es. rewrite map_map. apply map_ext_in. intros a Ha. cbn [fst snd]. destruct (EZ a Ha) as (E1 & E2). unfold relab. assert (X : isloc ranks me (Z.to_nat (snd a)) = true) by (apply HL, HT; exists a; auto). rewrite X. unfold lab. fold es V. rewrite E1, E2. reflexivity. }
  do 2 eexists. split; [reflexivity|]. split; [|split; [cbn; discriminate|reflexivity]]. split; [exact NV|exact IV|]. exists vm, deg, (match gtype (b_g s) 0 with Some ed => e_wgts ed | None => [] end).
  split; [|split; auto; intros k Hk; rewrite <- RW, Hd by lia; reflexivity]. rewrite LV, <- LA, Nat.sub_diag, <- RW. cbn [anew repeat]. rewrite app_nil_r. reflexivity.
Qed.

(** ** The second round *)
Definition split_msgs (P q : nat) (V : list Z) : list (Z * Z) := flat_map (fun v => map (fun j => (((Z.of_nat q + Z.of_nat j) mod Z.of_nat P)%Z, v)) (seq 1 (P - 1))) V.
Lemma split_send_ok P q A V g : cut1 q A V g -> split_send P g = Some (split_msgs P q V).
Proof.
  intros [_ _ (vm & deg & ow & -> & _)]. unfold split_send. cbn [self nlv lunmap].
  set (f := fun v : Z => map (fun j => (((Z.of_nat q + Z.of_nat j) mod Z.of_nat P)%Z, v)) (seq 1 (P - 1))).
  assert (E : mapM (fun i => v <- aget (ainit V) i ;; Some (f v)) (seq 0 (length V)) = Some (map f V)).
  { rewrite <- (map_length f V). apply mapM_seq_nth. intros j x Hj. cbn [Nat.add]. rewrite aget_ainit. rewrite nth_error_map in Hj. destruct (nth_error V j); [|discriminate]. exact Hj. }
  unfold f in E at 1. rewrite E. cbn [obind]. f_equal. unfold split_msgs. fold f. now rewrite flat_map_concat_map.
Qed.
Lemma hop P q j : q < P -> 1 <= j <= P - 1 -> ((Z.of_nat q + Z.of_nat j) mod Z.of_nat P = if (q + j <? P)%nat then Z.of_nat (q + j) else Z.of_nat (q + j - P))%Z.
Proof.
  intros Hq Hj. destruct (Nat.ltb_spec (q + j) P) as [L|L]; [rewrite Z.mod_small; lia|]. symmetry. apply (Z.mod_unique _ _ 1); lia.
Qed.
Lemma split_msgs_in P q V d v : q < P -> In (Z.of_nat d, v) (split_msgs P q V) <-> d < P /\ d <> q /\ In v V.
Proof.
  intros Hq. unfold split_msgs. rewrite in_flat_map. split.
  - intros (w & Hw & H). apply in_map_iff in H as (j & E & Hj). apply in_seq in Hj. rewrite hop in E by lia. destruct (Nat.ltb_spec (q + j) P); injection E as E <-; repeat split; auto; lia.
  - intros (Hd & Hne & Hv). exists v. split; auto. apply in_map_iff. exists (if q <? d then d - q else d + P - q). destruct (Nat.ltb_spec q d).
    + split; [|apply in_seq; lia]. rewrite hop by lia. destruct (Nat.ltb_spec (q + (d - q)) P); [|lia]. f_equal. lia.
    + split; [|apply in_seq; lia]. rewrite hop by lia. destruct (Nat.ltb_spec (q + (d + P - q)) P); [lia|]. f_equal. lia.
Qed.
Lemma split_msgs_range P q V m : q < P -> In m (split_msgs P q V) -> (0 <= fst m < Z.of_nat P)%Z.
Proof. intros Hq H. apply in_flat_map in H as (w & _ & H). apply in_map_iff in H as (j & <- & Hj). cbn [fst]. apply Z.mod_pos_bound. lia. Qed.
Lemma split_msgs_nodup P q V : q < P -> NoDup V -> NoDup (split_msgs P q V).
Proof.
  intros Hq HV. apply NoDup_flat_map; auto.
  - intros v _. assert (G : forall a b, In a (seq 1 (P - 1)) -> In b (seq 1 (P - 1)) -> (((Z.of_nat q + Z.of_nat a) mod Z.of_nat P)%Z, v) = (((Z.of_nat q + Z.of_nat b) mod Z.of_nat P)%Z, v) -> a = b).
    { intros a b Ha Hb E. apply in_seq in Ha, Hb. injection E as E. rewrite !hop in E by lia. destruct (Nat.ltb_spec (q + a) P), (Nat.ltb_spec (q + b) P); lia. }
    revert G. generalize (seq_NoDup (P - 1) 1). generalize (seq 1 (P - 1)). induction l as [|a l IH]; intros ND G; cbn [map]; constructor; inversion ND; subst; auto.
    + intros Hx. apply in_map_iff in Hx as (b & E & Hb). assert (b = a) by (apply G; cbn; auto). subst; auto.
    + apply IH; auto. intros; apply G; cbn; auto.
  - intros v w x _ _ Hx Hy. apply in_map_iff in Hx as (a & <- & _). apply in_map_iff in Hy as (b & E & _). injection E as _ E. auto.
Qed.

Section Split.
Variables (vm : zmap nat) (V : list Z).
Hypothesis HM : MapInv vm V.
Hypothesis NV : NoDup V.
Let n := length V.
Definition here (r : Z * Z) : bool := if in_dec Z.eq_dec (snd r) V then true else false.
Definition keys (l : list (Z * Z)) : list (nat * (Z * Z)) := map (fun r => (idx V (snd r), r)) l.
Lemma find_here v : zfind vm v = if in_dec Z.eq_dec v V then Some (idx V v) else None.
Proof.
  destruct (in_dec Z.eq_dec v V) as [I|I]; [now apply MapInv_find|]. destruct (zfind vm v) as [k|] eqn:E; auto. apply HM in E. exfalso. apply I. eapply nth_error_In; eauto.
Qed.
Lemma keys_app a b : keys (a ++ b) = keys a ++ keys b.
Proof. apply map_app. Qed.
Lemma cnt_keys_snoc k l r : cnt_of k (keys (l ++ [r])) = cnt_of k (keys l) + (if idx V (snd r) =? k then 1 else 0).
Proof. rewrite keys_app, cnt_of_app. f_equal. unfold cnt_of, vals_of, keys. cbn. destruct (idx V (snd r) =? k); reflexivity. Qed.
Lemma recv_run g arrived : vmap g = vm -> nlv g = n -> exists cnt, split_recv g arrived = Some (map (fun r => (snd r, fst r)) (filter here arrived), cnt) /\ length cnt = n + 1 /\
  aget cnt 0 = Some 0 /\ forall k, k < n -> aget cnt (k + 1) = Some (cnt_of k (keys (filter here arrived))).
Proof.
  intros EV EN. unfold split_recv. rewrite EV, EN.
  destruct (foldM_inv (fun (s : list (Z * Z) * arr nat) (r : Z * Z) => let '(dups, deg) := s in
           match zfind vm (snd r) with None => Some s | Some l => c <- aget deg (l + 1) ;; deg' <- aset deg (l + 1) (c + 1) ;; Some (dups ++ [(snd r, fst r)], deg') end)
     (fun pre s => fst s = map (fun r => (snd r, fst r)) (filter here pre) /\ length (snd s) = n + 1 /\ aget (snd s) 0 = Some 0 /\ forall k, k < n -> aget (snd s) (k + 1) = Some (cnt_of k (keys (filter here pre))))
     arrived ([], ainit (repeat 0 (n + 1)))) as ((dups & cnt) & E & H1 & H2 & H3 & H4).
  - cbn [fst snd filter map]. split; auto. split; [rewrite ainit_length, repeat_length; auto|]. assert (G : forall k, k < n + 1 -> aget (ainit (repeat 0 (n + 1))) k = Some 0) by (intros k Hk; rewrite aget_ainit, nth_error_repeat by auto; reflexivity). split; [apply G; lia|]. intros k Hk. rewrite G by lia. reflexivity.
  - intros pre r post (dups & deg) Hs (H1 & H2 & H3 & H4). cbn [fst snd] in *. rewrite find_here. rewrite filter_app. cbn [filter]. unfold here at 2 4. destruct (in_dec Z.eq_dec (snd r) V) as [I|I].
    + pose proof (idx_lt V _ I) as L. fold n in L. rewrite H4 by auto. cbn [obind]. rewrite aset_some by lia. cbn [obind]. eexists. split; [reflexivity|]. cbn [fst snd]. rewrite map_app, H1. split; [reflexivity|]. rewrite upd_length. split; auto. split; [rewrite aget_upd_neq by lia; auto|].
      intros k Hk. rewrite cnt_keys_snoc. destruct (Nat.eqb_spec (idx V (snd r)) k) as [<-|N].
      * rewrite aget_upd_eq by lia. reflexivity.
      * rewrite aget_upd_neq by lia. rewrite H4 by auto. f_equal. lia.
    + eexists. split; [reflexivity|]. cbn [fst snd]. rewrite app_nil_r. auto.
  - rewrite E. cbn [fst snd] in *. subst dups. exists cnt. auto.
Qed.
Lemma sums_run (cnt : arr nat) (c : nat -> nat) : length cnt = n + 1 -> aget cnt 0 = Some 0 -> (forall k, k < n -> aget cnt (k + 1) = Some (c k)) ->
  exists deg, prefix_sums n cnt = Some deg /\ length deg = n + 1 /\ forall k, k <= n -> aget deg k = Some (nsum (map c (seq 0 k))).
Proof.
  intros L H0 HC. unfold prefix_sums.
  destruct (foldM_inv (fun (d : arr nat) i => a <- aget d (i - 1) ;; b <- aget d i ;; aset d i (b + a))
    (fun pre d => length d = n + 1 /\ (forall k, k <= length pre -> aget d k = Some (nsum (map c (seq 0 k)))) /\ forall k, length pre <= k -> k < n -> aget d (k + 1) = Some (c k)) (seq 1 n) cnt) as (d & E & H1 & H2 & _).
  - cbn [length]. split; auto. split; auto. intros k Hk. assert (k = 0) by lia. subst k. rewrite H0. reflexivity.
  - intros pre x post d Hs (H1 & H2 & H3). destruct (seq_pref _ _ _ _ _ Hs) as (-> & Lp). replace (1 + length pre - 1) with (length pre) by lia. rewrite H2 by auto. cbn [obind]. rewrite (Nat.add_comm 1), H3 by lia. cbn [obind]. rewrite aset_some by lia. eexists. split; [reflexivity|]. rewrite upd_length, app_length. cbn [length]. split; auto. split.
    + intros k Hk. destruct (Nat.eq_dec k (length pre + 1)) as [->|N]; [rewrite aget_upd_eq by lia|rewrite aget_upd_neq by lia; apply H2; lia]. rewrite seq_app, map_app, nsum_app. cbn. f_equal. lia.
    + intros k Hk Hk'. rewrite aget_upd_neq by lia. apply H3; lia.
  - rewrite seq_length in H2. eauto.
Qed.
End Split.
