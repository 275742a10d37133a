(** create_bin as a whole. *)
From Verif Require Import Base GraphModel GraphSpec CsrProofs ConstructProofs AccessProofs BinModel BinProofs BinCsr BinSpec.

Lemma filter_length_le' A (f : A -> bool) l : length (filter f l) <= length l.
Proof. induction l as [|a l IH]; cbn; [lia|]. destruct (f a); cbn; lia. Qed.

Lemma list_max_fold l : list_max l = fold_left (fun m x => if m <? x then x else m) l 0.
Proof.
  assert (G : forall l m, fold_left (fun m x => if m <? x then x else m) l m = Nat.max m (list_max l)).
  { clear. induction l as [|a l IH]; intros m; cbn [fold_left list_max fold_right]; [lia|]. rewrite IH. fold (list_max l).
    destruct (Nat.ltb_spec m a); lia. }
  now rewrite G.
Qed.

Section Top.
Variables (file : list (nat * nat)) (P : nat) (part : option (list Z)).
Hypothesis HW : well_owned file P part.
Let N := num_ids file.
Let ow := own file P part.
Let slices := map (read_slice file P) (seq 0 P).

Lemma N_ok : num_global slices = N.
Proof.
  rewrite (num_global_concat slices [file]).
  - unfold num_global, N, num_ids. cbn [map fold_right]. rewrite list_max_fold. unfold local_max, endpoints. lia.
  - unfold slices. rewrite slices_ok by apply HW. cbn. now rewrite app_nil_r.
Qed.
Lemma ids_lt v : In v (endpoints file) -> v < N.
Proof. intros H. rewrite <- N_ok. apply ends_lt. unfold slices. rewrite slices_ok by apply HW. exact H. Qed.

Lemma own_lt v : v < N -> ow v < P.
Proof. intros H. destruct (proj2 HW v H) as (p & E & L). unfold ow, own. now rewrite E. Qed.

Lemma table : exists ranks, ranks_of part N P = Some ranks /\ length ranks = N /\ forall v, v < N -> nth_error ranks v = Some (Z.of_nat (ow v)).
Proof.
  destruct HW as (HP & HO). unfold ranks_of. destruct part as [lines|] eqn:Ep.
  - assert (L : N <= length lines).
    { destruct (Nat.le_gt_cases N (length lines)); auto. exfalso. destruct (HO (length lines)) as (p & E & _); auto.
      unfold home in E. rewrite (proj2 (nth_error_None lines (length lines))) in E by lia. discriminate. }
    unfold read_ranks. rewrite (proj2 (Nat.leb_le _ _) L). eexists; split; [reflexivity|]. split; [rewrite firstn_length; lia|].
    intros v Hv. destruct (HO v Hv) as (p & E & _). unfold ow, own. rewrite E. unfold home in E.
    assert (Ef : nth_error (firstn N lines) v = nth_error lines v).
    { transitivity (nth_error (firstn N lines ++ skipn N lines) v); [|now rewrite firstn_skipn].
      symmetry. apply nth_error_app1. rewrite firstn_length; lia. }
    rewrite Ef. destruct (nth_error lines v) as [z|]; [|discriminate]. destruct (Z.ltb_spec z 0); [discriminate|]. inversion E. f_equal. lia.
  - eexists; split; [reflexivity|]. split; [apply block_ranks_len|]. intros v Hv. rewrite block_ranks_nth by auto. reflexivity.
Qed.

Section Part.
Variables (ranks : list Z).
Hypothesis Hlen : length ranks = N.
Hypothesis Hr : forall v, v < N -> nth_error ranks v = Some (Z.of_nat (ow v)).
Variable r : nat.
Let me := Z.of_nat r.
Let es := own_edges file P part r.

Lemma isloc_own v : v < N -> isloc ranks me v = (ow v =? r).
Proof. intros H. unfold isloc. rewrite Hr by auto. unfold me. destruct (Nat.eqb_spec (ow v) r) as [->|Ne].
  - apply Z.eqb_refl. - apply Z.eqb_neq. lia. Qed.
Lemma es_in e : In e es <-> In e file /\ ow (fst e) = r.
Proof. unfold es, own_edges. rewrite filter_In. fold ow. now rewrite Nat.eqb_eq. Qed.
Lemma end_in e : In e file -> In (fst e) (endpoints file) /\ In (snd e) (endpoints file).
Proof. intros H. unfold endpoints. split; apply in_flat_map; exists e; cbn; auto. Qed.
Lemma es_ends v : In v (endpoints es) -> In v (endpoints file).
Proof. unfold endpoints. rewrite !in_flat_map. intros (e & H & I). apply es_in in H. exists e. tauto. Qed.
Lemma Hin_ : forall v, In v (ends es) -> v < length ranks.
Proof. intros v H. rewrite Hlen. apply ids_lt, es_ends. exact H. Qed.
Lemma Hsrc_ : forall e, In e es -> isloc ranks me (fst e) = true.
Proof. intros e H. apply es_in in H as (H & E). rewrite isloc_own by (apply ids_lt, end_in, H). now apply Nat.eqb_eq. Qed.

Lemma filter_same l : (forall v, In v l -> v < N) -> filter (isloc ranks me) l = filter (fun v => ow v =? r) l.
Proof. intros H. apply filter_ext_in. intros v Hv. apply isloc_own. auto. Qed.
Lemma LB_met : LBp ranks me (ends es) = met file P part r.
Proof.
  unfold LBp, met, locs. rewrite first_occ_add_new by constructor. cbn [app]. do 2 f_equal. fold es. fold ow.
  apply filter_same. intros v Hv. apply ids_lt, es_ends, Hv.
Qed.
Lemma nl_ok : length (filter (Z.eqb me) ranks) = length (filter (fun v => ow v =? r) (seq 0 N)).
Proof. rewrite <- nlocal, Hlen. f_equal. apply filter_same. intros v Hv. apply in_seq in Hv. lia. Qed.

Lemma in_met x : In x (met file P part r) <-> exists v, x = Z.of_nat v /\ In v (endpoints es) /\ ow v = r.
Proof.
  rewrite <- LB_met, in_LBp. split; intros (v & E & I & H); exists v; (split; [exact E|split; [exact I|]]).
  - rewrite isloc_own in H by (apply ids_lt, es_ends, I). now apply Nat.eqb_eq.
  - rewrite isloc_own by (apply ids_lt, es_ends, I). now apply Nat.eqb_eq.
Qed.
Lemma met_nodup : NoDup (met file P part r).
Proof. rewrite <- LB_met. apply LBp_nodup. Qed.
Lemma met_le : length (met file P part r) <= length (filter (fun v => ow v =? r) (seq 0 N)).
Proof. rewrite <- LB_met, <- nl_ok. apply LB_le. exact Hin_. Qed.

Theorem part_ok g ed : create_dist_csr ranks me (length es) (ainit (ends es)) = Some g -> types g = [ed] ->
  hyper g = false /\ self g = me /\ nlv g = length (filter (fun v => ow v =? r) (seq 0 N)) /\ e_num ed = length es /\
  lunmap g = ainit (met file P part r) ++ anew (nlv g - length (met file P part r)) /\
  (forall v, In (Z.of_nat v) (met file P part r) -> exists h,
     findGID g (Z.of_nat v) = Some h /\ vgid g h = Some (Z.of_nat v) /\ owner g h = Some me /\
     forall fuel, length file < fuel -> exists hs, adjacent g h 0 fuel = Some hs /\
       Forall2 (fun d x => vgid g x = Some (Z.of_nat (shown file P part r d)) /\ owner g x = Some (Z.of_nat (ow (shown file P part r d)))) (dests file v) hs).
Proof.
  intros Eg Ety.
  destruct (csr_ok ranks me es Hin_ Hsrc_) as (g' & ed' & nv & Eg' & Hh & Hself & Hnl & Hlu & Hlw & Hnv & Hng & Hgu & How & HG & Ht & Hdeg & Hel & Hne & _).
  rewrite Eg in Eg'. inversion Eg'; subst g'. clear Eg'. rewrite Ety in Ht. inversion Ht; subst ed'. clear Ht.
  rewrite LB_met in Hlu. rewrite nl_ok in *.
  set (n := length (filter (fun v => ow v =? r) (seq 0 N))) in *.
  set (M := met file P part r) in *.
  pose proof met_le as HLE. fold n M in HLE.
  set (T := concat (map (fun u => vals_of u (rows ranks me es)) (seq 0 n))) in *.
  set (NV := NVp ranks me es T) in *.
  split; [exact Hh|]. split; [exact Hself|]. split; [exact Hnl|]. split; [exact Hne|]. split; [rewrite Hnl; exact Hlu|].
  assert (Hvl : forall k x, nth_error M k = Some x -> vgid g (S k) = Some x).
  { intros k x Hk. unfold vgid. cbn [vlid obind]. rewrite Hnl. assert (k < length M) by (apply nth_error_Some; congruence).
    destruct (Nat.leb_spec n k); [lia|]. rewrite Hlu, aget_app_l by (rewrite ainit_length; lia). now rewrite aget_ainit. }
  assert (Hol : forall k, k < n -> owner g (S k) = Some me).
  { intros k Hk. unfold owner. cbn [vlid]. rewrite Hnl, Hself. destruct (Nat.leb_spec (n + ngv g) k); [lia|]. destruct (Nat.ltb_spec k n); [auto|lia]. }
  intros v Hv. exists (S (idx M (Z.of_nat v))). pose proof (idx_lt M _ Hv) as Hlv.
  destruct (proj1 (in_met _) Hv) as (v' & Ev' & Iv & Ov). apply Nat2Z.inj in Ev'. subst v'.
  assert (HvN : v < N) by (apply ids_lt, es_ends, Iv).
  split; [|split; [apply Hvl; now apply idx_nth|split; [apply Hol; lia|]]].
  - unfold findGID. assert (Ez : zfind (vmap g) (Z.of_nat v) = Some (idx M (Z.of_nat v))).
    { apply HG. left. rewrite LB_met. now apply idx_nth. }
    rewrite Ez. cbn [obind]. now rewrite Nat.add_1_r.
  - intros fuel Hf.
    set (cv := conv ranks me es). set (tot := map (fun p : nat * nat => (fst p, cv (snd p))) (rows ranks me es)).
    assert (Evals : forall u, vals_of u tot = map cv (vals_of u (rows ranks me es))).
    { intros u. unfold tot. generalize (rows ranks me es) as R. clear. induction R as [|(a, b) R IH]; [reflexivity|].
      unfold vals_of in *. cbn [map filter fst snd]. destruct (a =? u); cbn [map]; now rewrite IH. }
    assert (Eoff : forall k, off tot k = off (rows ranks me es) k).
    { intros k. unfold off. f_equal. apply map_ext. intros u. unfold cnt_of. now rewrite Evals, map_length. }
    set (l := idx M (Z.of_nat v)) in *.
    assert (Elab : forall w, lab ranks me es w = idx M (Z.of_nat w)) by (intros w; unfold lab; now rewrite LB_met).
    assert (Erow : vals_of l (rows ranks me es) = map (relab ranks me es) (dests file v)).
    { unfold rows, dests. rewrite map_map.
      assert (Ef : filter (fun e => fst e =? v) file = filter (fun e : nat * nat => fst e =? v) es).
      { unfold es, own_edges. fold ow. clear - Ov. clearbody ow. induction file as [|e f IH]; [reflexivity|]. cbn [filter].
        destruct (Nat.eqb_spec (fst e) v) as [E|Ne].
        - rewrite E, Ov, Nat.eqb_refl. cbn [filter]. rewrite E, Nat.eqb_refl, IH. reflexivity.
        - destruct (ow (fst e) =? r); cbn [filter]; rewrite ?(proj2 (Nat.eqb_neq _ _) Ne); exact IH. }
      rewrite Ef.
      assert (G : forall L, (forall e, In e L -> In e es) -> vals_of l (map (fun e => (lab ranks me es (fst e), relab ranks me es (snd e))) L)
         = map (fun e => relab ranks me es (snd e)) (filter (fun e : nat * nat => fst e =? v) L)).
      { induction L as [|e L IH]; intros HL; [reflexivity|]. unfold vals_of in *. cbn [map filter fst snd].
        specialize (IH (fun e' He' => HL e' (or_intror He'))).
        assert (He : In e es) by (apply HL; left; auto).
        assert (Hme : In (Z.of_nat (fst e)) M).
        { apply in_met. exists (fst e). split; [reflexivity|]. split.
          - unfold endpoints. apply in_flat_map. exists e. cbn; auto.
          - now apply es_in in He. }
        rewrite Elab. destruct (Nat.eqb_spec (fst e) v) as [->|Ne].
        - fold l. rewrite Nat.eqb_refl. cbn [map snd]. now rewrite IH.
        - destruct (Nat.eqb_spec (idx M (Z.of_nat (fst e))) l) as [Eq|_].
          + exfalso. apply Ne. apply idx_inj in Eq; auto. lia.
          + exact IH. }
      apply G. auto. }
    assert (Hn : l < n) by lia.
    eexists. split.
    + apply (csr_adjacent g ed tot l fuel Hh Ety).
      * rewrite Eoff. apply Hdeg. lia.
      * rewrite Eoff, Nat.add_1_r. apply Hdeg. lia.
      * intros k x Hk. rewrite Hel, aget_ainit, nth_error_map, Eoff. rewrite Evals, nth_error_map in Hk.
        destruct (nth_error (vals_of l (rows ranks me es)) k) as [y|] eqn:Ey; [|discriminate]. cbn in Hk. inversion Hk; subst x.
        assert (X : nth_error T (off (rows ranks me es) l + k) = Some y).
        { unfold T, off, cnt_of. apply (concat_row nat (fun u => vals_of u (rows ranks me es)) n l k y Hn Ey). }
        rewrite X. reflexivity.
      * unfold cnt_of. rewrite Evals, map_length, Erow, map_length. unfold dests. rewrite map_length.
        pose proof (filter_length_le' _ (fun e : nat * nat => fst e =? v) file). lia.
    + rewrite Evals, Erow, !map_map.
      assert (G : forall ds, (forall d, In d ds -> In (v, d) es) -> Forall2 (fun d x => vgid g x = Some (Z.of_nat (shown file P part r d)) /\ owner g x = Some (Z.of_nat (ow (shown file P part r d))))
         ds (map (fun x => S (cv (relab ranks me es x))) ds)).
      { induction ds as [|d ds IH]; intros Hds; [constructor|]. cbn [map]. constructor; [|apply IH; intros; apply Hds; right; auto].
        assert (Hd : In (v, d) es) by (apply Hds; left; auto).
        assert (Id : In d (endpoints es)) by (unfold endpoints; apply in_flat_map; exists (v, d); cbn; auto).
        assert (HdN : d < N) by (apply ids_lt, es_ends, Id).
        assert (HT : In (relab ranks me es d) T).
        { unfold T. apply in_concat. exists (vals_of l (rows ranks me es)). split; [apply in_map_iff; exists l; split; auto; apply in_seq; lia|].
          rewrite Erow. apply in_map. unfold dests. apply in_map_iff. exists (v, d). split; auto. apply filter_In. split; [now apply es_in in Hd|apply Nat.eqb_refl]. }
        (* a ghost of id x *)
        assert (Gh : forall x, In x T -> ~ In (Z.of_nat x) M -> x < N -> vgid g (S (cv x)) = Some (Z.of_nat x) /\ owner g (S (cv x)) = Some (Z.of_nat (ow x))).
        { intros x Hx Hnx HxN. assert (I : In (Z.of_nat x) NV).
          { assert (I : In (Z.of_nat x) (M ++ NV)).
            { unfold NV, M. rewrite <- LB_met, <- NVp_all. apply add_new_In. now apply in_map. }
            apply in_app_iff in I as [I|I]; [tauto|auto]. }
          assert (Ec : cv x = n + idx NV (Z.of_nat x)).
          { unfold cv. rewrite (conv_nv ranks me es (length T)). 
            - rewrite !nl_ok. fold n T. now rewrite firstn_all.
            - rewrite !nl_ok. fold n T. rewrite firstn_all. exact I. }
          pose proof (idx_lt NV _ I) as Li. pose proof (idx_nth NV _ I) as Ni.
          assert (LN : length nv = length NV) by (rewrite <- Hnv; now rewrite map_length).
          split.
          - unfold vgid. cbn [vlid obind]. rewrite Hnl, Ec. destruct (Nat.leb_spec n (n + idx NV (Z.of_nat x))); [|lia].
            replace (n + idx NV (Z.of_nat x) - n) with (idx NV (Z.of_nat x)) by lia. rewrite Hgu, aget_ainit. exact Ni.
          - unfold owner. cbn [vlid]. rewrite Hnl, Hng, Ec. destruct (Nat.leb_spec (n + length nv) (n + idx NV (Z.of_nat x))); [lia|].
            destruct (Nat.ltb_spec (n + idx NV (Z.of_nat x)) n); [lia|].
            replace (n + idx NV (Z.of_nat x) - n) with (idx NV (Z.of_nat x)) by lia. rewrite How, aget_ainit, nth_error_map.
            rewrite <- Hnv in Ni at 1. rewrite nth_error_map in Ni.
            destruct (nth_error nv (idx NV (Z.of_nat x))) as [y|]; [|discriminate]. cbn in Ni. inversion Ni as [Exy]. apply Nat2Z.inj in Exy. subst y.
            cbn. f_equal. apply nth_error_nth. now apply Hr. }
        unfold shown. fold ow. fold M. destruct (Nat.eqb_spec (ow d) r) as [Od|Od].
        - assert (Er : relab ranks me es d = idx M (Z.of_nat d)).
          { unfold relab. rewrite isloc_own by auto. rewrite (proj2 (Nat.eqb_eq _ _) Od). apply Elab. }
          assert (Md : In (Z.of_nat d) M) by (apply in_met; exists d; auto).
          pose proof (idx_lt M _ Md) as Ld.
          assert (LdN : idx M (Z.of_nat d) < N).
          { assert (n <= N). { unfold n. etransitivity; [apply filter_length_le'|]. now rewrite seq_length. } lia. }
          rewrite Er in *. destruct (existsb (Z.eqb (Z.of_nat (idx M (Z.of_nat d)))) M) eqn:Ex.
          + assert (Ec : cv (idx M (Z.of_nat d)) = idx M (Z.of_nat d)).
            { unfold cv, conv. rewrite LB_met. fold M. unfold memZ. now rewrite Ex. }
            rewrite Ec. split; [apply Hvl; now apply idx_nth|]. rewrite Hol by lia. unfold me. now rewrite Od.
          + apply Gh; auto. intros I. apply (memZ_In _ _) in I. unfold memZ in I. congruence.
        - assert (Er : relab ranks me es d = d).
          { unfold relab. rewrite isloc_own by auto. now rewrite (proj2 (Nat.eqb_neq _ _) Od). }
          rewrite Er in *. apply Gh; auto. intros I. apply in_met in I as (y & Ey & _ & Oy). apply Nat2Z.inj in Ey. subst y. tauto. }
      apply G. intros d Hd. unfold dests in Hd. apply in_map_iff in Hd as ((a, b) & Eb & Hd). cbn in Eb. subst b.
      apply filter_In in Hd as (Hd & Ea). cbn in Ea. apply Nat.eqb_eq in Ea. subst a. apply es_in. split; auto.
Qed.

Lemma part_exists : exists g ed, create_dist_csr ranks me (length es) (ainit (ends es)) = Some g /\ types g = [ed].
Proof. destruct (csr_ok ranks me es Hin_ Hsrc_) as (g & ed & nv & Eg & H). exists g, ed. split; auto. apply H. Qed.
End Part.

Theorem exchanged ranks : ranks_of part N P = Some ranks -> exists outs,
  mapM (make_outbox ranks P) slices = Some outs /\ length outs = P /\
  forall r, r < P -> exchange outs r = Some (ainit (endpoints (own_edges file P part r))).
Proof.
  intros Er. destruct table as (ranks' & Er' & Hl & Hn). rewrite Er in Er'. inversion Er'; subst ranks'.
  destruct (exchange_ok ranks P ow slices (proj1 HW)) as (outs & E & L & H).
  - unfold slices. now rewrite map_length, seq_length.
  - intros es e Hes He. assert (I : In e file).
    { rewrite <- (slices_ok file P (proj1 HW)). apply in_concat. exists es. auto. }
    assert (Hv : fst e < N) by (apply ids_lt, end_in, I).
    split; [|now apply own_lt]. unfold task_of. rewrite Hn by auto. cbn [obind].
    destruct (Z.ltb_spec (Z.of_nat (ow (fst e))) 0); [lia|]. now rewrite Nat2Z.id.
  - exists outs. split; [exact E|]. split; [exact L|]. intros r Hr. rewrite H by auto. f_equal. f_equal.
    rewrite received. unfold slices. rewrite slices_ok by apply HW. reflexivity.
Qed.

Lemma mapM_exists X Y (f : X -> option Y) (R : X -> Y -> Prop) l : (forall x, In x l -> exists y, f x = Some y /\ R x y) ->
  exists ys, mapM f l = Some ys /\ Forall2 R l ys.
Proof.
  induction l as [|a l IH]; intros H.
  - exists []. split; [reflexivity|constructor].
  - destruct (H a (or_introl eq_refl)) as (y & Ey & Ry). destruct IH as (ys & Eys & F). { intros; apply H; right; auto. }
    exists (y :: ys). cbn. rewrite Ey. cbn. rewrite Eys. split; [reflexivity|]. now constructor.
Qed.

(** everything about the run *)
Theorem bin_ok : exists gs, create_bin file P part = Some gs /\ length gs = P /\
  forall r g, nth_error gs r = Some g -> exists ranks ed, length ranks = N /\ (forall v, v < N -> nth_error ranks v = Some (Z.of_nat (ow v))) /\
    create_dist_csr ranks (Z.of_nat r) (length (own_edges file P part r)) (ainit (ends (own_edges file P part r))) = Some g /\ types g = [ed].
Proof.
  unfold create_bin. cbv zeta. fold slices. rewrite N_ok. destruct table as (ranks & Er & Hl & Hn). rewrite Er. cbn [obind].
  destruct (exchanged ranks Er) as (outs & Eo & Lo & Hx). rewrite Eo. cbn [obind].
  destruct (mapM_exists nat graph (fun r => el <- exchange outs r ;; create_dist_csr ranks (Z.of_nat r) (length el / 2) el)
     (fun r g => exists ed, create_dist_csr ranks (Z.of_nat r) (length (own_edges file P part r)) (ainit (ends (own_edges file P part r))) = Some g /\ types g = [ed]) (seq 0 P)) as (gs & Eg & F).
  - intros r Hr. apply in_seq in Hr. rewrite Hx by lia. cbn [obind].
    destruct (part_exists ranks Hl Hn r) as (g & ed & Eg & Ht). exists g. rewrite ainit_length. change (endpoints (own_edges file P part r)) with (ends (own_edges file P part r)).
    rewrite ends_length, Nat.mul_comm, Nat.div_mul by lia. split; [exact Eg|eauto].
  - exists gs. split; [exact Eg|]. assert (Lg : length gs = P) by (rewrite <- (Forall2_len _ _ _ _ _ F); apply seq_length). split; [exact Lg|].
    intros r g Hg. destruct (Forall2_nth_r _ _ _ _ _ _ _ F Hg) as (r' & Hr' & ed & E1 & E2).
    assert (r < P). { rewrite <- Lg. apply nth_error_Some. congruence. }
    rewrite nth_error_seq in Hr' by auto. cbn in Hr'. inversion Hr'; subst r'. exists ranks, ed. auto.
Qed.
End Top.
