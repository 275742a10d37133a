(** All the parts: the phases of one edge type, and the whole construction. *)
From Verif Require Import Base GraphModel CsrProofs ConstructProofs AccessProofs Comm TagModel TagProps MigrateModel MigrateProofs1 MeshModel MeshProofs1 MeshProofs2 MeshProofs3.

(** one edge type of one part, with the hyperedges' pins described by P *)
Record TInv (m : pmesh) (h : hdim) (all : list Z) (P : Z -> list Z -> Prop) (ed : etd) : Prop := mkT {
  t_num : e_num ed = length (h_ents h);
  t_map : MapInv (e_map ed) (gids h);
  t_un : e_unmap ed = ainit (gids h);
  t_wg : e_wgts ed = ainit (map snd (h_ents h));
  t_deg : forall k, k <= length (verts_of m) -> aget (e_deg ed) k = Some (nsum (map (@length nat) (firstn k (orows m h))));
  t_list : e_list ed = ainit (concat (orows m h));
  t_pins : exists rows : nat -> list nat, e_pins ed = ainit (concat (map rows (seq 0 (length (h_ents h))))) /\
    (forall k, k <= length (h_ents h) -> aget (e_pdeg ed) k = Some (nsum (map (fun u => length (rows u)) (seq 0 k)))) /\
    e_npins ed = nsum (map (fun u => length (rows u)) (seq 0 (length (h_ents h)))) /\
    forall u x, nth_error (gids h) u = Some x -> exists l, Forall2 (fun i v => nth_error all i = Some v) (rows u) l /\ P x l }.
Definition pin_set (ms : list pmesh) (hs : list hdim) (x : Z) (l : list Z) : Prop := NoDup l /\ forall v, In v l <-> touch ms hs x v.
Record AInv (ms : list pmesh) (hss : list (list hdim)) (p : nat) (a : ast) : Prop := mkAI {
  i_me : a_me a = Z.of_nat p;
  i_m : nth_error ms p = Some (a_m a);
  i_n : a_n a = length (verts_of (a_m a));
  i_lun : a_lun a = ainit (verts_of (a_m a));
  i_lw : a_lw a = ainit (repeat 1%Z (length (verts_of (a_m a))));
  i_vm : MapInv (a_vm a) (verts_of (a_m a) ++ a_gh a);
  i_nd : NoDup (verts_of (a_m a) ++ a_gh a);
  i_own : Forall2 (fun v o => exists q mq, o = Z.of_nat q /\ nth_error ms q = Some mq /\ In v (verts_of mq)) (a_gh a) (a_own a);
  i_seen : forall v, In v (a_gh a) -> exists hs h x, In hs hss /\ nth_error hs p = Some h /\ In x (gids h) /\ touch ms hs x v;
  i_types : Forall2 (fun hs ed => exists h, nth_error hs p = Some h /\ TInv (a_m a) h (verts_of (a_m a) ++ a_gh a) (pin_set ms hs) ed) hss (a_types a) }.

Lemma TInv_grow m h all ext P ed : TInv m h all P ed -> TInv m h (all ++ ext) P ed.
Proof.
  intros [H1 H2 H3 H4 H5 H6 (rows & H7 & H8 & H9 & H10)]. constructor; auto. exists rows. split; auto. split; auto. split; auto. intros u x Hu. destruct (H10 u x Hu) as (l & F & K). exists l. split; auto.
  apply (Forall2_impl2 _ _ _ _ _ _) with (2 := F). intros i v Hi. rewrite nth_error_app1; auto. apply nth_error_Some. congruence.
Qed.
Lemma aget_firstn A (a : arr A) n u : u < n -> aget (firstn n a) u = aget a u.
Proof. unfold aget. intros H. assert (E : nth_error (firstn n a) u = nth_error a u); [|now rewrite E]. revert n u H. induction a as [|x a IH]; intros [|n] [|u] H; cbn; auto; try lia. apply IH. lia. Qed.
Lemma cnt_idx (l : list (Z * (Z * Z))) g u x : NoDup g -> nth_error g u = Some x -> (forall r, In r l -> In (fst (snd r)) g) -> cnt_of u (map (fun r => (idx g (fst (snd r)), 0)) l) = cnt2 x l.
Proof.
  intros N Hu. induction l as [|r l IH]; intros H; [reflexivity|]. cbn [map]. change ((idx g (fst (snd r)), 0) :: map (fun r => (idx g (fst (snd r)), 0)) l) with ([(idx g (fst (snd r)), 0)] ++ map (fun r => (idx g (fst (snd r)), 0)) l).
  rewrite cnt_of_app, IH by (intros; apply H; cbn; auto). unfold cnt2. cbn [map nsum fold_right]. f_equal. pose proof (H r (or_introl eq_refl)) as I. unfold cnt_of.
  destruct (Z.eqb_spec (fst (snd r)) x) as [E|NE].
  - rewrite E, (nth_idx g u x N Hu). now rewrite vals_of_single_eq.
  - rewrite vals_of_single_neq; [reflexivity|]. intros E. apply NE. apply idx_nth in I. congruence.
Qed.
Lemma cnt1_perm x l l' : Permutation l l' -> cnt1 x l = cnt1 x l'. Proof. intros H. unfold cnt1. apply nsum_perm. now apply Permutation_map. Qed.
Lemma cnt2_perm x l l' : Permutation l l' -> cnt2 x l = cnt2 x l'. Proof. intros H. unfold cnt2. apply nsum_perm. now apply Permutation_map. Qed.

Section OneType.
Variable ms : list pmesh.
Variable hs : list hdim.
Hypothesis HO : owned_once ms.
Hypothesis HC : copies_ok ms hs.
Variable hss : list (list hdim).

Definition tot (p : nat) (m : pmesh) (h : hdim) : list (nat * nat) := lps m 0 (h_ents h) ++ map (fun r => (idx (gids h) (fst (snd r)), 0)) (addressed p (S2 ms hs)).
Definition PB1 (p : nat) (w : wst) : Prop := exists h, AInv ms hss p (w_a w) /\ w_h w = h /\ nth_error hs p = Some h /\
  s_un (w_s w) = ainit (gids h) /\ s_wg (w_s w) = ainit (map snd (h_ents h)) /\ MapInv (s_em (w_s w)) (gids h) /\
  (forall k, k <= length (verts_of (a_m (w_a w))) -> aget (w_deg w) k = Some (nsum (map (@length nat) (firstn k (orows (a_m (w_a w)) h))))) /\ w_el w = concat (orows (a_m (w_a w)) h) /\
  w_out w = flat_map (out1 (Z.of_nat p) (a_m (w_a w))) (h_ents h) /\ length (w_pdl w) = length (h_ents h) + 1 /\ aget (w_pdl w) 0 = Some 0 /\
  forall k e x, nth_error (h_ents h) k = Some (e, x) -> aget (w_pdl w) (k + 1) = Some (length (adjl (a_m (w_a w)) e)).
Definition PB2 (p : nat) (f : fst2) : Prop := exists h, PB1 p (f_w f) /\ nth_error hs p = Some h /\ let m := a_m (w_a (f_w f)) in let n := length (h_ents h) in
  f_outp f = flat_map (out2 (Z.of_nat p) m) (h_ents h) /\ FillInv n (tot p m h) (lps m 0 (h_ents h)) (f_fill f) /\
  (forall k, k <= n -> aget (f_pdl f) k = Some (off (tot p m h) k)) /\ f_npins f = off (tot p m h) n.

Lemma gids_len h : length (gids h) = length (h_ents h). Proof. unfold gids. apply map_length. Qed.
Lemma gids_nth h u x : nth_error (gids h) u = Some x -> exists e w, nth_error (h_ents h) u = Some (e, w) /\ en_gid e = x.
Proof. unfold gids. rewrite nth_error_map. destruct (nth_error (h_ents h) u) as [(e, w)|]; intros H; inversion H. eauto. Qed.
Lemma adj_lt p m h e w i : nth_error ms p = Some m -> nth_error hs p = Some h -> In (e, w) (h_ents h) -> In i (en_adj e) -> i < length (pm_prim m).
Proof. intros H1 H2 H3. now apply (co_adj _ _ HC p m h e w). Qed.
Lemma arr2_gid p h r : nth_error hs p = Some h -> In r (addressed p (S2 ms hs)) -> In (fst (snd r)) (gids h).
Proof.
  intros Hh H. destruct r as (s, (x, v)). apply (arr2 ms hs) in H as (q & m & hq & e & w & -> & H1 & H2 & H3 & H4 & H5 & H6). cbn [fst snd]. subst x. eapply gid_here; eauto.
Qed.
Lemma tot_cnt p m h u e w : nth_error hs p = Some h -> nth_error (h_ents h) u = Some (e, w) -> cnt_of u (tot p m h) = length (adjl m e) + cnt2 (en_gid e) (addressed p (S2 ms hs)).
Proof.
  intros Hh Hu. unfold tot. rewrite cnt_of_app. f_equal.
  - unfold cnt_of. rewrite lps_vals. cbn. rewrite Nat.sub_0_r, Hu. cbn. now rewrite map_length.
  - apply cnt_idx; [eapply co_gid; eauto|unfold gids; rewrite nth_error_map, Hu; reflexivity|]. intros r Hr. eapply arr2_gid; eauto.
Qed.
Lemma setup_ok chk get p a : AInv ms hss p a -> (exists h, get (a_m a) = Some h /\ nth_error hs p = Some h) -> exists w, setup chk get a = Some w /\ PB1 p w.
Proof.
  intros I (h & Eg & Hh). pose proof (i_m _ _ _ _ I) as Hm. unfold setup. rewrite Eg. cbn [obind].
  destruct (setupSecondary_ok h (co_gid _ _ HC p h Hh)) as (s & Es & U1 & U2 & U3). rewrite Es. cbn [obind].
  destruct (connect_ok a (a_m a) h (s_em s) eq_refl (i_n _ _ _ _ I) (co_down _ _ HC p _ h Hm Hh) U3) as (d & Ed & Ld & Gd).
  { intros row k Hr Hk. apply In_nth_error in Hr as (i & Hi). apply (co_row _ _ HC p h i row Hh Hi) in Hk as (e & w & He & _). apply nth_error_Some. congruence. }
  { exists (a_gh a). apply (i_vm _ _ _ _ I). } { eapply verts_nodup; eauto. }
  rewrite Ed. cbn [obind]. destruct (count_ok chk a (a_m a) h (s_em s) eq_refl U3) as (pd & Ep & Lp & P0 & P1). { intros e w i He Hi. eapply adj_lt; eauto. }
  rewrite Ep. cbn [obind fst snd]. eexists. split; [reflexivity|]. exists h. cbn [w_a w_h w_s w_deg w_el w_pdl w_out]. rewrite (i_me _ _ _ _ I) in *. split; [exact I|]. split; [reflexivity|]. split; [exact Hh|]. split; [exact U1|]. split; [exact U2|]. split; [exact U3|].
  split; [intros k Hk; apply Gd; rewrite (i_n _ _ _ _ I); exact Hk|]. split; [reflexivity|]. split; [reflexivity|]. split; [exact Lp|]. split; [exact P0|]. exact P1.
Qed.
Lemma counts_ok p w r : PB1 p w -> Permutation r (addressed p (S1 ms hs)) -> exists f, after_counts w r = Some f /\ PB2 p f.
Proof.
  intros HP Hr. pose proof HP as (h & I & Eh & Hh & U1 & U2 & U3 & D & EL & O & L & P0 & P1). pose proof (i_m _ _ _ _ I) as Hm. set (m := a_m (w_a w)) in *.
  unfold after_counts. rewrite Eh. set (n := length (h_ents h)). pose proof (co_gid _ _ HC p h Hh) as NG.
  destruct (count_recv_ok (s_em (w_s w)) h (w_pdl w) (fun k => match nth_error (h_ents h) k with Some x => length (adjl m (fst x)) | None => 0 end) r U3 NG L P0) as (p1 & E1 & L1 & Z1 & G1).
  { intros k x Hk. apply gids_nth in Hk as (e & y & He & _). rewrite He. cbn [fst]. eapply P1; eauto. }
  { intros rec Hrec. eapply arr1; eauto. }
  rewrite E1. cbn [obind].
  assert (G2 : forall u, u < n -> aget p1 (u + 1) = Some (cnt_of u (tot p m h))).
  { intros u Hu. destruct (nth_error (h_ents h) u) as [(e, y)|] eqn:Ee; [|apply nth_error_None in Ee; lia].
    assert (Hx : nth_error (gids h) u = Some (en_gid e)) by (unfold gids; rewrite nth_error_map, Ee; reflexivity). rewrite (G1 u _ Hx), Ee. cbn [fst]. f_equal. rewrite (tot_cnt p m h u e y Hh Ee). f_equal.
    rewrite (cnt1_perm _ _ _ Hr). now apply same_counts. }
  rewrite offsets_prefix; auto. 2:{ intros i Hi. eexists. apply G2. exact Hi. }
  destruct (prefix_sums_ok n p1 (fun u => cnt_of u (tot p m h)) L1 Z1 G2) as (pdl & Epd & Lpd & Gpd). fold n. rewrite Epd. cbn [obind].
  change (forall k, k <= n -> aget pdl k = Some (off (tot p m h) k)) in Gpd. rewrite Gpd by lia. cbn [obind].
  destruct (fill_local_ok (w_a w) m h (s_em (w_s w)) (a_gh (w_a w)) n (tot p m h) (anew (off (tot p m h) n), firstn n pdl)) as (fl & Ef & Ff).
  { reflexivity. } { exact U3. } { apply (i_vm _ _ _ _ I). } { apply (i_nd _ _ _ _ I). } { reflexivity. } { intros e y i He Hi. eapply adj_lt; eauto. }
  { intros u. unfold tot. rewrite cnt_of_app. lia. }
  { apply fill_init; [rewrite firstn_length; lia|]. intros u Hu. rewrite aget_firstn by auto. apply Gpd. lia. }
  match goal with |- context [foldM ?f ?l ?s] => replace (foldM f l s) with (Some (fl, flat_map (out2 (a_me (w_a w)) m) (h_ents h))) by (symmetry; exact Ef) end. cbn [obind fst snd]. eexists. split; [reflexivity|]. exists h. cbn [f_w f_pdl f_npins f_fill f_outp]. split; [exact HP|]. split; [exact Hh|]. cbn zeta. fold m. fold n. rewrite (i_me _ _ _ _ I) in *. auto.
Qed.
Lemma pairing_vals h all l ps u x : NoDup (gids h) -> nth_error (gids h) u = Some x -> Forall2 (pairing h all) l ps ->
  Forall2 (fun i v => nth_error all i = Some v) (vals_of u ps) (map (fun r : Z * (Z * Z) => snd (snd r)) (filter (fun r => Z.eqb (fst (snd r)) x) l)).
Proof.
  intros N Hu H. induction H as [|r (k, i) l ps (P1 & P2) H IH]; [constructor|]. cbn [fst snd] in *. change ((k, i) :: ps) with ([(k, i)] ++ ps). rewrite vals_of_app. cbn [filter].
  destruct (Z.eqb_spec (fst (snd r)) x) as [E|NE].
  - assert (k = u) by (eapply NoDup_nth_error_inj; eauto; congruence). subst k. rewrite vals_of_single_eq. cbn. constructor; auto.
  - rewrite vals_of_single_neq by (intros ->; congruence). exact IH.
Qed.
Lemma Forall2_map_idx all l gh : NoDup (all ++ gh) -> (forall v, In v l -> In v all) -> Forall2 (fun i v => nth_error (all ++ gh) i = Some v) (map (idx all) l) l.
Proof. intros N. induction l as [|v l IH]; intros H; cbn; constructor; [|apply IH; intros; apply H; cbn; auto]. assert (I : In v all) by (apply H; cbn; auto). rewrite nth_error_app1 by (now apply idx_lt). now apply idx_nth. Qed.
Lemma the_pins p m h e w l : nth_error ms p = Some m -> nth_error hs p = Some h -> In (e, w) (h_ents h) -> Permutation l (addressed p (S2 ms hs)) ->
  pin_set ms hs (en_gid e) (adjl m e ++ map (fun r : Z * (Z * Z) => snd (snd r)) (filter (fun r => Z.eqb (fst (snd r)) (en_gid e)) l)).
Proof.
  intros Hm Hh He Hl. split.
  - apply NoDup_app_iff. split; [eapply adjl_nd; eauto|]. split.
    + assert (N : NoDup (map snd l)) by (apply (Permutation_NoDup (l := map snd (addressed p (S2 ms hs)))); [apply Permutation_map; now symmetry|]; eapply addressed_nodup; eauto).
      clear - N. induction l as [|(s, (x, v)) l IH]; [constructor|]. cbn [map] in N. inversion N as [|? ? NI N']; subst. cbn [filter fst snd]. destruct (Z.eqb_spec x (en_gid e)) as [E|NE]; [|auto]. cbn [map snd]. constructor; auto.
      intros I. apply NI. apply in_map_iff in I as ((s', (x', v')) & Ev & I). cbn [snd] in Ev. subst v'. apply filter_In in I as (I & B). cbn in B. apply Z.eqb_eq in B. subst. apply in_map_iff. exists (s', (en_gid e, v)). auto.
    + intros v I J. apply in_map_iff in J as ((s, (x, v')) & Ev & J). cbn [snd] in Ev. subst v'. apply filter_In in J as (J & _). apply (Permutation_in _ Hl) in J. eapply (arr2_other ms hs HO); eauto. eapply adjl_verts; eauto.
  - intros v. rewrite in_app_iff. split.
    + intros [I|J]; [exists p, m, h, e, w; auto 10|]. apply in_map_iff in J as ((s, (x, v')) & Ev & J). cbn [snd] in Ev. subst v'. apply filter_In in J as (J & B). cbn in B. apply Z.eqb_eq in B. subst x. apply (Permutation_in _ Hl) in J.
      apply (arr2 ms hs) in J as (q & mq & hq & e' & w' & -> & H1 & H2 & H3 & H4 & H5 & H6). exists q, mq, hq, e', w'. auto 10.
    + intros (q & mq & hq & e' & w' & H1 & H2 & H3 & H4 & H5). destruct (Nat.eq_dec q p) as [Eq|NE].
      * subst q. assert (hq = h) by congruence. subst. assert (mq = m) by congruence. subst. pose proof (gids_inj ms hs HC p h e' w' e w Hh H3 He H4) as E. inversion E; subst. auto.
      * right. apply in_map_iff. exists (Z.of_nat q, (en_gid e, v)). split; auto. apply filter_In. split; [|cbn; apply Z.eqb_refl]. apply (Permutation_in _ (Permutation_sym Hl)).
        apply (arr2 ms hs). exists q, mq, hq, e', w'. do 5 (split; [auto; fail|]). split; [|auto]. apply others_in. split; [|lia]. apply (co_res _ _ HC q hq e' w' H2 H3). exists p, h. split; auto. split; auto. rewrite H4. unfold gids. apply in_map_iff. exists (e, w). auto.
Qed.
Lemma pins_ok p f l : PB2 p f -> Permutation l (addressed p (S2 ms hs)) -> exists a, after_pins f l = Some a /\ AInv ms (hss ++ [hs]) p a.
Proof.
  intros (h & HP & Hh & HF) Hl. pose proof HP as (h' & I & Eh & Hh' & U1 & U2 & U3 & D & EL & _). assert (X : h' = h) by congruence. rewrite X in *. clear X.
  pose proof (i_m _ _ _ _ I) as Hm. cbn zeta in HF. set (m := a_m (w_a (f_w f))) in *. set (n := length (h_ents h)) in *. destruct HF as (_ & F0 & Gp & Np). pose proof (co_gid _ _ HC p h Hh) as NG.
  unfold after_pins. rewrite Eh. fold n.
  assert (LN : length (gids h) = n) by apply gids_len. rewrite <- LN in F0.
  destruct (recv_ok (a_n (w_a (f_w f))) (verts_of m) h (s_em (w_s (f_w f))) (a_gh (w_a (f_w f))) (a_own (w_a (f_w f))) (a_vm (w_a (f_w f))) (tot p m h) (lps m 0 (h_ents h)) (f_fill f) l (i_n _ _ _ _ I) U3 NG (i_vm _ _ _ _ I) (i_nd _ _ _ _ I) F0) as (vm' & ext & exto & fill' & ps & Er & M' & N' & X' & F' & C' & P').
  { intros r Hr. apply (arr2_gid p h r Hh). apply (Permutation_in _ Hl Hr). }
  { intros (s, (x, v)) Hr. cbn [snd]. apply (Permutation_in _ Hl) in Hr. eapply (arr2_other ms hs HO); eauto. }
  { intros u x Hu. apply gids_nth in Hu as (e & w & He & <-). rewrite (tot_cnt p m h u e w Hh He), (cnt2_perm _ _ _ Hl). f_equal. unfold cnt_of. rewrite lps_vals. cbn. rewrite Nat.sub_0_r, He. cbn. now rewrite map_length. }
  { intros u Hu. unfold cnt_of. rewrite lps_vals. cbn. rewrite Nat.sub_0_r. destruct (nth_error (h_ents h) u) eqn:E; [|reflexivity]. exfalso. assert (u < length (h_ents h)) by (apply nth_error_Some; congruence). lia. }
  rewrite LN in *. rewrite Er. cbn [obind r_fill r_vm r_gh r_own]. set (T := lps m 0 (h_ents h) ++ ps) in *.
  assert (OE : forall k, k <= n -> off (tot p m h) k = off T k). { intros k Hk. unfold off. f_equal. apply map_ext_in. intros u Hu. apply in_seq in Hu. symmetry. apply C'. lia. }
  assert (AS : foldM (fun (_ : unit) i => x <- aget (snd fill') i;; y <- aget (f_pdl f) (i + 1);; (if x =? y then Some tt else None)) (seq 0 n) tt = Some tt).
  { assert (G : forall k a, a + k <= n -> foldM (fun (_ : unit) i => x <- aget (snd fill') i;; y <- aget (f_pdl f) (i + 1);; (if x =? y then Some tt else None)) (seq a k) tt = Some tt); [|apply (G n 0); lia].
    induction k as [|k IH]; intros a Ha; [reflexivity|]. cbn [seq foldM]. destruct F' as (_ & F2 & _). rewrite F2 by lia. cbn [obind]. rewrite Gp by lia. cbn [obind]. rewrite OE by lia. rewrite Nat.add_1_r, off_S, Nat.eqb_refl. cbn [obind]. apply IH. lia. }
  rewrite AS. cbn [obind]. eexists. split; [reflexivity|]. assert (Em : a_m (w_a (f_w f)) = m) by reflexivity. constructor; cbn [a_me a_m a_n a_lun a_lw a_vm a_gh a_own a_types]; rewrite ?Em.
  - apply (i_me _ _ _ _ I). - exact Hm. - apply (i_n _ _ _ _ I). - apply (i_lun _ _ _ _ I). - apply (i_lw _ _ _ _ I). - exact M'. - exact N'.
  - apply Forall2_app; [apply (i_own _ _ _ _ I)|]. apply (Forall2_impl2 _ _ _ _ _ _) with (2 := X'). intros v o (x & Hx). apply (Permutation_in _ Hl) in Hx. apply (arr2 ms hs) in Hx as (q & mq & hq & e' & w' & -> & H1 & H2 & H3 & H4 & H5 & H6). exists q, mq. split; auto. split; auto. eapply adjl_verts; eauto.
  - intros v Hv. apply in_app_or in Hv as [Hv|Hv].
    + destruct (i_seen _ _ _ _ I v Hv) as (hs0 & h0 & x & K1 & K2 & K3 & K4). exists hs0, h0, x. split; auto. apply in_or_app. auto.
    + assert (exists o x, In (o, (x, v)) l) as (o & x & Hx).
      { clear - X' Hv. induction X' as [|v' o l1 l2 (x & Hx) X IH]; [destruct Hv|]. destruct Hv as [->|Hv]; eauto. }
      pose proof (Permutation_in _ Hl Hx) as Hx'. exists hs, h, x. split; [apply in_or_app; right; now left|]. split; auto. split; [apply (arr2_gid p h (o, (x, v)) Hh Hx')|].
      apply (arr2 ms hs) in Hx' as (q & mq & hq & e' & w' & -> & H1 & H2 & H3 & H4 & H5 & H6). exists q, mq, hq, e', w'. auto 10.
  - apply Forall2_snoc.
    + apply (Forall2_impl2 _ _ _ _ _ _) with (2 := i_types _ _ _ _ I). intros hs0 ed (h0 & K1 & K2). exists h0. split; auto. rewrite app_assoc. apply TInv_grow. exact K2.
    + exists h. split; [exact Hh|]. constructor; cbn [e_num e_npins e_map e_unmap e_wgts e_deg e_list e_pdeg e_pins]; auto.
      * now rewrite EL.
      * exists (fun u => vals_of u T). split; [now apply fill_done|]. split; [intros k Hk; rewrite Gp, OE by auto; reflexivity|]. split; [rewrite Np, OE by lia; reflexivity|].
        intros u x Hu. pose proof Hu as Hu'. apply gids_nth in Hu as (e & w & He & <-). exists (adjl m e ++ map (fun r : Z * (Z * Z) => snd (snd r)) (filter (fun r => Z.eqb (fst (snd r)) (en_gid e)) l)). split.
        -- unfold T. rewrite vals_of_app. apply Forall2_app; [|apply pairing_vals with (h := h); auto].
           rewrite lps_vals. cbn. rewrite Nat.sub_0_r, He. cbn [fst]. apply Forall2_map_idx; auto. intros v Hv. eapply adjl_verts; eauto.
        -- eapply the_pins; eauto. eapply nth_error_In; eauto.
Qed.
Lemma PB1_out p w m h : PB1 p w -> nth_error ms p = Some m -> nth_error hs p = Some h -> w_out w = flat_map (out1 (Z.of_nat p) m) (h_ents h).
Proof. intros (h' & I & Eh & Hh & _ & _ & _ & _ & _ & O & _) Hm Hh2. pose proof (i_m _ _ _ _ I). rewrite O. congruence. Qed.
Lemma PB2_out p f m h : PB2 p f -> nth_error ms p = Some m -> nth_error hs p = Some h -> f_outp f = flat_map (out2 (Z.of_nat p) m) (h_ents h).
Proof. intros (h' & (h0 & I & _) & Hh & O & _) Hm Hh2. pose proof (i_m _ _ _ _ I). cbn zeta in O. rewrite O. congruence. Qed.
Lemma type_ok chk get sts (Q : list ast -> Prop) : length sts = length ms -> (forall p a, nth_error sts p = Some a -> AInv ms hss p a) -> (forall p m, nth_error ms p = Some m -> exists h, get m = Some h /\ nth_error hs p = Some h) ->
  (forall sts', length sts' = length ms -> (forall p a, nth_error sts' p = Some a -> AInv ms (hss ++ [hs]) p a) -> Q sts') -> mesh_type chk get sts Q.
Proof.
  intros LS HA HG HQ. unfold mesh_type. apply (local_intro _ _ _ _ PB1).
  { intros p a Ha. apply setup_ok; auto. apply HG. apply (i_m _ _ _ _ (HA p a Ha)). }
  intros ws Lw HW. rewrite LS in Lw.
  assert (MS : forall A (l : list A) i a, length l = length ms -> nth_error l i = Some a -> exists m h, nth_error ms i = Some m /\ nth_error hs i = Some h).
  { intros A l i a Ll Hi. assert (i < length ms) by (rewrite <- Ll; apply nth_error_Some; congruence). destruct (nth_error ms i) as [m|] eqn:Em; [|apply nth_error_None in Em; lia]. destruct (hs_nth ms hs HC i m Em) as (h & Hh). eauto. }
  apply (phase_intro _ _ _ _ _ _ PB2).
  { intros i w Hw. eexists. split; [reflexivity|]. intros (y, r) Hr. cbn [fst]. destruct (MS _ ws i w Lw Hw) as (m & h & Hm & Hh). rewrite (PB1_out i w m h (HW i w Hw) Hm Hh) in Hr.
    apply in_flat_map in Hr as ((e, x) & He & Hr). apply out1_in in Hr as (_ & Ho). rewrite Lw. eapply dest_ok; eauto. }
  { intros sent rcv ES DV i w r Hw Hr. apply counts_ok; [auto|]. assert (EE : sent = S1 ms hs).
    { apply nth_error_ext. intros j. destruct (nth_error ws j) as [wj|] eqn:Ej.
      - destruct (mapM_nth _ _ _ _ _ _ _ ES Ej) as (y & Hy & Ez). assert (Ey : nth_error sent j = Some (w_out wj)) by congruence. destruct (MS _ ws j wj Lw Ej) as (m & h & Hm & Hh). rewrite Ey, (S1_nth ms hs j m h Hm Hh). f_equal. apply PB1_out; auto.
      - apply nth_error_None in Ej. apply mapM_length in ES. rewrite (proj2 (nth_error_None sent j)) by lia. symmetry. apply nth_error_None. unfold S1. rewrite map_length, (triples_len ms hs HC). lia. }
    rewrite <- EE. destruct DV as (_ & _ & DV). now apply DV. }
  intros fs Lf HF. rewrite Lw in Lf. apply (phase_intro _ _ _ _ _ _ (AInv ms (hss ++ [hs]))).
  { intros i w Hw. eexists. split; [reflexivity|]. intros (y, r) Hr. cbn [fst]. destruct (MS _ fs i w Lf Hw) as (m & h & Hm & Hh). rewrite (PB2_out i w m h (HF i w Hw) Hm Hh) in Hr.
    apply in_flat_map in Hr as ((e, x) & He & Hr). apply out2_in in Hr as (_ & Ho & _). rewrite Lf. eapply dest_ok; eauto. }
  { intros sent rcv ES DV i w r Hw Hr. apply pins_ok; [auto|]. assert (EE : sent = S2 ms hs).
    { apply nth_error_ext. intros j. destruct (nth_error fs j) as [wj|] eqn:Ej.
      - destruct (mapM_nth _ _ _ _ _ _ _ ES Ej) as (y & Hy & Ez). assert (Ey : nth_error sent j = Some (f_outp wj)) by congruence. destruct (MS _ fs j wj Lf Ej) as (m & h & Hm & Hh). rewrite Ey, (S2_nth ms hs j m h Hm Hh). f_equal. apply PB2_out; auto.
      - apply nth_error_None in Ej. apply mapM_length in ES. rewrite (proj2 (nth_error_None sent j)) by lia. symmetry. apply nth_error_None. unfold S2. rewrite map_length, (triples_len ms hs HC). lia. }
    rewrite <- EE. destruct DV as (_ & _ & DV). now apply DV. }
  intros sts' L' HA'. apply HQ; [congruence|auto].
Qed.
End OneType.

(** the secondary dimensions one after the other *)
Lemma types_ok ms chk : owned_once ms -> forall gets hss2 hss sts (Q : list ast -> Prop), length gets = length hss2 -> (forall hs, In hs hss2 -> copies_ok ms hs) ->
  (forall t get hs, nth_error gets t = Some get -> nth_error hss2 t = Some hs -> forall p m, nth_error ms p = Some m -> exists h, get m = Some h /\ nth_error hs p = Some h) ->
  length sts = length ms -> (forall p a, nth_error sts p = Some a -> AInv ms hss p a) ->
  (forall sts', length sts' = length ms -> (forall p a, nth_error sts' p = Some a -> AInv ms (hss ++ hss2) p a) -> Q sts') -> mesh_types chk gets sts Q.
Proof.
  intros HO. induction gets as [|get gets IH]; intros [|hs hss2] hss sts Q L HC HG LS HA HQ; cbn in L; try lia.
  - cbn [mesh_types]. apply HQ; auto. now rewrite app_nil_r.
  - cbn [mesh_types]. apply (type_ok ms hs HO (HC hs (or_introl eq_refl)) hss); auto.
    { intros p m Hm. apply (HG 0 get hs eq_refl eq_refl p m Hm). }
    intros sts' L' HA'. apply (IH hss2 (hss ++ [hs])); auto.
    + intros; apply HC; cbn; auto. + intros t g h Ht Hh p m Hm. apply (HG (S t) g h Ht Hh p m Hm). + intros s2 L2 H2. apply HQ; auto. intros p a Ha. specialize (H2 p a Ha). now rewrite <- app_assoc in H2.
Qed.
Lemma ranked_nth ms p x : nth_error (ranked ms) p = Some x -> fst x = Z.of_nat p /\ nth_error ms p = Some (snd x).
Proof.
  destruct x as (z, m). intros H. unfold ranked in H. apply nth_combine2_inv in H as (H1 & H2). cbn [fst snd]. split; auto. rewrite nth_error_map in H1. assert (L : p < length ms) by (apply nth_error_Some; congruence).
  rewrite nth_error_seq in H1 by auto. cbn in H1. congruence.
Qed.
Lemma ranked_len ms : length (ranked ms) = length ms.
Proof. unfold ranked. rewrite combine_length, map_length, seq_length. lia. Qed.
Lemma primary_ok ms (Q : list ast -> Prop) : owned_once ms -> (forall sts, length sts = length ms -> (forall p a, nth_error sts p = Some a -> AInv ms [] p a) -> Q sts) -> local setupPrimary (ranked ms) Q.
Proof.
  intros HO HQ. apply (local_intro _ _ _ _ (AInv ms [])).
  - intros p (z, m) H. apply ranked_nth in H as (E & Hm). cbn [fst snd] in *. subst z. destruct (setupPrimary_ok (Z.of_nat p) m (verts_nodup ms HO p m Hm)) as (a & Ea & H1 & H2 & H3 & H4 & H5 & H6 & H7 & H8 & H9).
    exists a. split; auto. constructor; rewrite ?H2, ?H7, ?H8, ?H9, ?app_nil_r; auto. + eapply verts_nodup; eauto. + intros v [].
  - intros sts L H. rewrite ranked_len in L. auto.
Qed.
