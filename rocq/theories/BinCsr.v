(** create_dist_csr: what the graph holds. *)
From Verif Require Import Base GraphModel CsrProofs ConstructProofs AccessProofs BinModel BinProofs.

Lemma pref_len A (l : list A) pre x post : l = pre ++ x :: post -> nth_error l (length pre) = Some x.
Proof. intros ->. rewrite nth_error_app2, Nat.sub_diag; auto. Qed.
Lemma seq_pref a n pre x post : seq a n = pre ++ x :: post -> x = a + length pre /\ length pre < n.
Proof.
  intros H. assert (L : length pre < n) by (rewrite <- (seq_length n a), H, app_length; simpl; lia).
  apply pref_len in H. rewrite nth_error_seq in H by auto. inversion H; auto.
Qed.

(** ** adjacency in any graph with compressed rows *)
Lemma csr_adjacent g ed tot l fuel : hyper g = false -> types g = [ed] ->
  aget (e_deg ed) l = Some (off tot l) -> aget (e_deg ed) (l + 1) = Some (off tot (S l)) ->
  (forall m x, nth_error (vals_of l tot) m = Some x -> aget (e_list ed) (off tot l + m) = Some x) ->
  cnt_of l tot < fuel -> adjacent g (S l) 0 fuel = Some (map S (vals_of l tot)).
Proof.
  intros Hh Hty D0 D1 Hrow Hf.
  assert (Ent : ntypes g = 1) by (unfold ntypes; now rewrite Hty).
  assert (E : gtype g 0 = Some ed) by (unfold gtype; now rewrite Hty).
  unfold adjacent, adj_begin.
  assert (Eit : eit_vertex g (S l) 0 = Some (mk_eiter 0 (ntypes g) (off tot l) (cnt_of l tot) false)).
  { unfold eit_vertex, vdegree. cbn [vlid obind]. rewrite E. cbn [obind]. rewrite D0. cbn [obind]. rewrite D1. cbn [obind].
    do 2 f_equal. rewrite off_S. lia. }
  rewrite Eit. cbn [obind]. apply drain_yields; [|rewrite map_length; exact Hf].
  assert (G : forall j m pit edge c, m + j = cnt_of l tot ->
    yields (adj_step g) (mkGiter c (mkEiter (getEdge 1 (off tot l + m) 0) (getEdge 1 (off tot l + cnt_of l tot) 0) 1 false) pit edge)
      (map S (skipn m (vals_of l tot)))).
  { induction j as [|j IH]; intros m pit edge c Hm.
    - rewrite skipn_all2 by (unfold cnt_of in Hm; lia). cbn [map yields]. eexists. unfold adj_step. rewrite Hh.
      cbn [gi_eit]. unfold eit_step. cbn [ei_end ei_loc]. replace m with (cnt_of l tot) by lia.
      rewrite Nat.leb_refl. cbn [obind]. unfold v_of. rewrite Hh. cbn. reflexivity.
    - destruct (nth_error (vals_of l tot) m) as [x|] eqn:Ev.
      2:{ apply nth_error_None in Ev. unfold cnt_of in Hm; lia. }
      assert (Es : skipn m (vals_of l tot) = x :: skipn (S m) (vals_of l tot)).
      { clear - Ev. revert Ev. generalize (vals_of l tot) as ps. induction m as [|m IHm]; intros [|a ps] Ev; simpl in *; try discriminate.
        - inversion Ev; auto. - now apply IHm. }
      rewrite Es. cbn [map yields]. split; [lia|]. eexists. split.
      + unfold adj_step. rewrite Hh. cbn [gi_eit gi_count gi_pit]. unfold eit_step. cbn [ei_end ei_loc ei_nt ei_hyper].
        destruct (Nat.leb_spec (getEdge 1 (off tot l + cnt_of l tot) 0) (getEdge 1 (off tot l + m) 0)); [unfold getEdge in *; lia|].
        rewrite Hh. cbn [andb obind]. unfold v_of. rewrite Hh.
        destruct (Nat.eqb_spec (getEdge 1 (off tot l + m) 0) 0); [unfold getEdge in *; lia|].
        rewrite Ent, edec_getEdge by lia. cbn [obind]. rewrite E. cbn [obind]. rewrite (Hrow _ _ Ev). cbn [obind].
        rewrite Nat.add_1_r. reflexivity.
      + replace (getEdge 1 (off tot l + m) 0 + 1) with (getEdge 1 (off tot l + S m) 0) by (unfold getEdge; lia).
        apply IH. lia. }
  specialize (G (cnt_of l tot) 0 None 0 0 eq_refl). cbn [skipn] in G. rewrite Ent.
  unfold mk_eiter. unfold getEdge in G. rewrite Nat.add_0_r in G.
  replace (1 + 0 + 1 * off tot l) with (1 * off tot l + 0 + 1) by lia.
  replace (1 + 0 + 1 * (off tot l + cnt_of l tot)) with (1 * (off tot l + cnt_of l tot) + 0 + 1) by lia.
  exact G.
Qed.

Lemma offsets_ok n (tc : arr nat) (c : nat -> nat) : (forall u, u < n -> aget tc u = Some (c u)) ->
  exists d, offsets n tc = Some d /\ length d = n + 1 /\ forall k, k <= n -> aget d k = Some (nsum (map c (seq 0 k))).
Proof.
  intros Hc. unfold offsets.
  destruct (foldM_inv (fun (d : arr nat) i => a <- aget d i ;; c <- aget tc i ;; aset d (i + 1) (a + c))
    (fun pre (d : arr nat) => length d = n + 1 /\ forall k, k <= length pre -> aget d k = Some (nsum (map c (seq 0 k))))
    (seq 0 n) (ainit (repeat 0 (n + 1)))) as (d & E & L & H).
  - split; [now rewrite ainit_length, repeat_length|]. intros k Hk. assert (k = 0) by (simpl in Hk; lia). subst k.
    rewrite aget_ainit, nth_error_repeat_lt by lia. reflexivity.
  - intros pre x post d Hs (L & H). destruct (seq_pref _ _ _ _ _ Hs) as (-> & Lp). cbn [Nat.add].
    rewrite H by lia. cbn [obind]. rewrite Hc by lia. cbn [obind]. rewrite aset_some by lia.
    eexists; split; [reflexivity|]. split; [now rewrite upd_length|]. intros k Hk. rewrite app_length in Hk. cbn in Hk.
    destruct (Nat.eq_dec k (length pre + 1)) as [->|Ne].
    + rewrite aget_upd_eq by lia. f_equal. rewrite Nat.add_1_r, seq_snoc, map_app, nsum_app. cbn. lia.
    + rewrite aget_upd_neq by lia. apply H; lia.
  - exists d. split; [exact E|]. split; [exact L|]. intros k Hk. apply H. rewrite seq_length. lia.
Qed.

Lemma off_total tot n : (forall p, In p tot -> fst p < n) -> off tot n = length tot.
Proof.
  intros H. unfold off. induction tot as [|(u, x) tot IH].
  - clear H. generalize (seq 0 n) as l. induction l as [|a l IH]; [reflexivity|]. cbn [map nsum fold_right]. exact IH.
  - assert (Hu : u < n) by (apply (H (u, x)); left; auto).
    cbn [length]. rewrite <- IH by (intros; apply H; right; auto). clear IH.
    rewrite (seq_split3 n u Hu). rewrite !map_app, !nsum_app. cbn [map nsum fold_right].
    fold (nsum (map (fun u0 => cnt_of u0 ((u, x) :: tot)) (seq (S u) (n - S u)))). fold (nsum (map (fun u0 => cnt_of u0 tot) (seq (S u) (n - S u)))).
    assert (C : forall w, cnt_of w ((u, x) :: tot) = (if u =? w then 1 else 0) + cnt_of w tot).
    { intros w. unfold cnt_of, vals_of. cbn [filter fst]. destruct (u =? w); reflexivity. }
    assert (R : forall l, ~ In u l -> map (fun u0 => cnt_of u0 ((u, x) :: tot)) l = map (fun u0 => cnt_of u0 tot) l).
    { intros l Hl. apply map_ext_in. intros w Hw. rewrite C. destruct (Nat.eqb_spec u w); [subst; tauto|reflexivity]. }
    rewrite !R. 2,3: rewrite in_seq; lia.
    rewrite C, Nat.eqb_refl. lia.
Qed.

Lemma ends_even es k e : nth_error es k = Some e -> nth_error (ends es) (2 * k) = Some (fst e) /\ nth_error (ends es) (2 * k + 1) = Some (snd e).
Proof.
  revert k; induction es as [|a es IH]; intros [|k] H; cbn in H; try discriminate.
  - inversion H; subst. split; reflexivity.
  - destruct (IH k H) as (H1 & H2). unfold ends. cbn [flat_map app].
    replace (2 * S k) with (S (S (2 * k))) by lia. split; [exact H1|]. replace (S (S (2 * k)) + 1) with (S (S (2 * k + 1))) by lia. exact H2.
Qed.
Lemma ends_length es : length (ends es) = 2 * length es.
Proof. induction es as [|a es IH]; [reflexivity|]. unfold ends in *. cbn [flat_map app length]. lia. Qed.

Section Csr.
Variables (ranks : list Z) (me : Z) (es : list (nat * nat)).
Definition isloc (v : nat) : bool := match nth_error ranks v with Some k => Z.eqb k me | None => false end.
Hypothesis Hin : forall v, In v (ends es) -> v < length ranks.
Hypothesis Hsrc : forall e, In e es -> isloc (fst e) = true.

Let n := length (filter (Z.eqb me) ranks).
Let m := length es.
Let E := ends es.
Definition locs (l : list nat) : list Z := map Z.of_nat (filter isloc l).
Definition LBp (l : list nat) : list Z := add_new [] (locs l).
Let LB := LBp E.
Definition lab (v : nat) : nat := idx (LBp (ends es)) (Z.of_nat v).
Definition relab (v : nat) : nat := if isloc v then lab v else v.

Lemma LBp_app a b : LBp (a ++ b) = add_new (LBp a) (locs b).
Proof. unfold LBp, locs. now rewrite filter_app, map_app, add_new_app. Qed.
Lemma LBp_nodup l : NoDup (LBp l).
Proof. apply add_new_NoDup. constructor. Qed.
Lemma in_locs l x : In x (locs l) <-> exists v, x = Z.of_nat v /\ In v l /\ isloc v = true.
Proof. unfold locs. rewrite in_map_iff. split.
  - intros (v & <- & H). apply filter_In in H. exists v; tauto.
  - intros (v & -> & H). exists v. split; auto. now apply filter_In. Qed.
Lemma in_LBp l x : In x (LBp l) <-> exists v, x = Z.of_nat v /\ In v l /\ isloc v = true.
Proof. rewrite <- in_locs. unfold LBp. split; intros H.
  - apply add_new_sub in H as [[]|H]; auto. - now apply add_new_In. Qed.

Lemma nlocal : length (filter isloc (seq 0 (length ranks))) = n.
Proof.
  unfold n. clear. unfold isloc.
  assert (G : forall (l : list Z) (pre : list Z), length (filter (fun v => match nth_error (pre ++ l) v with Some k => Z.eqb k me | None => false end) (seq (length pre) (length l)))
     = length (filter (Z.eqb me) l)).
  { induction l as [|a l IH]; intros pre; [reflexivity|]. cbn [length seq filter].
    rewrite nth_error_app2, Nat.sub_diag by lia. cbn [nth_error]. specialize (IH (pre ++ [a])). rewrite app_length in IH. cbn [length] in IH.
    rewrite Nat.add_1_r, <- app_assoc in IH. cbn [app] in IH. rewrite Z.eqb_sym. destruct (Z.eqb me a); cbn [length]; now rewrite IH. }
  apply (G ranks []).
Qed.
Lemma labels_le l : incl (LBp l) (LBp E) \/ True -> (forall v, In v l -> v < length ranks) -> length (LBp l) <= n.
Proof.
  intros _ H. rewrite <- nlocal, <- (map_length Z.of_nat). apply NoDup_incl_length; [apply LBp_nodup|].
  intros x Hx. apply in_LBp in Hx as (v & -> & Hv & Hl). apply in_map. apply filter_In. split; auto. apply in_seq. specialize (H v Hv). lia.
Qed.
Lemma LB_le : length LB <= n.
Proof. apply labels_le; auto. Qed.

Lemma isloc_rank v : isloc v = true <-> nth_error ranks v = Some me.
Proof. unfold isloc. destruct (nth_error ranks v) as [k|]; [|split; discriminate]. split; intros H.
  - apply Z.eqb_eq in H. now subst. - inversion H. apply Z.eqb_refl. Qed.

(** the relabelling loop *)
Definition RInv (i : nat) (s : zmap nat * arr Z * nat * arr nat) : Prop :=
  let '(vm, lu, cur, el) := s in
  MapInv vm (LBp (firstn i E)) /\ lu = ainit (LBp (firstn i E)) ++ anew (n - length (LBp (firstn i E))) /\
  cur = length (LBp (firstn i E)) /\ el = ainit (map relab (firstn i E)) ++ ainit (skipn i E).

Lemma lab_prefix i v : In (Z.of_nat v) (LBp (firstn i E)) -> lab v = idx (LBp (firstn i E)) (Z.of_nat v).
Proof. intros H. unfold lab. fold E. rewrite <- (firstn_skipn i E) at 1. rewrite LBp_app. now apply idx_add_new. Qed.

Lemma relabel_ok : exists vm, foldM (relabel1 ranks me) (seq 0 (2 * m)) ([], anew n, 0, ainit E)
  = Some (vm, ainit LB ++ anew (n - length LB), length LB, ainit (map relab E)) /\ MapInv vm LB.
Proof.
  assert (LE : length E = 2 * m) by apply ends_length.
  destruct (foldM_inv (relabel1 ranks me) (fun pre s => RInv (length pre) s) (seq 0 (2 * m)) ([], anew n, 0, ainit E)) as (s & Es & H).
  - unfold RInv. cbn. rewrite Nat.sub_0_r. split; [intros v k; destruct k; split; discriminate|]. repeat split; auto.
  - intros pre x post (((vm, lu), cur), el) Hs (H1 & H2 & H3 & H4). destruct (seq_pref _ _ _ _ _ Hs) as (-> & Lp). cbn [Nat.add].
    set (i := length pre) in *.
    destruct (nth_error E i) as [out|] eqn:Eo; [|apply nth_error_None in Eo; lia].
    assert (Esk : skipn i E = out :: skipn (S i) E).
    { clear - Eo. revert Eo. generalize E as l, i as j. induction l as [|a l IH]; intros [|j] H; cbn in *; try discriminate; auto. inversion H; auto. }
    assert (Ef : firstn (S i) E = firstn i E ++ [out]) by (now apply firstn_S_nth).
    assert (Lf : length (firstn i E) = i) by (rewrite firstn_length; lia).
    assert (Lm : length (ainit (map relab (firstn i E))) = i) by (rewrite ainit_length, map_length; auto).
    assert (Ga : aget el i = Some out).
    { rewrite H4. replace i with (length (ainit (map relab (firstn i E))) + 0) at 3 by lia. rewrite aget_app_r, Esk. reflexivity. }
    assert (Ls : length (pre ++ [i]) = S i) by (rewrite app_length; cbn; unfold i; lia).
    assert (Hout : out < length ranks) by (apply Hin; eapply nth_error_In; eauto).
    assert (Lel : length el = 2 * m).
    { rewrite H4, app_length, Lm, ainit_length, skipn_length. lia. }
    assert (Hset : forall y, relab out = y -> upd el i (Some y) = ainit (map relab (firstn (S i) E)) ++ ainit (skipn (S i) E)).
    { intros y Hy. rewrite H4, Esk. replace i with (length (ainit (map relab (firstn i E))) + 0) at 3 by lia. rewrite upd_app_r. cbn [upd ainit map].
      rewrite Ef, map_app. unfold ainit. rewrite map_app, <- app_assoc. cbn. now rewrite Hy. }
    unfold relabel1. rewrite Ga. cbn [obind].
    destruct (nth_error ranks out) as [rk|] eqn:Erk; [|apply nth_error_None in Erk; lia]. cbn [obind].
    destruct (Z.eqb rk me) eqn:Eme; cbn [negb].
    + assert (Hl : isloc out = true) by (unfold isloc; now rewrite Erk).
      assert (EL : LBp (firstn (S i) E) = add1 (LBp (firstn i E)) (Z.of_nat out)).
      { rewrite Ef, LBp_app. unfold locs. cbn [filter]. rewrite Hl. reflexivity. }
      destruct (in_dec Z.eq_dec (Z.of_nat out) (LBp (firstn i E))) as [I|I].
      * rewrite (MapInv_find _ _ _ H1 I (LBp_nodup _)). rewrite aset_some by lia. cbn [obind].
        eexists; split; [reflexivity|]. unfold RInv. rewrite Ls, EL. unfold add1. rewrite (proj2 (memZ_In _ _) I).
        repeat split; auto; try apply H1. apply Hset. unfold relab. rewrite Hl. now apply lab_prefix.
      * rewrite (MapInv_none _ _ _ H1 I).
        assert (EL2 : LBp (firstn (S i) E) = LBp (firstn i E) ++ [Z.of_nat out]).
        { rewrite EL. unfold add1. destruct (memZ (Z.of_nat out) (LBp (firstn i E))) eqn:M; auto. apply memZ_In in M. tauto. }
        assert (Lc : length (LBp (firstn i E)) < n).
        { assert (length (LBp (firstn (S i) E)) <= n). { apply labels_le; auto. intros v Hv. apply Hin. fold E. rewrite <- (firstn_skipn (S i) E). apply in_app_iff; auto. }
          rewrite EL2, app_length in H. cbn in H. lia. }
        assert (Ll : length lu = n). { rewrite H2, app_length, ainit_length, anew_length. lia. }
        rewrite H3. rewrite aset_some by lia. cbn [obind]. rewrite aset_some by lia. cbn [obind].
        eexists; split; [reflexivity|]. unfold RInv. rewrite Ls, EL2. split; [now apply MapInv_snoc|]. split; [|split].
        -- rewrite H2. replace (n - length (LBp (firstn i E))) with (S (n - length (LBp (firstn i E) ++ [Z.of_nat out]))) by (rewrite app_length; cbn; lia).
           apply snoc_upd.
        -- rewrite app_length. cbn. reflexivity.
        -- apply Hset. unfold relab. rewrite Hl. rewrite (lab_prefix (S i)) by (rewrite EL2; apply in_app_iff; right; left; auto).
           rewrite EL2. now apply idx_app_new.
    + assert (Hl : isloc out = false) by (unfold isloc; now rewrite Erk).
      eexists; split; [reflexivity|]. unfold RInv. rewrite Ls.
      assert (EL : LBp (firstn (S i) E) = LBp (firstn i E)).
      { rewrite Ef, LBp_app. unfold locs. cbn [filter]. rewrite Hl. reflexivity. }
      rewrite EL. repeat split; auto; try apply H1. rewrite <- (Hset out) by (unfold relab; now rewrite Hl).
      clear - H4 Ga Lel Lp. apply nth_error_ext. intros j. destruct (Nat.eq_dec i j) as [<-|Ne].
      * rewrite nth_error_upd_eq by lia. unfold aget in Ga. destruct (nth_error el i) as [[?|]|]; congruence.
      * now rewrite nth_error_upd_neq.
  - destruct s as (((vm, lu), cur), el). unfold RInv in H. rewrite seq_length, firstn_all2, skipn_all2 in H by lia.
    destruct H as (H1 & H2 & H3 & H4). exists vm. cbn [ainit map] in H4. rewrite app_nil_r in H4. subst. auto.
Qed.

(** the rows *)
Definition rows : list (nat * nat) := map (fun e => (lab (fst e), relab (snd e))) es.
Lemma lab_lt v : In v E -> isloc v = true -> lab v < length LB.
Proof. intros H H'. apply idx_lt. apply in_LBp. eauto. Qed.
Lemma src_in e : In e es -> In (fst e) E /\ In (snd e) E.
Proof. intros H. unfold E, ends. split; apply in_flat_map; exists e; cbn; auto. Qed.
Lemma rows_lt p : In p rows -> fst p < n.
Proof. unfold rows. intros H. apply in_map_iff in H as (e & <- & He). cbn [fst]. pose proof LB_le.
  assert (lab (fst e) < length LB) by (apply lab_lt; [apply src_in, He|now apply Hsrc]). lia. Qed.
Lemma el_src k e : nth_error es k = Some e -> aget (ainit (map relab E)) (2 * k) = Some (lab (fst e)) /\ aget (ainit (map relab E)) (2 * k + 1) = Some (relab (snd e)).
Proof.
  intros H. destruct (ends_even _ _ _ H) as (H1 & H2). rewrite !aget_ainit, !nth_error_map. unfold E. rewrite H1, H2. cbn. split; auto.
  unfold relab. rewrite Hsrc; auto. eapply nth_error_In; eauto.
Qed.

Lemma rows_firstn k e : nth_error es k = Some e -> firstn (S k) rows = firstn k rows ++ [(lab (fst e), relab (snd e))].
Proof. intros H. apply firstn_S_nth. unfold rows. now rewrite nth_error_map, H. Qed.
Lemma rows_len : length rows = m.
Proof. unfold rows. now rewrite map_length. Qed.

Lemma count_ok : exists tc, count_sources n m (ainit (map relab E)) = Some tc /\ length tc = n /\ forall u, u < n -> aget tc u = Some (cnt_of u rows).
Proof.
  unfold count_sources.
  destruct (foldM_inv (fun (tc : arr nat) k => u <- aget (ainit (map relab E)) (2 * k) ;; c <- aget tc u ;; aset tc u (c + 1))
    (fun pre (tc : arr nat) => length tc = n /\ forall u, u < n -> aget tc u = Some (cnt_of u (firstn (length pre) rows))) (seq 0 m) (ainit (repeat 0 n))) as (tc & Et & H).
  - split; [now rewrite ainit_length, repeat_length|]. intros u Hu. rewrite aget_ainit, nth_error_repeat_lt by auto. reflexivity.
  - intros pre x post tc Hs (L & H). destruct (seq_pref _ _ _ _ _ Hs) as (-> & Lp). cbn [Nat.add].
    destruct (nth_error es (length pre)) as [e|] eqn:Ee; [|apply nth_error_None in Ee; unfold m in Lp; lia].
    rewrite (proj1 (el_src _ _ Ee)). cbn [obind].
    assert (Hlt : lab (fst e) < n). { apply (rows_lt (lab (fst e), relab (snd e))). unfold rows. apply in_map_iff. exists e. split; auto. eapply nth_error_In; eauto. }
    rewrite H by auto. cbn [obind]. rewrite aset_some by lia. eexists; split; [reflexivity|]. split; [now rewrite upd_length|].
    intros u Hu.
    replace (firstn (length (pre ++ [length pre])) rows) with (firstn (length pre) rows ++ [(lab (fst e), relab (snd e))])
      by (rewrite app_length; cbn [length]; rewrite Nat.add_1_r; symmetry; now apply rows_firstn).
    destruct (Nat.eq_dec (lab (fst e)) u) as [<-|Ne].
    + rewrite aget_upd_eq by lia. now rewrite cnt_of_snoc_eq.
    + rewrite aget_upd_neq by auto. rewrite H by auto. now rewrite cnt_of_snoc_neq by auto.
  - exists tc. split; auto. rewrite seq_length, firstn_all2 in H by (rewrite rows_len; lia). exact H.
Qed.

Lemma cnt_firstn k u : cnt_of u (firstn k rows) <= cnt_of u rows.
Proof. rewrite <- (firstn_skipn k rows) at 2. rewrite cnt_of_app. lia. Qed.

Lemma fill_ok deg : length deg = n + 1 -> (forall k, k <= n -> aget deg k = Some (off rows k)) ->
  fill_edges n m (ainit (map relab E)) deg = Some (ainit (concat (map (fun u => vals_of u rows) (seq 0 n)))).
Proof.
  intros Ld Hd. unfold fill_edges.
  destruct (foldM_inv (fun (s : arr nat * arr nat) k => u <- aget (ainit (map relab E)) (2 * k) ;; x <- aget (ainit (map relab E)) (2 * k + 1) ;; push_row s u x)
    (fun pre s => FillInv n rows (firstn (length pre) rows) s) (seq 0 m) (anew m, firstn n deg)) as (s & Es & H).
  - cbn [length firstn]. rewrite <- rows_len, <- (off_total rows n rows_lt). apply fill_init.
    + rewrite firstn_length. lia.
    + intros u Hu. rewrite <- Hd by lia. rewrite <- (firstn_skipn n deg) at 2. rewrite aget_app_l; auto. rewrite firstn_length. lia.
  - intros pre x post s Hs H. destruct (seq_pref _ _ _ _ _ Hs) as (-> & Lp). cbn [Nat.add].
    destruct (nth_error es (length pre)) as [e|] eqn:Ee; [|apply nth_error_None in Ee; unfold m in Lp; lia].
    rewrite (proj1 (el_src _ _ Ee)), (proj2 (el_src _ _ Ee)). cbn [obind].
    replace (firstn (length (pre ++ [length pre])) rows) with (firstn (length pre) rows ++ [(lab (fst e), relab (snd e))])
      by (rewrite app_length; cbn [length]; rewrite Nat.add_1_r; symmetry; now apply rows_firstn).
    apply fill_step; auto.
    + apply (rows_lt (lab (fst e), relab (snd e))). unfold rows. apply in_map_iff. exists e. split; auto. eapply nth_error_In; eauto.
    + intros w. apply cnt_firstn.
    + pose proof (cnt_firstn (S (length pre)) (lab (fst e))) as C. rewrite (rows_firstn _ _ Ee), cnt_of_snoc_eq in C. lia.
  - rewrite seq_length, firstn_all2 in H by (rewrite rows_len; lia). cbv beta in Es. rewrite Es. cbn [obind]. destruct s as (tmp, tc).
    apply fill_done in H. cbn [fst] in H. now rewrite H.
Qed.

(** the ghost pass *)
Let T : list nat := concat (map (fun u => vals_of u rows) (seq 0 n)).
Definition NVp (l : list nat) : list Z := skipn (length LB) (add_new LB (map Z.of_nat l)).
Lemma NVp_all l : add_new LB (map Z.of_nat l) = LB ++ NVp l.
Proof. unfold NVp. destruct (add_new_ext LB (map Z.of_nat l)) as (x & ->). now rewrite skipn_app_exact. Qed.
Lemma all_nodup l : NoDup (LB ++ NVp l).
Proof. rewrite <- NVp_all. apply add_new_NoDup, LBp_nodup. Qed.
Lemma NVp_snoc l x : LB ++ NVp (l ++ [x]) = add1 (LB ++ NVp l) (Z.of_nat x).
Proof. rewrite <- !NVp_all, map_app, add_new_app. reflexivity. Qed.
Definition GMap (vm : zmap nat) (nv : list Z) : Prop :=
  forall v k, zfind vm v = Some k <-> nth_error LB k = Some v \/ (n <= k /\ nth_error nv (k - n) = Some v).
(** position given to the id [x] found in a row *)
Definition conv (x : nat) : nat :=
  if memZ (Z.of_nat x) LB then x else n + (idx (LB ++ NVp T) (Z.of_nat x) - length LB).
Definition GhI (i : nat) (s : zmap nat * arr nat * nat * list nat) : Prop :=
  let '(vm, el, cur, nv) := s in
  GMap vm (NVp (firstn i T)) /\ el = ainit (map conv (firstn i T)) ++ ainit (skipn i T) /\
  map Z.of_nat nv = NVp (firstn i T) /\ cur = n + length nv.

Lemma T_len : length T = m.
Proof.
  unfold T. rewrite length_concat, map_map. change (nsum (map (fun u => cnt_of u rows) (seq 0 n)) = m). fold (off rows n).
  rewrite off_total by apply rows_lt. apply rows_len.
Qed.

Lemma GMap_lb vm nv v : GMap vm nv -> In v LB -> zfind vm v = Some (idx LB v).
Proof. intros H I. apply H. left. now apply idx_nth. Qed.
Lemma GMap_none vm nv v : GMap vm nv -> ~ In v (LB ++ nv) -> zfind vm v = None.
Proof. intros H I. destruct (zfind vm v) eqn:Ez; auto. apply H in Ez as [Ez|(_ & Ez)]; apply nth_error_In in Ez; exfalso; apply I, in_app_iff; auto. Qed.
Lemma GMap_nv vm nv v : GMap vm nv -> In v nv -> zfind vm v = Some (n + idx nv v).
Proof. intros H I. apply H. right. split; [lia|]. replace (n + idx nv v - n) with (idx nv v) by lia. now apply idx_nth. Qed.
Lemma GMap_snoc vm nv v : GMap vm nv -> ~ In v (LB ++ nv) -> GMap (zset vm v (n + length nv)) (nv ++ [v]).
Proof.
  intros H I w k. pose proof LB_le as HLE. simpl. destruct (Z.eqb_spec w v) as [->|Ne].
  - split; intros Ek.
    + inversion Ek; subst. right. split; [lia|]. replace (n + length nv - n) with (length nv) by lia. rewrite nth_error_app2, Nat.sub_diag; auto.
    + destruct Ek as [Ek|(Hk & Ek)].
      * apply nth_error_In in Ek. exfalso; apply I, in_app_iff; auto.
      * destruct (Nat.lt_ge_cases (k - n) (length nv)).
        -- rewrite nth_error_app1 in Ek by auto. apply nth_error_In in Ek. exfalso; apply I, in_app_iff; auto.
        -- assert (k - n < length (nv ++ [v])) by (apply nth_error_Some; congruence). rewrite app_length in *. cbn in *. f_equal. lia.
  - rewrite (H w k). split; intros [Ek|(Hk & Ek)]; auto; right; split; auto.
    + rewrite nth_error_app1; auto. apply nth_error_Some; congruence.
    + destruct (Nat.lt_ge_cases (k - n) (length nv)).
      * now rewrite nth_error_app1 in Ek by auto.
      * rewrite nth_error_app2 in Ek by auto. destruct (k - n - length nv) as [|[|?]]; cbn in Ek; congruence.
Qed.

Lemma idx_app_r (l r : list Z) v : ~ In v l -> idx (l ++ r) v = length l + idx r v.
Proof. induction l as [|a l IH]; intros H; auto. cbn. destruct (Z.eqb_spec v a); [subst; exfalso; apply H; left; auto|].
  f_equal. apply IH. intros I; apply H; right; auto. Qed.
Lemma NVp_ext i : exists q, NVp T = NVp (firstn i T) ++ q.
Proof.
  assert (X : LB ++ NVp T = add_new (LB ++ NVp (firstn i T)) (map Z.of_nat (skipn i T))).
  { rewrite <- !NVp_all, <- add_new_app, <- map_app, firstn_skipn. reflexivity. }
  destruct (add_new_ext (LB ++ NVp (firstn i T)) (map Z.of_nat (skipn i T))) as (q & Hq). rewrite Hq, <- app_assoc in X.
  apply app_inv_head in X. eauto.
Qed.
Lemma conv_nv i x : In (Z.of_nat x) (NVp (firstn i T)) -> conv x = n + idx (NVp (firstn i T)) (Z.of_nat x).
Proof.
  intros I. assert (NL : ~ In (Z.of_nat x) LB).
  { intros J. pose proof (all_nodup (firstn i T)) as ND. apply NoDup_app_iff in ND as (_ & _ & D). eapply D; eauto. }
  unfold conv. destruct (memZ (Z.of_nat x) LB) eqn:M; [apply memZ_In in M; tauto|].
  rewrite idx_app_r by auto. destruct (NVp_ext i) as (q & ->). rewrite idx_app by auto. lia.
Qed.

Lemma ghost_ok vm : MapInv vm LB -> exists vm' nv, foldM (ghost1 n) (seq 0 m) (vm, ainit T, n, [])
  = Some (vm', ainit (map conv T), n + length nv, nv) /\ GMap vm' (NVp T) /\ map Z.of_nat nv = NVp T.
Proof.
  intros HM. pose proof LB_le as HLE. pose proof T_len as LT.
  destruct (foldM_inv (ghost1 n) (fun pre s => GhI (length pre) s) (seq 0 m) (vm, ainit T, n, [])) as (s & Es & H).
  - unfold GhI. cbn [length firstn skipn map ainit app].
    assert (N0 : NVp [] = []) by (unfold NVp; cbn; apply skipn_all).
    split; [|split; [reflexivity|split; [symmetry; exact N0|lia]]].
    intros v k. rewrite N0, (HM v k). split; auto. intros [X|(_ & X)]; auto. destruct (k - n); discriminate.
  - intros pre x post (((vm1, el), cur), nv) Hs (H1 & H2 & H3 & H4). destruct (seq_pref _ _ _ _ _ Hs) as (-> & Lp). cbn [Nat.add].
    set (i := length pre) in *.
    destruct (nth_error T i) as [out|] eqn:Eo; [|apply nth_error_None in Eo; lia].
    assert (Esk : skipn i T = out :: skipn (S i) T).
    { clear - Eo. revert Eo. generalize T as l, i as j. induction l as [|a l IH]; intros [|j] H; cbn in *; try discriminate; auto. inversion H; auto. }
    assert (Ef : firstn (S i) T = firstn i T ++ [out]) by (now apply firstn_S_nth).
    assert (Lf : length (firstn i T) = i) by (rewrite firstn_length; lia).
    assert (Lm : length (ainit (map conv (firstn i T))) = i) by (rewrite ainit_length, map_length; auto).
    assert (Ga : aget el i = Some out).
    { rewrite H2. replace i with (length (ainit (map conv (firstn i T))) + 0) at 3 by lia. rewrite aget_app_r, Esk. reflexivity. }
    assert (Ls : length (pre ++ [i]) = S i) by (rewrite app_length; cbn; unfold i; lia).
    assert (Lel : length el = m).
    { rewrite H2, app_length, Lm, ainit_length, skipn_length. lia. }
    assert (Hset : forall y, conv out = y -> upd el i (Some y) = ainit (map conv (firstn (S i) T)) ++ ainit (skipn (S i) T)).
    { intros y Hy. rewrite H2, Esk. replace i with (length (ainit (map conv (firstn i T))) + 0) at 3 by lia. rewrite upd_app_r. cbn [upd ainit map].
      rewrite Ef, map_app. unfold ainit. rewrite map_app, <- app_assoc. cbn. now rewrite Hy. }
    assert (EN : LB ++ NVp (firstn (S i) T) = add1 (LB ++ NVp (firstn i T)) (Z.of_nat out)) by (rewrite Ef; apply NVp_snoc).
    unfold ghost1. rewrite Ga. cbn [obind].
    destruct (in_dec Z.eq_dec (Z.of_nat out) (LB ++ NVp (firstn i T))) as [I|I].
    + assert (EN' : NVp (firstn (S i) T) = NVp (firstn i T)).
      { unfold add1 in EN. rewrite (proj2 (memZ_In _ _) I) in EN. now apply app_inv_head in EN. }
      apply in_app_iff in I as [I|I].
      * rewrite (GMap_lb _ _ _ H1 I). assert (idx LB (Z.of_nat out) < length LB) by (now apply idx_lt).
        destruct (Nat.leb_spec n (idx LB (Z.of_nat out))); [lia|]. eexists; split; [reflexivity|]. unfold GhI. rewrite Ls, EN'.
        repeat split; auto; try apply H1. rewrite <- (Hset out) by (unfold conv; now rewrite (proj2 (memZ_In _ _) I)).
        clear - H2 Ga Lel Lp. apply nth_error_ext. intros j. destruct (Nat.eq_dec i j) as [<-|Ne].
        -- rewrite nth_error_upd_eq by lia. unfold aget in Ga. destruct (nth_error el i) as [[?|]|]; congruence.
        -- now rewrite nth_error_upd_neq.
      * rewrite (GMap_nv _ _ _ H1 I). destruct (Nat.leb_spec n (n + idx (NVp (firstn i T)) (Z.of_nat out))); [|lia].
        rewrite aset_some by lia. cbn [obind]. eexists; split; [reflexivity|]. unfold GhI. rewrite Ls, EN'.
        repeat split; auto; try apply H1. apply Hset. now apply conv_nv.
    + rewrite (GMap_none _ _ _ H1 I). rewrite aset_some by lia. cbn [obind].
      assert (EN' : NVp (firstn (S i) T) = NVp (firstn i T) ++ [Z.of_nat out]).
      { unfold add1 in EN. destruct (memZ (Z.of_nat out) (LB ++ NVp (firstn i T))) eqn:M; [apply memZ_In in M; tauto|].
        rewrite <- app_assoc in EN. now apply app_inv_head in EN. }
      assert (Ln : length nv = length (NVp (firstn i T))) by (rewrite <- H3; now rewrite map_length).
      eexists; split; [reflexivity|]. unfold GhI. rewrite Ls, EN'. split; [|split; [|split]].
      * rewrite H4, Ln. now apply GMap_snoc.
      * apply Hset. rewrite (conv_nv (S i)) by (rewrite EN'; apply in_app_iff; right; left; auto).
        rewrite EN', idx_app_new by (intros J; apply I, in_app_iff; auto). lia.
      * rewrite map_app, H3. reflexivity.
      * rewrite app_length. cbn. lia.
  - destruct s as (((vm1, el), cur), nv). unfold GhI in H. rewrite seq_length, firstn_all2, skipn_all2 in H by lia.
    destruct H as (H1 & H2 & H3 & H4). exists vm1, nv. cbn [ainit map] in H2. rewrite app_nil_r in H2. subst el cur. auto.
Qed.

Lemma T_ids x : In x T -> exists d, In d E /\ x = relab d.
Proof.
  unfold T. intros H. apply in_concat in H as (r & Hr & Hx). apply in_map_iff in Hr as (u & <- & _).
  unfold vals_of in Hx. apply in_map_iff in Hx as ((a, b) & <- & Hp). apply filter_In in Hp as (Hp & _).
  unfold rows in Hp. apply in_map_iff in Hp as (e & Ee & He). inversion Ee; subst. exists (snd e). split; [apply src_in, He|reflexivity].
Qed.
Lemma relab_lt d : In d E -> relab d < length ranks.
Proof.
  intros H. unfold relab. destruct (isloc d) eqn:L; [|now apply Hin].
  assert (lab d < length LB) by (now apply lab_lt). pose proof LB_le. rewrite <- nlocal in H1.
  assert (length (filter isloc (seq 0 (length ranks))) <= length (seq 0 (length ranks))).
  { clear. induction (seq 0 (length ranks)) as [|a l IH]; cbn; [lia|]. destruct (isloc a); cbn; lia. }
  rewrite seq_length in H2. lia.
Qed.

Lemma write_all A (nv : list nat) (f : nat -> option A) (h : nat -> A) : (forall v, In v nv -> f v = Some (h v)) ->
  foldM (fun (a : arr A) i => v <- nth_error nv i ;; o <- f v ;; aset a i o) (seq 0 (length nv)) (anew (length nv)) = Some (ainit (map h nv)).
Proof.
  intros Hf. destruct (foldM_inv (fun (a : arr A) i => v <- nth_error nv i ;; o <- f v ;; aset a i o)
    (fun pre a => a = ainit (map h (firstn (length pre) nv)) ++ anew (length nv - length pre)) (seq 0 (length nv)) (anew (length nv))) as (a & Ea & H).
  - cbn. now rewrite Nat.sub_0_r.
  - intros pre x post a Hs ->. destruct (seq_pref _ _ _ _ _ Hs) as (-> & Lp). cbn [Nat.add].
    destruct (nth_error nv (length pre)) as [v|] eqn:Ev; [|apply nth_error_None in Ev; lia]. cbn [obind].
    rewrite Hf by (eapply nth_error_In; eauto). cbn [obind].
    assert (Lf : length (map h (firstn (length pre) nv)) = length pre) by (rewrite map_length, firstn_length; lia).
    rewrite aset_some by (rewrite app_length, ainit_length, anew_length, Lf; lia). eexists; split; [reflexivity|].
    rewrite app_length. cbn [length]. replace (length nv - length pre) with (S (length nv - (length pre + 1))) by lia.
    rewrite <- Lf at 3. rewrite snoc_upd. f_equal. rewrite Nat.add_1_r, (firstn_S_nth _ _ _ _ Ev), map_app. reflexivity.
  - rewrite Ea, H, seq_length, firstn_all, Nat.sub_diag. cbn. now rewrite app_nil_r.
Qed.

Theorem csr_ok : exists g ed nv, create_dist_csr ranks me m (ainit E) = Some g /\ hyper g = false /\ self g = me /\ nlv g = n /\
  lunmap g = ainit LB ++ anew (n - length LB) /\ lwgts g = ainit (repeat 1%Z n) /\
  map Z.of_nat nv = NVp T /\ ngv g = length nv /\ gunmap g = ainit (NVp T) /\
  owners g = ainit (map (fun v => nth v ranks 0%Z) nv) /\ GMap (vmap g) (NVp T) /\
  types g = [ed] /\ (forall k, k <= n -> aget (e_deg ed) k = Some (off rows k)) /\ e_list ed = ainit (map conv T) /\
  e_num ed = m /\ e_wgts ed = ainit (repeat 1%Z m).
Proof.
  unfold create_dist_csr. fold n. destruct relabel_ok as (vm & Er & HM). rewrite Er. cbn [obind].
  destruct count_ok as (tc & Et & Lt & Ht). rewrite Et. cbn [obind].
  destruct (offsets_ok n tc (fun u => cnt_of u rows) Ht) as (deg & Ed & Ld & Hd). rewrite Ed. cbn [obind].
  rewrite (fill_ok deg Ld Hd). cbn [obind]. fold T.
  destruct (ghost_ok vm HM) as (vm' & nv & Eg & HG & Hnv). rewrite Eg. cbn [obind].
  replace (n + length nv - n) with (length nv) by lia.
  rewrite (write_all Z nv (fun v => nth_error ranks v) (fun v => nth v ranks 0%Z)).
  2:{ intros v Hv. apply nth_error_nth'. assert (I : In (Z.of_nat v) (NVp T)) by (rewrite <- Hnv; now apply in_map).
      assert (I2 : In (Z.of_nat v) (add_new LB (map Z.of_nat T))) by (rewrite NVp_all; apply in_app_iff; auto).
      apply add_new_sub in I2 as [I2|I2].
      - pose proof (all_nodup T) as ND. apply NoDup_app_iff in ND as (_ & _ & D). exfalso; eapply D; eauto.
      - apply in_map_iff in I2 as (x & Ex & Hx). apply Nat2Z.inj in Ex. subst x. apply T_ids in Hx as (d & Hd1 & ->). now apply relab_lt. }
  cbn [obind].
  pose proof (write_all Z nv (fun v => Some (Z.of_nat v)) Z.of_nat (fun v _ => eq_refl)) as W. cbn [obind] in W.
  replace (foldM (fun (a : arr Z) i => v <- nth_error nv i ;; aset a i (Z.of_nat v)) (seq 0 (length nv)) (anew (length nv))) with (Some (ainit (map Z.of_nat nv))) by (symmetry; exact W).
  cbn [obind]. do 2 eexists. exists nv. split; [reflexivity|]. cbn [hyper self nlv lunmap lwgts ngv gunmap owners vmap types].
  rewrite Hnv. repeat split; auto; try apply HG.
Qed.
End Csr.
