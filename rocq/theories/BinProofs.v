(** The slices of the file, the owners of the vertices and the exchange of the edges. *)
From Verif Require Import Base GraphModel CsrProofs ConstructProofs AccessProofs BinModel.

(** ** slices *)
Lemma firstn_skipn_step A (l : list A) a b : firstn (a + b) l = firstn a l ++ firstn b (skipn a l).
Proof. revert l; induction a as [|a IH]; intros [|x l]; simpl; auto. - now destruct b. - now rewrite IH. Qed.

Lemma chunks A (l : list A) q k : concat (map (fun r => firstn q (skipn (r * q) l)) (seq 0 k)) = firstn (k * q) l.
Proof.
  induction k as [|k IH]; [reflexivity|]. rewrite seq_snoc, map_app, concat_app, IH. cbn [map concat Nat.add].
  rewrite app_nil_r. replace (S k * q) with (k * q + q) by lia. symmetry. apply firstn_skipn_step.
Qed.

Lemma slices_ok file P : 0 < P -> concat (map (read_slice file P) (seq 0 P)) = file.
Proof.
  intros HP. destruct P as [|P]; [lia|]. rewrite seq_snoc, map_app, concat_app. cbn [map concat Nat.add]. rewrite app_nil_r.
  set (q := length file / S P).
  assert (E : map (read_slice file (S P)) (seq 0 P) = map (fun r => firstn q (skipn (r * q) file)) (seq 0 P)).
  { apply map_ext_in. intros r Hr. apply in_seq in Hr. unfold read_slice, slice_end, slice_start.
    destruct (Nat.eqb_spec r (S P - 1)); [lia|]. fold q. f_equal. nia. }
  rewrite E, chunks. unfold read_slice, slice_end, slice_start. destruct (Nat.eqb_spec P (S P - 1)); [|lia]. fold q.
  rewrite (firstn_all2 (skipn (P * q) file)) by (rewrite skipn_length; lia). apply firstn_skipn.
Qed.

(** ** ids and owners *)
Definition ends (es : list (nat * nat)) : list nat := flat_map (fun e => [fst e; snd e]) es.

Lemma fold_max l m : let k := fold_left (fun m x => if m <? x then x else m) l m in m <= k /\ forall x, In x l -> x <= k.
Proof.
  revert m; induction l as [|a l IH]; intros m; cbn [fold_left].
  - split; auto. intros x [].
  - destruct (IH (if m <? a then a else m)) as (H1 & H2). cbv zeta in *.
    destruct (Nat.ltb_spec m a).
    + split; [lia|]. intros x [->|Hx]; auto.
    + split; auto. intros x [->|Hx]; [lia|auto].
Qed.

Lemma ends_lt (slices : list (list (nat * nat))) v : In v (ends (concat slices)) -> v < num_global slices.
Proof.
  unfold num_global. induction slices as [|es r IH]; [intros []|]. cbn [concat map fold_right].
  unfold ends. rewrite flat_map_app. intros H. apply in_app_iff in H as [H|H].
  - destruct (fold_max (flat_map (fun e => [fst e; snd e]) es) 0) as (_ & G). apply G in H. unfold local_max. lia.
  - apply IH in H. lia.
Qed.

Lemma num_global_concat slices slices' : concat slices = concat slices' -> num_global slices = num_global slices'.
Proof.
  assert (G : forall sl, num_global sl = fold_left Nat.max (ends (concat sl)) 0 + 1).
  { intros sl. unfold num_global. f_equal.
    assert (L : forall l m, fold_left (fun m x => if m <? x then x else m) l m = Nat.max m (fold_left Nat.max l 0)).
    { induction l as [|a l IH]; intros m; cbn [fold_left]; [lia|]. rewrite IH.
      assert (M : forall l m, fold_left Nat.max l m = Nat.max m (fold_left Nat.max l 0)).
      { clear. induction l as [|a l IH]; intros m; cbn [fold_left]; [lia|]. rewrite (IH (Nat.max m a)), (IH (Nat.max 0 a)). lia. }
      rewrite (M l (Nat.max 0 a)). destruct (Nat.ltb_spec m a); lia. }
    assert (M : forall l m, fold_left Nat.max l m = Nat.max m (fold_left Nat.max l 0)).
    { clear. induction l as [|a l IH]; intros m; cbn [fold_left]; [lia|]. rewrite (IH (Nat.max m a)), (IH (Nat.max 0 a)). lia. }
    induction sl as [|es r IH]; [reflexivity|]. cbn [concat map fold_right]. rewrite IH. unfold ends.
    rewrite flat_map_app, fold_left_app, (M (flat_map _ (concat r)) (fold_left _ _ _)). unfold local_max. now rewrite L. }
  intros E. now rewrite !G, E.
Qed.

Lemma block_ranks_len N P : length (vert_block_ranks N P) = N.
Proof. unfold vert_block_ranks. now rewrite map_length, seq_length. Qed.
Lemma block_ranks_nth N P v : v < N -> nth_error (vert_block_ranks N P) v = Some (Z.of_nat (v / (N / P + 1))).
Proof. intros H. unfold vert_block_ranks. rewrite nth_error_map, nth_error_seq by auto. reflexivity. Qed.
Lemma block_lt N P v : 0 < P -> v < N -> v / (N / P + 1) < P.
Proof.
  intros HP Hv. apply Nat.div_lt_upper_bound; [lia|].
  pose proof (Nat.mul_succ_div_gt N P ltac:(lia)). nia.
Qed.

(** ** displacements *)
Lemma displs_ok P (counts : arr nat) (c : nat -> nat) : 0 < P ->
  (forall k, k < P -> aget counts k = Some (c k)) ->
  exists d, displs P counts = Some d /\ length d = P /\ forall k, k < P -> aget d k = Some (nsum (map c (seq 0 k))).
Proof.
  intros HP Hc. unfold displs.
  destruct (foldM_inv (fun (d : arr nat) i => a <- aget d (i - 1) ;; c <- aget counts (i - 1) ;; aset d i (a + c))
    (fun pre (d : arr nat) => length d = P /\ forall k, k <= length pre -> k < P -> aget d k = Some (nsum (map c (seq 0 k))))
    (seq 1 (P - 1)) (ainit (repeat 0 P))) as (d & E & L & H).
  - split; [now rewrite ainit_length, repeat_length|]. intros k Hk Hp. assert (k = 0) by (simpl in Hk; lia). subst k.
    rewrite aget_ainit, nth_error_repeat_lt by lia. reflexivity.
  - intros pre x post d Hs (L & H).
    assert (Hx : x = length pre + 1 /\ length pre < P - 1).
    { assert (Lp : length pre < P - 1) by (rewrite <- (seq_length (P - 1) 1), Hs, app_length; simpl; lia).
      assert (E : nth_error (seq 1 (P - 1)) (length pre) = Some x) by (rewrite Hs, nth_error_app2, Nat.sub_diag; auto).
      rewrite nth_error_seq in E by auto. inversion E. lia. }
    destruct Hx as (-> & Lp). replace (length pre + 1 - 1) with (length pre) by lia.
    rewrite H by lia. cbn [obind]. rewrite Hc by lia. cbn [obind]. rewrite aset_some by lia.
    eexists; split; [reflexivity|]. split; [now rewrite upd_length|]. intros k Hk Hp. rewrite app_length in Hk. cbn in Hk.
    destruct (Nat.eq_dec k (length pre + 1)) as [->|Ne].
    + rewrite aget_upd_eq by lia. f_equal. rewrite Nat.add_1_r, seq_snoc, map_app, nsum_app. cbn. lia.
    + rewrite aget_upd_neq by lia. apply H; lia.
  - exists d. split; [exact E|]. split; [exact L|]. intros k Hk. apply H; auto. rewrite seq_length. lia.
Qed.

Lemma total_ok P d counts (c : nat -> nat) : 0 < P -> (forall k, k < P -> aget counts k = Some (c k)) ->
  (forall k, k < P -> aget d k = Some (nsum (map c (seq 0 k)))) -> total P d counts = Some (nsum (map c (seq 0 P))).
Proof.
  intros HP Hc Hd. unfold total. rewrite Hd, Hc by lia. cbn [obind]. f_equal.
  replace P with (S (P - 1)) at 3 by lia. rewrite seq_snoc, map_app, nsum_app. cbn. lia.
Qed.

(** ** the send buffer *)
Section Out.
Variables (ranks : list Z) (P : nat) (tk : nat -> nat) (es : list (nat * nat)).
Hypothesis HP : 0 < P.
Hypothesis Htk : forall e, In e es -> task_of ranks (fst e) = Some (tk (fst e)) /\ tk (fst e) < P.

Definition sent1 (e : nat * nat) : list (nat * nat) := [(tk (fst e), fst e); (tk (fst e), snd e)].
Definition sent (l : list (nat * nat)) : list (nat * nat) := flat_map sent1 l.

Lemma sent_app a b : sent (a ++ b) = sent a ++ sent b.
Proof. apply flat_map_app. Qed.

Lemma cnt_nil A k : cnt_of k (@nil (nat * A)) = 0.
Proof. reflexivity. Qed.
Lemma cnt_sent1 k e : cnt_of k (sent1 e) = if tk (fst e) =? k then 2 else 0.
Proof. unfold cnt_of, vals_of, sent1. cbn [filter fst]. destruct (tk (fst e) =? k); reflexivity. Qed.

Lemma send_counts_ok : exists sc, send_counts ranks P es = Some sc /\ length sc = P /\ forall k, k < P -> aget sc k = Some (cnt_of k (sent es)).
Proof.
  unfold send_counts.
  destruct (foldM_inv (fun (sc : arr nat) (e : nat * nat) => t <- task_of ranks (fst e) ;; c <- aget sc t ;; aset sc t (c + 2))
    (fun pre (sc : arr nat) => length sc = P /\ forall k, k < P -> aget sc k = Some (cnt_of k (sent pre)))
    es (ainit (repeat 0 P))) as (sc & E & H).
  - split; [now rewrite ainit_length, repeat_length|]. intros k Hk. rewrite aget_ainit, nth_error_repeat_lt by auto. reflexivity.
  - intros pre x post sc Hs (L & H). destruct (Htk x) as (E & Hlt). { rewrite Hs. apply in_elt. }
    rewrite E. cbn [obind]. rewrite H by auto. cbn [obind]. rewrite aset_some by lia.
    eexists; split; [reflexivity|]. split; [now rewrite upd_length|]. intros k Hk.
    rewrite sent_app, cnt_of_app. cbn [sent flat_map]. rewrite app_nil_r, cnt_sent1.
    destruct (Nat.eqb_spec (tk (fst x)) k) as [->|Ne].
    + now rewrite aget_upd_eq by lia.
    + rewrite aget_upd_neq by auto. rewrite H by auto. f_equal. lia.
  - exists sc. auto.
Qed.

Lemma cnt_prefix pre post k : es = pre ++ post -> cnt_of k (sent pre) <= cnt_of k (sent es).
Proof. intros ->. rewrite sent_app, cnt_of_app. lia. Qed.

Lemma make_outbox_ok : exists o, make_outbox ranks P es = Some o /\
  (forall k, k < P -> aget (o_counts o) k = Some (cnt_of k (sent es))) /\
  (forall k, k < P -> aget (o_displs o) k = Some (off (sent es) k)) /\
  o_buf o = ainit (concat (map (fun k => vals_of k (sent es)) (seq 0 P))).
Proof.
  unfold make_outbox. destruct send_counts_ok as (sc & Esc & Lsc & Hsc). rewrite Esc. cbn [obind].
  destruct (displs_ok P sc (fun k => cnt_of k (sent es)) HP Hsc) as (sd & Esd & Lsd & Hsd). rewrite Esd. cbn [obind].
  rewrite (total_ok P sd sc (fun k => cnt_of k (sent es)) HP Hsc Hsd). cbn [obind].
  fold (off (sent es) P).
  destruct (foldM_inv (pack_edge ranks) (fun pre s => FillInv P (sent es) (sent pre) s) es (anew (off (sent es) P), sd)) as (s & E & H).
  - apply fill_init; auto.
  - intros pre x post s Hs H. destruct (Htk x) as (E & Hlt). { rewrite Hs. apply in_elt. }
    unfold pack_edge. rewrite E. cbn [obind].
    assert (C : forall k, cnt_of k (sent es) = cnt_of k (sent pre) + (if tk (fst x) =? k then 2 else 0) + cnt_of k (sent post)).
    { intros k. rewrite Hs, sent_app. change (sent (x :: post)) with (sent1 x ++ sent post). rewrite !cnt_of_app, cnt_sent1. lia. }
    destruct (fill_step P (sent es) (sent pre) (tk (fst x)) (fst x) s H Hlt) as (s1 & E1 & H1).
    { intros w. rewrite (C w). lia. } { rewrite (C (tk (fst x))), Nat.eqb_refl. lia. }
    rewrite E1. cbn [obind].
    destruct (fill_step P (sent es) (sent pre ++ [(tk (fst x), fst x)]) (tk (fst x)) (snd x) s1 H1 Hlt) as (s2 & E2 & H2).
    { intros w. rewrite (C w), cnt_of_app. unfold cnt_of at 2. unfold vals_of. cbn [filter fst]. destruct (tk (fst x) =? w); cbn; lia. }
    { rewrite (C (tk (fst x))), Nat.eqb_refl, cnt_of_snoc_eq. lia. }
    exists s2. split; auto. rewrite sent_app. unfold sent at 3. cbn [flat_map]. rewrite app_nil_r. unfold sent1. now rewrite <- app_assoc in H2.
  - rewrite E. cbn [obind]. destruct s as (buf, tc). apply fill_done in H. cbn [fst] in H.
    eexists. split; [reflexivity|]. cbn [o_counts o_displs o_buf]. auto.
Qed.

Lemma vals_sent k l : vals_of k (sent l) = ends (filter (fun e => tk (fst e) =? k) l).
Proof.
  induction l as [|e l IH]; [reflexivity|]. change (sent (e :: l)) with (sent1 e ++ sent l). rewrite vals_of_app, IH.
  cbn [filter]. unfold vals_of at 1, sent1. cbn [filter fst]. destruct (tk (fst e) =? k); reflexivity.
Qed.
End Out.

(** ** the exchange *)
Lemma copy_block (buf : arr nat) d base c pre m (xs : list nat) :
  length xs = c -> base = length pre -> (forall k x, nth_error xs k = Some x -> aget buf (d + k) = Some x) ->
  foldM (fun (a : arr nat) k => x <- aget buf (d + k) ;; aset a (base + k) x) (seq 0 c) (ainit pre ++ anew (c + m))
  = Some (ainit (pre ++ xs) ++ anew m).
Proof.
  intros Hc -> Hx.
  destruct (foldM_inv (fun (a : arr nat) k => x <- aget buf (d + k) ;; aset a (length pre + k) x)
    (fun p a => a = ainit (pre ++ firstn (length p) xs) ++ anew (c - length p + m)) (seq 0 c) (ainit pre ++ anew (c + m))) as (a & E & H).
  - cbn. now rewrite app_nil_r, Nat.sub_0_r.
  - intros p x post a Hs ->.
    assert (Lp : length p < c) by (rewrite <- (seq_length c 0), Hs, app_length; simpl; lia).
    assert (Ex : nth_error (seq 0 c) (length p) = Some x) by (rewrite Hs, nth_error_app2, Nat.sub_diag; auto).
    rewrite nth_error_seq in Ex by auto. inversion Ex. cbn [Nat.add]. subst x.
    destruct (nth_error xs (length p)) as [y|] eqn:Ey; [|apply nth_error_None in Ey; lia].
    rewrite (Hx _ _ Ey). cbn [obind].
    assert (Lf : length (firstn (length p) xs) = length p) by (rewrite firstn_length; lia).
    rewrite aset_some. 2:{ rewrite app_length, ainit_length, app_length, anew_length, Lf. lia. }
    eexists; split; [reflexivity|]. rewrite app_length. cbn [length]. replace (c - length p + m) with (S (c - (length p + 1) + m)) by lia.
    replace (length pre + length p) with (length (pre ++ firstn (length p) xs)) by (rewrite app_length, Lf; lia).
    rewrite snoc_upd. f_equal. unfold ainit. f_equal. rewrite <- app_assoc. f_equal. rewrite Nat.add_1_r. symmetry. now apply firstn_S_nth.
  - rewrite E. f_equal. rewrite H, seq_length, firstn_all2 by lia. now rewrite Nat.sub_diag.
Qed.

Section Exch.
Variables (ranks : list Z) (P : nat) (tk : nat -> nat) (slices : list (list (nat * nat))).
Hypothesis HP : 0 < P.
Hypothesis Hlen : length slices = P.
Hypothesis Htk : forall es e, In es slices -> In e es -> task_of ranks (fst e) = Some (tk (fst e)) /\ tk (fst e) < P.

Lemma exchange_ok : exists outs, mapM (make_outbox ranks P) slices = Some outs /\ length outs = P /\
  forall r, r < P -> exchange outs r = Some (ainit (concat (map (fun es => vals_of r (sent tk es)) slices))).
Proof.
  set (goodbox := fun (es : list (nat * nat)) o =>
    (forall k, k < P -> aget (o_counts o) k = Some (cnt_of k (sent tk es))) /\
    (forall k, k < P -> aget (o_displs o) k = Some (off (sent tk es) k)) /\
    o_buf o = ainit (concat (map (fun k => vals_of k (sent tk es)) (seq 0 P)))).
  assert (G : exists outs, mapM (make_outbox ranks P) slices = Some outs /\ Forall2 goodbox slices outs).
  { clear Hlen. induction slices as [|es sl IH].
    - exists []. split; [reflexivity|constructor].
    - destruct (make_outbox_ok ranks P tk es HP) as (o & E & H1 & H2 & H3). { intros e He. apply (Htk es); auto. left; auto. }
      destruct IH as (outs & E' & F). { intros es' e H H'. apply (Htk es'); auto. right; auto. }
      exists (o :: outs). cbn [mapM]. rewrite E. cbn [obind]. rewrite E'. cbn [obind]. split; [reflexivity|].
      constructor; auto. repeat split; auto. }
  destruct G as (outs & E & F). exists outs. split; [exact E|].
  assert (Lo : length outs = P) by (now rewrite (mapM_length _ _ _ _ _ E)). split; [exact Lo|].
  intros r Hr. unfold exchange. rewrite Lo.
  set (blk := fun es => vals_of r (sent tk es)).
  assert (Ecs : mapM (fun o => aget (o_counts o) r) outs = Some (map (fun es => length (blk es)) slices)).
  { clear - F Hr. induction F as [|es o sl outs (Hc & _) F IH]; [reflexivity|]. cbn [mapM map]. rewrite Hc by auto. cbn [obind].
    rewrite IH. reflexivity. }
  rewrite Ecs. cbn [obind].
  set (cs := map (fun es => length (blk es)) slices) in *.
  set (c := fun k => nth k cs 0).
  assert (Hc : forall k, k < P -> aget (ainit cs) k = Some (c k)).
  { intros k Hk. rewrite aget_ainit. unfold c. apply nth_error_nth'. unfold cs. now rewrite map_length, Hlen. }
  destruct (displs_ok P (ainit cs) c HP Hc) as (rd & Erd & Lrd & Hrd). rewrite Erd. cbn [obind].
  rewrite (total_ok P rd (ainit cs) c HP Hc Hrd). cbn [obind].
  assert (Ecs2 : forall k, k <= P -> nsum (map c (seq 0 k)) = length (concat (map blk (firstn k slices)))).
  { intros k Hk. rewrite length_concat, map_map. fold blk.
    replace (map (fun x => length (blk x)) (firstn k slices)) with (firstn k cs) by (unfold cs; now rewrite firstn_map).
    assert (Lc : length cs = P) by (unfold cs; now rewrite map_length).
    f_equal. apply nth_error_ext. intros i. destruct (Nat.lt_ge_cases i k) as [Hi|Hi].
    - rewrite nth_error_map, nth_error_seq by auto. cbn.
      assert (Ef : nth_error (firstn k cs) i = nth_error cs i).
      { transitivity (nth_error (firstn k cs ++ skipn k cs) i); [|now rewrite firstn_skipn].
        symmetry. apply nth_error_app1. rewrite firstn_length; lia. }
      rewrite Ef. unfold c. symmetry. apply nth_error_nth'. lia.
    - rewrite (proj2 (nth_error_None _ _)) by (rewrite map_length, seq_length; lia). symmetry. apply nth_error_None.
      rewrite firstn_length. lia. }
  rewrite (Ecs2 P) by lia.
  destruct (foldM_inv (recv_block r rd) (fun pre el => el = ainit (concat (map blk (firstn (length pre) slices)))
      ++ anew (length (concat (map blk (skipn (length pre) slices)))))
      (combine (seq 0 P) outs) (anew (length (concat (map blk (firstn P slices)))))) as (el & Eel & Hel).
  - cbn. now rewrite firstn_all2 by lia.
  - intros pre (s, o) post el Hs ->.
    assert (Ln : nth_error (combine (seq 0 P) outs) (length pre) = Some (s, o)) by (rewrite Hs, nth_error_app2, Nat.sub_diag; auto).
    assert (Lp : length pre < P).
    { assert (length pre < length (combine (seq 0 P) outs)) by (apply nth_error_Some; congruence).
      rewrite combine_length, seq_length, Lo in H. lia. }
    assert (Hso : s = length pre /\ nth_error outs (length pre) = Some o).
    { clear - Ln Lp Lo. assert (H : nth_error (seq 0 P) (length pre) = Some s /\ nth_error outs (length pre) = Some o).
      { revert Ln. generalize (seq 0 P) as l1, outs as l2, (length pre) as i. induction l1 as [|a l1 IH]; intros [|b l2] [|i] H; cbn in *; try discriminate.
        - inversion H; auto. - now apply IH. }
      destruct H as (H & H'). rewrite nth_error_seq in H by auto. inversion H. auto. }
    destruct Hso as (-> & Ho).
    destruct (Forall2_nth_r _ _ _ _ _ _ _ F Ho) as (es & Hes & H1 & H2 & H3).
    unfold recv_block. rewrite H1, H2, Hrd by auto. cbn [obind].
    rewrite (Ecs2 (length pre)) by lia.
    assert (Esk : skipn (length pre) slices = es :: skipn (S (length pre)) slices).
    { clear - Hes. revert Hes. generalize (length pre) as k. induction slices as [|a l IH]; intros [|k] H; cbn in *; try discriminate; auto.
      inversion H; auto. }
    rewrite Esk. cbn [map concat]. rewrite (app_length (blk es)).
    eexists. split.
    + apply (copy_block (o_buf o) (off (sent tk es) r) _ (cnt_of r (sent tk es)) _ _ (blk es)).
      * reflexivity. * reflexivity.
      * intros k x Hx. rewrite H3, aget_ainit. unfold off. unfold cnt_of.
        apply (concat_row nat (fun k => vals_of k (sent tk es)) P r k x Hr Hx).
    + rewrite app_length. cbn [length]. rewrite Nat.add_1_r. f_equal. f_equal.
      rewrite (firstn_S_nth _ _ _ _ Hes), map_app, concat_app. cbn [map concat]. now rewrite app_nil_r.
  - rewrite Eel, Hel. f_equal. rewrite combine_length, seq_length, Lo, Nat.min_id.
    rewrite firstn_all2, skipn_all2 by lia. cbn. now rewrite app_nil_r.
Qed.

Lemma received r : concat (map (fun es => vals_of r (sent tk es)) slices) = ends (filter (fun e => tk (fst e) =? r) (concat slices)).
Proof.
  clear. induction slices as [|es sl IH]; [reflexivity|]. cbn [map concat]. rewrite IH, vals_sent, filter_app.
  unfold ends. now rewrite flat_map_app.
Qed.
End Exch.
