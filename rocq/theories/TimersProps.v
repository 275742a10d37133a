(** C51: timers. *)
From Verif Require Import Base TimersModel.

(** add the timers, then perform the updates *)
Definition session (strict : bool) (names : list nat) (ups : list (nat * Z)) : option timers :=
  t <- foldM (tm_add strict) names tm_new ;; foldM (tm_update strict) ups t.
(** what was recorded for a name *)
Definition total (n : nat) (ups : list (nat * Z)) : Z := zsum (map snd (filter (fun u => fst u =? n) ups)).
Definition calls (n : nat) (ups : list (nat * Z)) : Z := Z.of_nat (length (filter (fun u => fst u =? n) ups)).

(** By the rules of the language every first addTimer is undefined: the index is the number of names plus one, one past the
    cell just pushed. *)
Theorem C51_in_range_refuted : forall name names, foldM (tm_add true) (name :: names) tm_new = None.
Proof. reflexivity. Qed.
Print Assumptions C51_in_range_refuted.

(** invariant after adding k distinct names *)
Lemma find_enum (l : list nat) i n : NoDup l -> nth_error l i = Some n ->
  forall k, tm_find (rev (combine l (seq k (length l)))) n = Some (k + i).
Proof.
  revert i n. induction l as [|a l IH] using rev_ind; intros i n ND H k; [destruct i; discriminate|].
  rewrite app_length; cbn [length]. rewrite Nat.add_1_r, seq_S.
  assert (C : combine (l ++ [a]) (seq k (length l) ++ [k + length l]) = combine l (seq k (length l)) ++ [(a, k + length l)]).
  { clear. revert k; induction l as [|x l IH]; intros k; cbn; [rewrite Nat.add_0_r; reflexivity|]. f_equal. replace (k + S (length l)) with (S k + length l) by lia. apply IH. }
  rewrite C, rev_app_distr; cbn [rev app tm_find].
  apply NoDup_remove in ND; destruct ND as [ND NI]; rewrite app_nil_r in ND, NI.
  destruct (Nat.eqb_spec a n) as [->|N].
  - destruct (Nat.lt_ge_cases i (length l)) as [L|L].
    + rewrite nth_error_app1 in H by exact L. apply nth_error_In in H. contradiction.
    + assert (i < length (l ++ [n])) by (apply nth_error_Some; congruence). rewrite app_length in H0; cbn in H0. f_equal; lia.
  - destruct (Nat.lt_ge_cases i (length l)) as [L|L].
    + rewrite nth_error_app1 in H by exact L. apply IH; auto.
    + rewrite nth_error_app2 in H by exact L. destruct (i - length l) as [|[|m]]; cbn in H; congruence.
Qed.

Lemma combine_fst (l : list nat) k : map fst (combine l (seq k (length l))) = l.
Proof. revert k; induction l as [|x l IH]; intros k; cbn; [reflexivity|]. f_equal; apply IH. Qed.

Definition adds_state (names : list nat) (t : timers) : Prop :=
  let k := length names in
  tm_idx t = rev (combine names (seq 1 k)) /\
  tm_counts t = mkVec (ainit (repeat 0%Z k) ++ anew (16 - k)) k /\
  tm_times t = (match k with 0 => vec_reserve 16 | S _ => mkVec (ainit (repeat 0%Z (k + 1)) ++ anew (16 - (k + 1))) k end).

Lemma aset_app_new (a : arr Z) n x k : length a = n -> 0 < k -> aset (a ++ anew k) n x = Some ((a ++ [Some x]) ++ anew (k - 1)).
Proof.
  intros <- K. unfold aset. rewrite app_length. unfold anew at 1. rewrite repeat_length.
  destruct (Nat.ltb_spec (length a) (length a + k)); [|lia]. f_equal.
  destruct k as [|k]; [lia|]. cbn [Nat.sub]. rewrite Nat.sub_0_r. unfold anew; cbn [repeat].
  rewrite <- app_assoc. cbn [app]. clear. induction a as [|y a IH]; cbn; [reflexivity|]. f_equal; exact IH.
Qed.

Lemma aset_last_new (a : arr Z) n x y k : length a = n -> aset ((a ++ [Some y]) ++ anew k) n x = Some ((a ++ [Some x]) ++ anew k).
Proof.
  intros <-. unfold aset. rewrite !app_length. cbn [length]. destruct (Nat.ltb_spec (length a) (length a + 1 + length (@anew Z k))); [|lia].
  f_equal. rewrite <- !app_assoc. cbn [app]. clear. induction a as [|z a IH]; cbn; [reflexivity|]. f_equal; exact IH.
Qed.

Lemma rep_snoc k : ainit (repeat 0%Z k) ++ [Some 0%Z] = ainit (repeat 0%Z (k + 1)).
Proof. unfold ainit. rewrite repeat_app, map_app. reflexivity. Qed.
Lemma rep_len k : length (ainit (repeat 0%Z k)) = k.
Proof. unfold ainit. rewrite map_length, repeat_length. reflexivity. Qed.

Lemma adds_ok names : NoDup names -> length names <= 15 ->
  exists t, foldM (tm_add false) names tm_new = Some t /\ adds_state names t.
Proof.
  induction names as [|a names IH] using rev_ind; intros ND L.
  - exists tm_new. split; [reflexivity|]. repeat split.
  - apply NoDup_remove in ND; destruct ND as [ND NI]; rewrite app_nil_r in ND, NI.
    rewrite app_length in L; cbn in L. destruct IH as [t [E [H1 [H2 H3]]]]; [auto|lia|].
    rewrite foldM_app, E. cbn [foldM obind]. unfold tm_add.
    assert (SZ : tm_size t = length names).
    { unfold tm_size. rewrite H1, map_rev, combine_fst. rewrite nodup_fixed_point; [apply rev_length|]. apply NoDup_rev; exact ND. }
    rewrite SZ. assert (KK : exists k, k = length names) by eauto. destruct KK as [k KK]. rewrite <- KK in *.
    assert (PC : vec_push (tm_counts t) 0%Z = Some (mkVec (ainit (repeat 0%Z (k + 1)) ++ anew (16 - (k + 1))) (k + 1))).
    { rewrite H2. unfold vec_push; cbn [v_size v_mem]. rewrite app_length, rep_len. unfold anew at 1; rewrite repeat_length.
      destruct (Nat.ltb_spec k (k + (16 - k))); [|lia]. rewrite aset_app_new; [|apply rep_len|lia]. cbn [obind].
      rewrite rep_snoc. replace (16 - k - 1) with (16 - (k + 1)) by lia. replace (S k) with (k + 1) by lia. reflexivity. }
    rewrite PC. cbn [obind].
    assert (PT : exists m, vec_push (tm_times t) 0%Z = Some (mkVec m (k + 1)) /\ vec_set false (mkVec m (k + 1)) (k + 1) 0%Z = Some (mkVec (ainit (repeat 0%Z (k + 1 + 1)) ++ anew (16 - (k + 1 + 1))) (k + 1))).
    { rewrite H3. clear - L. destruct (Nat.eq_dec k 0) as [->|K0].
      - cbn. eexists; split; reflexivity.
      - destruct k as [|k'] eqn:K; [contradiction|]. rewrite <- K in *. unfold vec_push; cbn [v_size v_mem]. rewrite app_length, rep_len. unfold anew at 1; rewrite repeat_length.
        destruct (Nat.ltb_spec k (k + 1 + (16 - (k + 1)))); [|lia].
        rewrite <- rep_snoc. rewrite aset_last_new by apply rep_len. cbn [obind]. eexists. split; [replace (S k) with (k + 1) by lia; reflexivity|].
        unfold vec_set. cbn [andb v_mem v_size]. rewrite aset_app_new; [|rewrite app_length, rep_len; cbn; lia|lia]. cbn [obind].
        rewrite rep_snoc, rep_snoc. replace (16 - (k + 1) - 1) with (16 - (k + 1 + 1)) by lia. reflexivity. }
    destruct PT as [m [P1 P2]]. rewrite P1; cbn [obind]. rewrite P2; cbn [obind].
    eexists; split; [reflexivity|]. unfold adds_state. rewrite app_length; cbn [length]. rewrite <- KK. cbn [tm_idx tm_counts tm_times].
    split; [|split; [reflexivity|]].
    + rewrite H1. replace (k + 1) with (S k) at 2 by lia. rewrite seq_S.
      assert (C : forall b (l : list nat), combine (l ++ [a]) (seq b (length l) ++ [b + length l]) = combine l (seq b (length l)) ++ [(a, b + length l)]).
      { clear. intros b l; revert b; induction l as [|x l IH]; intros b; cbn; [rewrite Nat.add_0_r; reflexivity|]. f_equal. replace (b + S (length l)) with (S b + length l) by lia. apply IH. }
      rewrite KK, C, rev_app_distr. cbn [rev app]. f_equal. f_equal. lia.
    + replace (k + 1) with (S k) by lia. reflexivity.
Qed.

(** after the updates: time cell i+1 of name i, count cell i+1 *)
Definition sess_state (names : list nat) (ups : list (nat * Z)) (t : timers) : Prop :=
  tm_idx t = rev (combine names (seq 1 (length names))) /\
  length (v_mem (tm_times t)) = 16 /\ length (v_mem (tm_counts t)) = 16 /\
  (forall i n, nth_error names i = Some n -> aget (v_mem (tm_times t)) (i + 1) = Some (total n ups)) /\
  (forall i n, nth_error names i = Some n -> i + 1 < length names -> aget (v_mem (tm_counts t)) (i + 1) = Some (calls n ups)) /\
  (forall i, length names <= i -> aget (v_mem (tm_counts t)) i = None).

Lemma total_snoc n ups u : total n (ups ++ [u]) = (total n ups + if Nat.eqb (fst u) n then snd u else 0)%Z.
Proof.
  unfold total. rewrite filter_app, map_app. cbn [filter]. destruct (fst u =? n); cbn [map].
  - assert (Z : forall l x, zsum (l ++ [x]) = (zsum l + x)%Z). { clear. induction l; intros; cbn; [lia|]. unfold zsum in *; cbn in *; rewrite IHl; lia. } apply Z.
  - rewrite app_nil_r; lia.
Qed.
Lemma calls_snoc n ups u : calls n (ups ++ [u]) = (calls n ups + if Nat.eqb (fst u) n then 1 else 0)%Z.
Proof. unfold calls. rewrite filter_app, app_length. cbn [filter]. destruct (fst u =? n); cbn [length]; lia. Qed.

Lemma update_ok names ups t u : NoDup names -> length names <= 15 -> sess_state names ups t -> In (fst u) names ->
  exists t', tm_update false t u = Some t' /\ sess_state names (ups ++ [u]) t'.
Proof.
  intros ND L [H1 [H2 [H3 [H4 [H5 H6]]]]] IN. apply In_nth_error in IN. destruct IN as [i I].
  assert (IL : i < length names) by (apply nth_error_Some; congruence).
  unfold tm_update. rewrite H1, (find_enum _ _ _ ND I). cbn [obind]. replace (1 + i) with (i + 1) by lia.
  unfold vec_get. cbn [andb]. rewrite (H4 _ _ I). cbn [obind]. unfold vec_set; cbn [andb].
  rewrite aset_some by lia. cbn [obind].
  assert (inj : forall j m, nth_error names j = Some m -> (fst u =? m) = (j =? i)).
  { intros j m J. destruct (Nat.eqb_spec j i) as [->|N]. { rewrite I in J; inversion J; apply Nat.eqb_refl. }
    apply Nat.eqb_neq. intros E. apply N. apply (NoDup_nth_error_inj _ names j i m); congruence. }
  assert (T : forall j n, nth_error names j = Some n -> aget (upd (v_mem (tm_times t)) (i + 1) (Some (total (fst u) ups + snd u)%Z)) (j + 1) = Some (total n (ups ++ [u]))).
  { intros j n J. rewrite total_snoc, (inj _ _ J). destruct (Nat.eqb_spec j i) as [->|N].
    - rewrite aget_upd_eq by lia. rewrite I in J; inversion J; reflexivity.
    - rewrite aget_upd_neq by lia. rewrite (H4 _ _ J). f_equal; lia. }
  destruct (Nat.lt_ge_cases (i + 1) (length names)) as [B|B].
  - rewrite (H5 _ _ I B). rewrite aset_some by lia. cbn [obind].
    eexists; split; [reflexivity|]. split; [reflexivity|]. cbn [tm_times tm_counts v_mem]. rewrite !upd_length.
    repeat split; auto.
    + intros j n J JL. rewrite calls_snoc, (inj _ _ J). destruct (Nat.eqb_spec j i) as [->|N].
      * rewrite aget_upd_eq by lia. rewrite I in J; inversion J; reflexivity.
      * rewrite aget_upd_neq by lia. rewrite (H5 _ _ J JL). f_equal; lia.
    + intros j JL. rewrite aget_upd_neq by lia. apply H6; exact JL.
  - rewrite (H6 (i + 1)) by lia. cbn [orb]. rewrite H3. destruct (Nat.leb_spec 16 (i + 1)); [lia|]. cbn [obind].
    eexists; split; [reflexivity|]. split; [reflexivity|]. cbn [tm_times tm_counts v_mem]. rewrite !upd_length.
    repeat split; auto.
    intros j n J JL. rewrite calls_snoc, (inj _ _ J). destruct (Nat.eqb_spec j i) as [->|N]; [lia|]. rewrite (H5 _ _ J JL). f_equal; lia.
Qed.

Lemma session_ok names ups : NoDup names -> length names <= 15 -> incl (map fst ups) names ->
  exists t, session false names ups = Some t /\ sess_state names ups t.
Proof.
  intros ND L INC. destruct (adds_ok names ND L) as [t0 [E0 [A1 [A2 A3]]]].
  unfold session. rewrite E0; cbn [obind].
  revert INC. induction ups as [|u ups IH] using rev_ind; intros INC.
  - exists t0; split; [reflexivity|].
    assert (Z : forall k j m, j < k -> aget (ainit (repeat 0%Z k) ++ anew m) j = Some 0%Z).
    { intros k j m J. unfold aget. rewrite nth_error_app1 by (rewrite rep_len; exact J). unfold ainit.
      rewrite nth_error_map, nth_error_repeat by exact J. reflexivity. }
    split; [exact A1|]. rewrite A2, A3. cbn [v_mem].
    split; [|split; [rewrite app_length, rep_len; unfold anew; rewrite repeat_length; lia|]].
    { destruct (length names) eqn:K; [reflexivity|]. cbn [v_mem]. rewrite app_length, rep_len; unfold anew; rewrite repeat_length; lia. }
    repeat split.
    + intros i n I. assert (i < length names) by (apply nth_error_Some; congruence). destruct (length names) eqn:K; [lia|]. cbn [v_mem]. rewrite Z by lia. reflexivity.
    + intros i n I J. rewrite Z by lia. reflexivity.
    + intros i I. unfold aget. rewrite nth_error_app2 by (rewrite rep_len; exact I). destruct (nth_error _ _) as [[z|]|] eqn:Q; auto.
      apply nth_error_In in Q. apply repeat_spec in Q. discriminate.
  - destruct IH as [t [E S]]. { intros x X; apply INC. rewrite map_app; apply in_or_app; auto. }
    destruct (update_ok names ups t u ND L S) as [t' [E' S']]. { apply INC. rewrite map_app; apply in_or_app; right; left; reflexivity. }
    exists t'; split; [|exact S']. rewrite foldM_app, E. cbn [foldM obind]. rewrite E'. reflexivity.
Qed.

(** On a machine that does not check vector bounds, up to fifteen distinct timers created before any update keep their times
    apart: each reads the sum of the values recorded for its name; every count but that of the last timer is the number of
    updates. *)
Theorem C51_unchecked_partial : forall names ups, NoDup names -> length names <= 15 -> incl (map fst ups) names ->
  exists t, session false names ups = Some t /\
    (forall n, In n names -> tm_time false t n = Some (total n ups)) /\
    (forall ns l n, names = ns ++ [l] -> In n ns -> tm_count false t n = Some (calls n ups)).
Proof.
  intros names ups ND L INC. destruct (session_ok names ups ND L INC) as [t [E [H1 [H2 [H3 [H4 [H5 H6]]]]]]].
  exists t; split; [exact E|]. split.
  - intros n N. apply In_nth_error in N; destruct N as [i I]. unfold tm_time. rewrite H1, (find_enum _ _ _ ND I). cbn [obind].
    unfold vec_get; cbn [andb]. replace (1 + i) with (i + 1) by lia. eauto.
  - intros ns l n EQ N. apply In_nth_error in N; destruct N as [i I].
    assert (IL : i < length ns) by (apply nth_error_Some; congruence).
    assert (I' : nth_error names i = Some n) by (subst names; rewrite nth_error_app1; auto).
    unfold tm_count. rewrite H1, (find_enum _ _ _ ND I'). cbn [obind].
    unfold vec_get; cbn [andb]. replace (1 + i) with (i + 1) by lia. apply H5; auto. subst names; rewrite app_length; cbn; lia.
Qed.
Print Assumptions C51_unchecked_partial.

(** Even there the count of the timer added last is never initialised ... *)
Theorem C51_last_count_refuted : forall ns l ups, NoDup (ns ++ [l]) -> length (ns ++ [l]) <= 15 -> incl (map fst ups) (ns ++ [l]) ->
  exists t, session false (ns ++ [l]) ups = Some t /\ tm_count false t l = None.
Proof.
  intros ns l ups ND L INC. destruct (session_ok _ ups ND L INC) as [t [E [H1 [H2 [H3 [H4 [H5 H6]]]]]]].
  exists t; split; [exact E|]. unfold tm_count.
  assert (I : nth_error (ns ++ [l]) (length ns) = Some l) by (rewrite nth_error_app2, Nat.sub_diag; auto).
  rewrite H1, (find_enum _ _ _ ND I). cbn [obind]. unfold vec_get; cbn [andb]. rewrite H6; [reflexivity|]. rewrite app_length; cbn; lia.
Qed.
Print Assumptions C51_last_count_refuted.

(** ... and the sixteenth distinct timer writes past the allocation. *)
Theorem C51_sixteen_refuted : foldM (tm_add false) (seq 0 15) tm_new <> None /\ foldM (tm_add false) (seq 0 16) tm_new = None.
Proof. split; [vm_compute; discriminate|vm_compute; reflexivity]. Qed.
Print Assumptions C51_sixteen_refuted.

(** the four timers of the balancer (engpar_balancer.cpp:228-231) *)
Example C51_balancer_example : exists t, session false [0; 1; 2; 3] [(0, 5%Z); (3, 9%Z); (1, 2%Z); (0, 6%Z); (3, 1%Z)] = Some t /\
  map (tm_time false t) [0; 1; 2; 3] = [Some 11%Z; Some 2%Z; Some 0%Z; Some 10%Z] /\
  map (tm_count false t) [0; 1; 2; 3] = [Some 2%Z; Some 1%Z; Some 0%Z; None].
Proof. eexists; split; [vm_compute; reflexivity|]. split; vm_compute; reflexivity. Qed.
