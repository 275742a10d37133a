(** Correctness of bfsSort. *)
From Verif Require Import Base QueueModel.
Local Open Scope Z_scope.

Lemma zget_zaset A (a b : arr A) i x k : zaset a i x = Some b -> zget b k = if k =? i then Some x else zget a k.
Proof.
  unfold zaset, zget. destruct (Z.leb_spec 0 i); [|discriminate]. intros E. apply aset_inv in E as (L & ->). destruct (Z.eqb_spec k i) as [->|N].
  - destruct (Z.leb_spec 0 i); [|lia]. now apply aget_upd_eq.
  - destruct (Z.leb_spec 0 k); auto. apply aget_upd_neq. intros X. apply N. lia.
Qed.
Lemma zaset_ok A (a : arr A) i x y : zget a i = Some y -> exists b, zaset a i x = Some b /\ length b = length a /\ b = upd a (Z.to_nat i) (Some x).
Proof.
  unfold zget, zaset. destruct (Z.leb_spec 0 i); [|discriminate]. intros E. apply aget_lt in E. rewrite aset_some by auto. eexists. split; [reflexivity|]. split; auto. apply upd_length.
Qed.
Lemma upd_split A (l1 l2 : list A) x y : upd (l1 ++ x :: l2) (length l1) y = l1 ++ y :: l2.
Proof. rewrite <- (Nat.add_0_r (length l1)), upd_app_r. reflexivity. Qed.
Lemma swap_perm A (l : list A) i j x y : nth_error l i = Some x -> nth_error l j = Some y -> Permutation l (upd (upd l i y) j x).
Proof.
  assert (G : forall (l : list A) i j x y, (i < j)%nat -> nth_error l i = Some x -> nth_error l j = Some y -> Permutation l (upd (upd l i y) j x) /\ Permutation l (upd (upd l j x) i y)).
  { clear. intros l i j x y L Hi Hj. apply nth_error_split in Hi as (l1 & l2 & -> & <-). rewrite nth_error_app2 in Hj by lia. replace (j - length l1)%nat with (S (j - length l1 - 1)) in Hj by lia. cbn in Hj.
    apply nth_error_split in Hj as (l3 & l4 & -> & L3). assert (E : upd (upd (l1 ++ x :: l3 ++ y :: l4) (length l1) y) j x = l1 ++ y :: l3 ++ x :: l4).
    { rewrite upd_split. replace j with (length (l1 ++ y :: l3)) by (rewrite app_length; cbn; lia). replace (l1 ++ y :: l3 ++ y :: l4) with ((l1 ++ y :: l3) ++ y :: l4) by (rewrite <- app_assoc; reflexivity). rewrite upd_split, <- app_assoc. reflexivity. }
    assert (E2 : upd (upd (l1 ++ x :: l3 ++ y :: l4) j x) (length l1) y = l1 ++ y :: l3 ++ x :: l4).
    { replace (upd (l1 ++ x :: l3 ++ y :: l4) j x) with (l1 ++ x :: l3 ++ x :: l4); [apply upd_split|].
      replace j with (length (l1 ++ x :: l3)) by (rewrite app_length; cbn; lia). replace (l1 ++ x :: l3 ++ y :: l4) with ((l1 ++ x :: l3) ++ y :: l4) by (rewrite <- app_assoc; reflexivity). rewrite upd_split, <- app_assoc. reflexivity. }
    rewrite E, E2. assert (P : Permutation (l1 ++ x :: l3 ++ y :: l4) (l1 ++ y :: l3 ++ x :: l4)); [|auto]. apply Permutation_app_head.
    apply perm_trans with (y :: x :: l3 ++ l4); [apply perm_trans with (x :: y :: l3 ++ l4); [constructor; symmetry; apply Permutation_middle|apply perm_swap]|constructor; apply Permutation_middle]. }
  intros Hi Hj. destruct (Nat.lt_trichotomy i j) as [L|[->|L]].
  - apply (G l i j x y); auto.
  - assert (x = y) by congruence. subst y. apply nth_error_split in Hi as (l1 & l2 & -> & <-). rewrite !upd_split. reflexivity.
  - apply (G l j i y x); auto.
Qed.

(** b is reached from a by exchanging cells within [l, r] *)
Inductive swaps (l r : Z) : arr nat -> arr nat -> Prop :=
| sw_refl a : swaps l r a a
| sw_step a a1 a2 b i j x y : l <= i <= r -> l <= j <= r -> zget a i = Some x -> zget a j = Some y -> zaset a i y = Some a1 -> zaset a1 j x = Some a2 -> swaps l r a2 b -> swaps l r a b.
Lemma swaps_trans l r a b c : swaps l r a b -> swaps l r b c -> swaps l r a c.
Proof. induction 1; auto. intros H7. eapply sw_step with (i := i) (j := j); eauto. Qed.
Lemma swaps_widen l r l' r' a b : l' <= l -> r <= r' -> swaps l r a b -> swaps l' r' a b.
Proof. intros L R. induction 1; [constructor|]. eapply sw_step with (i := i) (j := j); eauto; lia. Qed.
Lemma swap_get (a a1 a2 : arr nat) i j x y : zget a i = Some x -> zget a j = Some y -> zaset a i y = Some a1 -> zaset a1 j x = Some a2 ->
  forall k, zget a2 k = if k =? j then Some x else if k =? i then Some y else zget a k.
Proof. intros Hi Hj E1 E2 k. rewrite (zget_zaset _ _ _ _ _ k E2). destruct (k =? j); auto. apply (zget_zaset _ _ _ _ _ k E1). Qed.
Lemma swaps_out l r a b k : swaps l r a b -> k < l \/ r < k -> zget b k = zget a k.
Proof.
  induction 1 as [|a a1 a2 b i j x y Li Lj Hi Hj E1 E2 _ IH]; auto. intros O. rewrite IH by auto. rewrite (swap_get _ _ _ _ _ _ _ Hi Hj E1 E2).
  destruct (Z.eqb_spec k j); [lia|]. destruct (Z.eqb_spec k i); [lia|]. reflexivity.
Qed.
Lemma swaps_in l r a b k : swaps l r a b -> l <= k <= r -> exists k', l <= k' <= r /\ zget b k = zget a k'.
Proof.
  induction 1 as [|a a1 a2 b i j x y Li Lj Hi Hj E1 E2 _ IH]; intros K; [exists k; auto|]. destruct (IH K) as (k' & K' & E). rewrite (swap_get _ _ _ _ _ _ _ Hi Hj E1 E2) in E.
  destruct (k' =? j); [exists i; split; auto; congruence|]. destruct (k' =? i); [exists j; split; auto; congruence|]. exists k'. auto.
Qed.
Lemma swaps_perm l r a b : swaps l r a b -> Permutation a b.
Proof.
  induction 1 as [|a a1 a2 b i j x y Li Lj Hi Hj E1 E2 _ IH]; auto. apply perm_trans with (2 := IH). unfold zaset, zget, aget in *.
  destruct (0 <=? i); [|discriminate]. destruct (0 <=? j); [|discriminate]. apply aset_inv in E1 as (_ & ->). apply aset_inv in E2 as (_ & ->).
  apply swap_perm; [destruct (nth_error a (Z.to_nat i)) as [[]|]; congruence|destruct (nth_error a (Z.to_nat j)) as [[]|]; congruence].
Qed.

Section S.
Variable values : arr Z.
Notation key := (key_at values).
Definition kle (a : arr nat) (k p : Z) : Prop := exists v, key a k = Some v /\ v <= p.
Definition kge (a : arr nat) (k p : Z) : Prop := exists v, key a k = Some v /\ p <= v.
Definition defined (a : arr nat) (l r : Z) : Prop := forall k, l <= k <= r -> exists v, key a k = Some v.
Definition ordered (a : arr nat) (l r : Z) : Prop := forall k1 k2 v1 v2, l <= k1 <= k2 -> k2 <= r -> key a k1 = Some v1 -> key a k2 = Some v2 -> v1 <= v2.
Lemma key_same a b k k' : zget b k = zget a k' -> key b k = key a k'.
Proof. unfold key_at. now intros ->. Qed.
Lemma swaps_defined l r a b : swaps l r a b -> defined a l r -> defined b l r.
Proof. intros S D k K. destruct (swaps_in _ _ _ _ _ S K) as (k' & K' & E). rewrite (key_same _ _ _ _ E). auto. Qed.
Lemma swaps_kle l r a b p : swaps l r a b -> (forall k, l <= k <= r -> kle a k p) -> forall k, l <= k <= r -> kle b k p.
Proof. intros S D k K. destruct (swaps_in _ _ _ _ _ S K) as (k' & K' & E). unfold kle. rewrite (key_same _ _ _ _ E). apply (D k' K'). Qed.
Lemma swaps_kge l r a b p : swaps l r a b -> (forall k, l <= k <= r -> kge a k p) -> forall k, l <= k <= r -> kge b k p.
Proof. intros S D k K. destruct (swaps_in _ _ _ _ _ S K) as (k' & K' & E). unfold kge. rewrite (key_same _ _ _ _ E). apply (D k' K'). Qed.

Lemma scan_up_ok p a k : kge a k p -> forall fuel i, i <= k -> k - i < Z.of_nat fuel -> (forall m, i <= m <= k -> exists v, key a m = Some v) ->
  exists i', scan_up fuel values a p i = Some i' /\ i <= i' <= k /\ kge a i' p /\ forall m, i <= m < i' -> kle a m p.
Proof.
  intros (w & Ew & Lw). induction fuel as [|f IH]; intros i L F D; [lia|]. cbn [scan_up]. destruct (D i ltac:(lia)) as (v & Ev). rewrite Ev. cbn [obind]. destruct (Z.ltb_spec v p).
  - assert (i <> k) by (intros ->; rewrite Ew in Ev; inversion Ev; lia). destruct (IH (i + 1)) as (i' & E & B & G & H'); [lia|lia|intros m Hm; apply D; lia|].
    exists i'. split; auto. split; [lia|]. split; auto. intros m Hm. destruct (Z.eq_dec m i) as [->|]; [exists v; split; auto; lia|]. apply H'. lia.
  - exists i. split; auto. split; [lia|]. split; [exists v; auto|]. intros m Hm. lia.
Qed.
Lemma scan_down_ok p a k : kle a k p -> forall fuel j, k <= j -> j - k < Z.of_nat fuel -> (forall m, k <= m <= j -> exists v, key a m = Some v) ->
  exists j', scan_down fuel values a p j = Some j' /\ k <= j' <= j /\ kle a j' p /\ forall m, j' < m <= j -> kge a m p.
Proof.
  intros (w & Ew & Lw). induction fuel as [|f IH]; intros j L F D; [lia|]. cbn [scan_down]. destruct (D j ltac:(lia)) as (v & Ev). rewrite Ev. cbn [obind]. destruct (Z.ltb_spec p v).
  - assert (j <> k) by (intros ->; rewrite Ew in Ev; inversion Ev; lia). destruct (IH (j - 1)) as (j' & E & B & G & H'); [lia|lia|intros m Hm; apply D; lia|].
    exists j'. split; auto. split; [lia|]. split; auto. intros m Hm. destruct (Z.eq_dec m j) as [->|]; [exists v; split; auto; lia|]. apply H'. lia.
  - exists j. split; auto. split; [lia|]. split; [exists v; auto|]. intros m Hm. lia.
Qed.

Lemma partition_ok left right p : forall fuel a i j k1 k2, defined a left right -> left <= i -> j <= right -> i <= j ->
  (forall m, left <= m < i -> kle a m p) -> (forall m, j < m <= right -> kge a m p) ->
  i <= k1 <= right -> kge a k1 p -> left <= k2 <= j -> kle a k2 p -> (right - i) + (j - left) + 3 <= Z.of_nat fuel ->
  exists a' i' j', partition_loop fuel values p a i j = Some (a', i', j') /\ swaps left right a a' /\ j' < i' /\ i <= i' <= right + 1 /\ left - 1 <= j' <= j /\
    (forall m, left <= m < i' -> kle a' m p) /\ (forall m, j' < m <= right -> kge a' m p) /\ (k1 <= k2 -> i < i' /\ j' < j).
Proof.
  induction fuel as [|f IH]; intros a i j k1 k2 D Li Lj IJ PL PG K1 G1 K2 G2 F; [lia|]. cbn [partition_loop]. destruct (Z.leb_spec i j); [|lia].
  destruct (scan_up_ok p a k1 G1 f i) as (i' & -> & Bi & Gi & Hi); [lia|lia|intros m Hm; apply D; lia|]. cbn [obind].
  destruct (scan_down_ok p a k2 G2 f j) as (j' & -> & Bj & Gj & Hj); [lia|lia|intros m Hm; apply D; lia|]. cbn [obind].
  assert (PL' : forall m, left <= m < i' -> kle a m p) by (intros m Hm; destruct (Z.lt_ge_cases m i); [apply PL; lia|apply Hi; lia]).
  assert (PG' : forall m, j' < m <= right -> kge a m p) by (intros m Hm; destruct (Z.le_gt_cases m j); [apply Hj; lia|apply PG; lia]).
  destruct (Z.leb_spec i' j').
  - destruct Gi as (vi & Ei & Vi). destruct Gj as (vj & Ej & Vj).
    unfold key_at in Ei, Ej. destruct (zget a i') as [x|] eqn:Zi; [|discriminate]. destruct (zget a j') as [y|] eqn:Zj; [|discriminate]. cbn [obind] in *.
    destruct (zaset_ok _ a i' y x Zi) as (a1 & Ea1 & La1 & _). rewrite Ea1. cbn [obind].
    assert (Zj1 : exists z, zget a1 j' = Some z). { rewrite (zget_zaset _ _ _ _ _ j' Ea1). destruct (j' =? i'); eauto. } destruct Zj1 as (z & Zj1).
    destruct (zaset_ok _ a1 j' x z Zj1) as (a2 & Ea2 & La2 & _). rewrite Ea2. cbn [obind].
    pose proof (swap_get _ _ _ _ _ _ _ Zi Zj Ea1 Ea2) as SG.
    assert (SW : swaps left right a a2). { eapply sw_step with (i := i') (j := j'); eauto; [lia|lia|constructor]. }
    assert (KI : kle a2 i' p). { unfold kle, key_at. rewrite SG. destruct (Z.eqb_spec i' j') as [E|]; [|rewrite Z.eqb_refl; cbn; eauto]. assert (x = y) by congruence. subst y. cbn. eauto. }
    assert (KJ : kge a2 j' p). { unfold kge, key_at. rewrite SG, Z.eqb_refl. cbn. eauto. }
    assert (KO : forall m, m <> i' -> m <> j' -> key a2 m = key a m). { intros m N1 N2. apply key_same. rewrite SG. destruct (Z.eqb_spec m j'); [lia|]. destruct (Z.eqb_spec m i'); [lia|]. reflexivity. }
    assert (PL2 : forall m, left <= m < i' + 1 -> kle a2 m p).
    { intros m Hm. destruct (Z.eq_dec m i') as [->|]; auto. unfold kle. rewrite KO by lia. apply PL'. lia. }
    assert (PG2 : forall m, j' - 1 < m <= right -> kge a2 m p).
    { intros m Hm. destruct (Z.eq_dec m j') as [->|]; auto. unfold kge. rewrite KO by lia. apply PG'. lia. }
    destruct (Z.le_gt_cases (i' + 1) (j' - 1)) as [L2|L2].
    + destruct (IH a2 (i' + 1) (j' - 1) j' i') as (a' & i2 & j2 & E & S2 & JI & BI & BJ & P1 & P2 & _); auto; try lia; [eapply swaps_defined; eauto|].
      exists a', i2, j2. split; auto. split; [eapply swaps_trans; eauto|]. repeat split; auto; lia.
    + exists a2, (i' + 1), (j' - 1). split; [destruct f; cbn [partition_loop]; (destruct (Z.leb_spec (i' + 1) (j' - 1)); [lia|reflexivity])|]. repeat split; auto; lia.
  - exists a, i', j'. split; [destruct f; cbn [partition_loop]; (destruct (Z.leb_spec i' j'); [lia|reflexivity])|]. split; [constructor|]. repeat split; auto; lia.
Qed.

Lemma bfsSort_ok : forall fuel a left right, 0 <= left <= right -> defined a left right -> 2 * (right - left) + 4 <= Z.of_nat fuel ->
  exists a', bfsSort fuel values a left right = Some a' /\ swaps left right a a' /\ ordered a' left right.
Proof.
  induction fuel as [|f IH]; intros a left right LR D F; [lia|]. cbn [bfsSort]. set (mid := Z.quot (left + right) 2).
  assert (M : left <= mid <= right). { unfold mid. rewrite Z.quot_div_nonneg by lia. split; [apply Z.div_le_lower_bound; lia|apply Z.div_le_upper_bound; lia]. }
  destruct (D mid M) as (p & Ep). rewrite Ep. cbn [obind].
  destruct (partition_ok left right p f a left right mid mid) as (a1 & i & j & E1 & S1 & JI & BI & BJ & PL & PG & PR); auto; try lia; try (exists p; split; auto; lia).
  destruct (PR (Z.le_refl mid)) as (PI & PJ). rewrite E1. cbn [obind]. assert (D1 : defined a1 left right) by (eapply swaps_defined; eauto).
  assert (H1 : exists a2, (if left <? j then bfsSort f values a1 left j else Some a1) = Some a2 /\ swaps left j a1 a2 /\ ordered a2 left j).
  { destruct (Z.ltb_spec left j).
    - apply IH; [lia|intros k K; apply D1; lia|lia].
    - exists a1. split; auto. split; [constructor|]. intros k1 k2 v1 v2 K1 K2 V1 V2. assert (k1 = k2) by lia. subst. rewrite V1 in V2. inversion V2. lia. }
  destruct H1 as (a2 & -> & S2 & O2). cbn [obind]. assert (D2 : defined a2 left right) by (eapply swaps_defined; [eapply swaps_widen; [| |exact S2]; lia|auto]).
  assert (H2 : exists a3, (if i <? right then bfsSort f values a2 i right else Some a2) = Some a3 /\ swaps i right a2 a3 /\ ordered a3 i right).
  { destruct (Z.ltb_spec i right).
    - apply IH; [lia|intros k K; apply D2; lia|lia].
    - exists a2. split; auto. split; [constructor|]. intros k1 k2 v1 v2 K1 K2 V1 V2. assert (k1 = k2) by lia. subst. rewrite V1 in V2. inversion V2. lia. }
  destruct H2 as (a3 & E3 & S3 & O3). exists a3. split; auto. split; [eapply swaps_trans; [exact S1|]; eapply swaps_trans; [eapply swaps_widen; [| |exact S2]; lia|eapply swaps_widen; [| |exact S3]; lia]|].
  assert (AL : forall k, left <= k <= j -> kle a3 k p /\ key a3 k = key a2 k).
  { intros k K. assert (E : key a3 k = key a2 k) by (apply key_same; eapply swaps_out; eauto; lia). split; auto. unfold kle. rewrite E. apply (swaps_kle _ _ _ _ p S2); auto. intros m Hm. apply PL. lia. }
  assert (AM : forall k, j < k < i -> key a3 k = Some p).
  { intros k K. assert (E : key a3 k = key a1 k). { apply key_same. rewrite (swaps_out _ _ _ _ k S3) by lia. apply (swaps_out _ _ _ _ k S2). lia. }
    rewrite E. destruct (PL k ltac:(lia)) as (v & Ev & Lv). destruct (PG k ltac:(lia)) as (v' & Ev' & Gv). rewrite Ev in *. inversion Ev'. f_equal. lia. }
  assert (AR : forall k, i <= k <= right -> kge a3 k p).
  { apply (swaps_kge _ _ _ _ p S3). intros m Hm. assert (E : key a2 m = key a1 m) by (apply key_same; eapply swaps_out; eauto; lia). unfold kge. rewrite E. apply PG. lia. }
  intros k1 k2 v1 v2 K1 K2 V1 V2.
  assert (U1 : k1 < i -> v1 <= p).
  { intros L. destruct (Z.le_gt_cases k1 j) as [L'|L']; [destruct (AL k1 ltac:(lia)) as ((w & Ew & Lw) & _)|pose proof (AM k1 ltac:(lia)) as Ew; assert (Lw : p <= p) by lia]; rewrite V1 in Ew; inversion Ew; lia. }
  assert (U2 : j < k2 -> p <= v2).
  { intros L. destruct (Z.le_gt_cases i k2) as [L'|L']; [destruct (AR k2 ltac:(lia)) as (w & Ew & Lw)|pose proof (AM k2 ltac:(lia)) as Ew; assert (Lw : p <= p) by lia]; rewrite V2 in Ew; inversion Ew; lia. }
  destruct (Z.le_gt_cases k2 j) as [L2|L2].
  - destruct (AL k1 ltac:(lia)) as (_ & X1). destruct (AL k2 ltac:(lia)) as (_ & X2). rewrite X1 in V1. rewrite X2 in V2. apply (O2 k1 k2); auto; lia.
  - specialize (U2 ltac:(lia)). destruct (Z.lt_ge_cases k1 i) as [L1|L1]; [specialize (U1 L1); lia|]. apply (O3 k1 k2); auto; lia.
Qed.
End S.
