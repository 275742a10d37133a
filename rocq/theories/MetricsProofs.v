(** Lemmas on exact sums, maxima and the traversals behind getWeight. *)
From Verif Require Import Base GraphModel GraphSpec GraphTop GraphTop2 AccessProofs Comm TagModel ConnModel MetricsModel.
From Coq Require Import Lqa.
Local Open Scope nat_scope.

(** ** sums *)
Fixpoint qsum (l : list Q) : Q := match l with [] => 0%Q | x :: r => (x + qsum r)%Q end.
Lemma fold_plus l : forall a, (fold_left Qplus l a == a + qsum l)%Q.
Proof. induction l as [|x l IH]; intros a; cbn [fold_left qsum]; [ring|]. rewrite IH. ring. Qed.
Lemma all_sum_qsum l : (all_sum l == qsum l)%Q.
Proof. unfold all_sum. rewrite fold_plus. ring. Qed.
Lemma qsum_app a b : (qsum (a ++ b) == qsum a + qsum b)%Q.
Proof. induction a as [|x a IH]; cbn [app qsum]; [ring|]. rewrite IH. ring. Qed.
Lemma qsum_le l m : (forall x, In x l -> x <= m)%Q -> (qsum l <= inject_Z (Z.of_nat (length l)) * m)%Q.
Proof.
  induction l as [|x l IH]; intros H; cbn [qsum length]; [change (inject_Z (Z.of_nat 0)) with 0%Q; lra|].
  assert (H1 : (x <= m)%Q) by (apply H; left; auto). assert (H2 : (qsum l <= inject_Z (Z.of_nat (length l)) * m)%Q) by (apply IH; intros; apply H; right; auto).
  rewrite Nat2Z.inj_succ, <- Z.add_1_r, inject_Z_plus. change (inject_Z 1) with 1%Q. lra.
Qed.
Lemma qsum_strict l m y : (forall x, In x l -> x <= m)%Q -> In y l -> (y < m)%Q -> (qsum l < inject_Z (Z.of_nat (length l)) * m)%Q.
Proof.
  induction l as [|x l IH]; intros H Hy L; [destruct Hy|]. cbn [qsum length].
  assert (H1 : (x <= m)%Q) by (apply H; left; auto). assert (H2 : (qsum l <= inject_Z (Z.of_nat (length l)) * m)%Q) by (apply qsum_le; intros; apply H; right; auto).
  rewrite Nat2Z.inj_succ, <- Z.add_1_r, inject_Z_plus. change (inject_Z 1) with 1%Q. destruct Hy as [->|Hy]; [lra|].
  assert (qsum l < inject_Z (Z.of_nat (length l)) * m)%Q by (apply IH; auto; intros; apply H; right; auto). lra.
Qed.
Lemma qsum_nonneg l : (forall x, In x l -> 0 <= x)%Q -> (0 <= qsum l)%Q.
Proof. induction l as [|x l IH]; intros H; cbn [qsum]; [lra|]. assert (0 <= x)%Q by (apply H; left; auto). assert (0 <= qsum l)%Q by (apply IH; intros; apply H; right; auto). lra. Qed.
Lemma qsum_elem l y : (forall x, In x l -> 0 <= x)%Q -> In y l -> (y <= qsum l)%Q.
Proof.
  induction l as [|x l IH]; intros H Hy; [destruct Hy|]. cbn [qsum]. assert (0 <= x)%Q by (apply H; left; auto).
  assert (0 <= qsum l)%Q by (apply qsum_nonneg; intros; apply H; right; auto). destruct Hy as [->|Hy]; [lra|].
  assert (y <= qsum l)%Q by (apply IH; auto; intros; apply H; right; auto). lra.
Qed.
Lemma qsum_eq l m : (forall x, In x l -> x == m)%Q -> (qsum l == inject_Z (Z.of_nat (length l)) * m)%Q.
Proof.
  induction l as [|x l IH]; intros H; cbn [qsum length]; [change (inject_Z (Z.of_nat 0)) with 0%Q; ring|].
  rewrite (H x) by (left; auto). rewrite IH by (intros; apply H; right; auto). rewrite Nat2Z.inj_succ, <- Z.add_1_r, inject_Z_plus. change (inject_Z 1) with 1%Q. ring.
Qed.
Lemma qsum_ext (A : Type) (f h : A -> Q) l : (forall x, In x l -> f x == h x)%Q -> (qsum (map f l) == qsum (map h l))%Q.
Proof. induction l as [|x l IH]; intros H; [reflexivity|]. cbn [map qsum]. rewrite (H x) by (left; auto). rewrite IH by (intros; apply H; right; auto). reflexivity. Qed.

(** ** maxima and minima *)
Lemma fold_max l : forall a, let m := fold_left (fun a b => if Qle_bool a b then b else a) l a in
  (In m (a :: l)) /\ (forall x, In x (a :: l) -> x <= m)%Q.
Proof.
  induction l as [|y l IH]; intros a m; cbn [fold_left] in m; [subst m; split; [left; auto|]; intros x [->|[]]; lra|].
  destruct (IH (if Qle_bool a y then y else a)) as (I & L). fold m in I, L. split.
  - destruct I as [I|I]; [|right; right; auto]. destruct (Qle_bool a y); [right; left|left]; auto.
  - assert (A : (a <= m)%Q /\ (y <= m)%Q).
    { specialize (L _ (or_introl eq_refl)). destruct (Qle_bool a y) eqn:E; [apply Qle_bool_iff in E; lra|].
      assert (~ (a <= y)%Q) by (rewrite <- Qle_bool_iff; congruence). lra. }
    intros x [->|[->|Hx]]; [tauto|tauto|]. apply L. right; auto.
Qed.
Lemma fold_min l : forall a, let m := fold_left (fun a b => if Qle_bool b a then b else a) l a in
  (In m (a :: l)) /\ (forall x, In x (a :: l) -> m <= x)%Q.
Proof.
  induction l as [|y l IH]; intros a m; cbn [fold_left] in m; [subst m; split; [left; auto|]; intros x [->|[]]; lra|].
  destruct (IH (if Qle_bool y a then y else a)) as (I & L). fold m in I, L. split.
  - destruct I as [I|I]; [|right; right; auto]. destruct (Qle_bool y a); [right; left|left]; auto.
  - assert (A : (m <= a)%Q /\ (m <= y)%Q).
    { specialize (L _ (or_introl eq_refl)). destruct (Qle_bool y a) eqn:E; [apply Qle_bool_iff in E; lra|].
      assert (~ (y <= a)%Q) by (rewrite <- Qle_bool_iff; congruence). lra. }
    intros x [->|[->|Hx]]; [tauto|tauto|]. apply L. right; auto.
Qed.
(** m is the largest (smallest) of the values *)
Definition is_max (l : list Q) (m : Q) : Prop := In m l /\ forall x, In x l -> (x <= m)%Q.
Definition is_min (l : list Q) (m : Q) : Prop := In m l /\ forall x, In x l -> (m <= x)%Q.
Lemma all_max_ok l : l <> [] -> is_max l (all_max l).
Proof. destruct l as [|a l]; [congruence|]. intros _. apply (fold_max l a). Qed.
Lemma all_min_ok l : l <> [] -> is_min l (all_min l).
Proof. destruct l as [|a l]; [congruence|]. intros _. apply (fold_min l a). Qed.
Lemma qdiv_some a b : ~ (b == 0)%Q -> qdiv a b = Some (a / b)%Q.
Proof. intros H. unfold qdiv. destruct (Qeq_bool b 0) eqn:E; [apply Qeq_bool_iff in E; contradiction|reflexivity]. Qed.
Lemma qdiv_none a b : (b == 0)%Q -> qdiv a b = None.
Proof. intros H. unfold qdiv. apply Qeq_bool_iff in H. now rewrite H. Qed.

(** ** foldM sums *)
Lemma foldM_qsum (A : Type) (f : A -> option Q) l : forall a xs, mapM f l = Some xs ->
  exists r, foldM (fun w v => x <- f v ;; Some (w + x)%Q) l a = Some r /\ (r == a + qsum xs)%Q.
Proof.
  induction l as [|v l IH]; intros a xs H; cbn [mapM] in H; [inversion H; subst; exists a; split; [reflexivity|cbn; ring]|].
  destruct (f v) as [x|] eqn:E; [|discriminate]. cbn [obind] in H. destruct (mapM f l) as [ys|] eqn:E2; [|discriminate]. inversion H; subst.
  cbn [foldM]. rewrite E. cbn [obind]. destruct (IH (a + x)%Q ys eq_refl) as (r & -> & R). exists r. split; auto. rewrite R. cbn [qsum]. ring.
Qed.
Lemma mapM_seq (X : Type) (f : nat -> option X) xs : forall k, (forall j x, nth_error xs j = Some x -> f (k + j) = Some x) -> mapM f (seq k (length xs)) = Some xs.
Proof.
  induction xs as [|x xs IH]; intros k H; [reflexivity|]. cbn [length seq mapM]. rewrite <- (Nat.add_0_r k) at 1. rewrite (H 0 x eq_refl). cbn [obind].
  rewrite IH; [reflexivity|]. intros j y Hj. replace (S k + j) with (k + S j) by lia. now apply H.
Qed.
Lemma mapM_of_map (X Y B : Type) (f : Y -> option B) (h : X -> Y) l : mapM f (map h l) = mapM (fun x => f (h x)) l.
Proof. induction l as [|x l IH]; [reflexivity|]. cbn [map mapM]. now rewrite IH. Qed.
