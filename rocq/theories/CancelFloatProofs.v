(** One test of cancel, and the state of its loop. *)
From Coq Require Import Reals Lra Psatz.
From Flocq Require Import Core BinarySingleNaN Relative.
From Verif Require Import Base GraphModel Comm TagModel SelectorModel SelectorProofs.
From Verif Require Import FloatModel FloatSpec FloatProofs FloatProofs2 FloatProofs3 FloatProofs4.
From Verif Require Import CancelFloatModel CancelFloatSpec.
Local Open Scope R_scope.

(** ** sums of non-negative doubles: finite or infinity *)
Definition finf : b64 := B754_infinity false.
Lemma fadd_inf_l y : ok y \/ y = finf -> fadd finf y = finf.
Proof. intros [(F & _)| ->]; [|reflexivity]. destruct y as [s|s| |s m e B]; try discriminate; reflexivity. Qed.
Lemma fadd_inf_r x : ok x \/ x = finf -> fadd x finf = finf.
Proof. intros [(F & _)| ->]; [|reflexivity]. destruct x as [s|s| |s m e B]; try discriminate; reflexivity. Qed.
Lemma flt_inf c : fin c = true -> flt c finf = true.
Proof. intros F. destruct c as [s|s| |s m e B]; try discriminate; try reflexivity; destruct s; reflexivity. Qed.
Lemma fadd_sum x y : ok x -> ok y -> ok (fadd x y) \/ fadd x y = finf.
Proof.
  intros Ox Oy. destruct (flt f0 (fadd x y)) eqn:E.
  - destruct (fin (fadd x y)) eqn:F.
    + left. split; auto. destruct (fadd_fin x y F) as (_ & _ & V). rewrite V. apply rnd_ge0. destruct Ox, Oy. lra.
    + right. destruct (fadd x y) as [s|s| |s m e B]; try (cbn in F; discriminate F); [destruct s; [cbn in E; discriminate E|reflexivity]|cbn in E; discriminate E].
  - left. destruct (fadd_pos_over f0 x y eq_refl Ox Oy E) as (F & _ & _ & P). split; auto.
Qed.
Lemma tree_ok t : Forall ok (leaves t) -> ok (reduced t) \/ reduced t = finf.
Proof.
  induction t as [x|a IHa b IHb]; cbn [leaves reduced]; intros H; [inversion H; auto|]. apply Forall_app in H. destruct H as (Ha & Hb).
  destruct (IHa Ha) as [Oa|Ea]; [|rewrite Ea; right; now apply fadd_inf_l, IHb]. destruct (IHb Hb) as [Ob|Eb]; [|rewrite Eb; right; apply fadd_inf_r; auto]. now apply fadd_sum.
Qed.
Lemma tree_test c t : ok c -> Forall ok (leaves t) -> let k := (length (leaves t) - 1)%nat in let s := rsum (vals (leaves t)) in
  (flt c (reduced t) = false -> (1 - u) ^ k * s <= value c) /\ (flt c (reduced t) = true -> value c < (1 + u) ^ k * s).
Proof.
  intros (Fc & Pc) H. cbv zeta. assert (HN : Forall (fun x => 0 <= x) (vals (leaves t))) by (unfold vals; rewrite Forall_map; eapply Forall_impl; [|exact H]; intros x X; apply X).
  destruct (tree_ok t H) as [(F & P)|E].
  - pose proof (reduced_bound t HN F) as (B1 & B2). cbv zeta in B1, B2. rewrite (flt_ok c _ Fc F). destruct (Rlt_bool_spec (value c) (value (reduced t))) as [L|L]; split; intros; try discriminate; lra.
  - rewrite E, (flt_inf c Fc). split; intros; [discriminate|]. destruct (Rle_lt_dec top ((1 + u) ^ (length (leaves t) - 1) * rsum (vals (leaves t)))) as [L|L].
    + eapply Rle_lt_trans; [apply Rle_abs|]. eapply Rlt_le_trans; [apply value_lt_top|exact L].
    + exfalso. assert (X : fin (reduced t) = true); [|rewrite E in X; discriminate]. apply reduced_finite; auto. eapply Forall_impl; [|exact H]. intros x X. apply X.
Qed.
Lemma fmt_int53 : generic_format radix2 fe (IZR (2 ^ 53)).
Proof. change (IZR (2 ^ 53)) with (bpow radix2 53). apply generic_format_bpow. reflexivity || (cbn; lia). Qed.
(** whole numbers: exact, or at least 2^53 *)
Lemma tree_whole t ns : Forall2 whole (leaves t) ns -> Forall (fun k => (0 <= k)%Z) ns ->
  (whole (reduced t) (zsum ns) /\ (zsum ns < 2 ^ 53)%Z) \/ (reduced t = finf /\ (2 ^ 53 <= zsum ns)%Z) \/ (fin (reduced t) = true /\ IZR (2 ^ 53) <= value (reduced t) /\ (2 ^ 53 <= zsum ns)%Z).
Proof.
  intros W N. assert (A : map Z.abs ns = ns) by (clear - N; induction N; cbn [map]; auto; f_equal; auto; now apply Z.abs_eq).
  destruct (Z_lt_le_dec (zsum ns) (2 ^ 53)) as [L|L]; [left; split; auto; apply reduced_whole; auto; now rewrite A|]. right.
  assert (HO : Forall ok (leaves t)). { clear - W N. revert N. induction W as [|x n l ns Wx W IH]; intros N; constructor; inversion N; subst; auto. destruct Wx as (F & V). split; auto. rewrite V. now apply IZR_le. }
  destruct (tree_ok t HO) as [(F & P)|E]; [right|left; auto]. split; auto. split; auto. clear P A.
  revert ns W N L F. induction t as [x|a IHa b IHb]; cbn [leaves reduced]; intros ns W N L F.
  - inversion W as [|? n ? ? Wx W2]; subst. inversion W2; subst. destruct Wx as (_ & ->). apply IZR_le. cbn [zsum fold_right] in L. lia.
  - apply Forall2_app_inv_l in W. destruct W as (na & nb & Wa & Wb & ->). apply Forall_app in N. destruct N as (Na & Nb). apply Forall_app in HO. destruct HO as (Ha & Hb). rewrite zsum_app in L.
    destruct (fadd_fin _ _ F) as (Fa & Fb & ->). assert (P : forall t, Forall ok (leaves t) -> fin (reduced t) = true -> 0 <= value (reduced t)) by (intros t Ht Ft; destruct (tree_ok t Ht) as [X|X]; [apply X|rewrite X in Ft; discriminate]).
    pose proof (P a Ha Fa) as Pa. pose proof (P b Hb Fb) as Pb. apply rnd_ge_fmt; [apply fmt_int53|].
    destruct (Z_lt_le_dec (zsum na) (2 ^ 53)) as [La|La]; [|specialize (IHa Ha na Wa Na La Fa); lra].
    destruct (Z_lt_le_dec (zsum nb) (2 ^ 53)) as [Lb|Lb]; [|specialize (IHb Hb nb Wb Nb Lb Fb); lra].
    assert (EA : forall l, Forall (fun k => (0 <= k)%Z) l -> map Z.abs l = l) by (intros l Hl; induction Hl; cbn [map]; auto; f_equal; auto; now apply Z.abs_eq).
    destruct (reduced_whole a na Wa) as (_ & ->); [now rewrite EA|]. destruct (reduced_whole b nb Wb) as (_ & ->); [now rewrite EA|]. rewrite <- plus_IZR. now apply IZR_le.
Qed.

(** ** the test of one dimension *)
Definition two_sums (a b : list b64) : red := Add (seq_red a (Val f0)) (seq_red b (Val f0)).
Lemma two_sums_val a b : reduced (two_sums a b) = fadd (fsum a) (fsum b).
Proof. unfold two_sums. cbn [reduced]. now rewrite !seq_red_val. Qed.
Lemma two_sums_leaves a b : leaves (two_sums a b) = (f0 :: a) ++ f0 :: b.
Proof. unfold two_sums. cbn [leaves]. now rewrite !seq_red_leaves. Qed.
Lemma rsum_cons x l : rsum (vals (x :: l)) = value x + rsum (vals l). Proof. reflexivity. Qed.
Lemma two_sums_rsum a b : rsum (vals (leaves (two_sums a b))) = rsum (vals (a ++ b)).
Proof. rewrite two_sums_leaves, !vals_app, !rsum_app, !rsum_cons, value_f0. lra. Qed.
Lemma edge_test c a b : ok c -> Forall ok a -> Forall ok b -> let k := S (length (a ++ b)) in let s := rsum (vals (a ++ b)) in
  (flt c (fadd (fsum a) (fsum b)) = false -> (1 - u) ^ k * s <= value c) /\ (flt c (fadd (fsum a) (fsum b)) = true -> value c < (1 + u) ^ k * s).
Proof.
  intros Oc Oa Ob. cbv zeta. pose proof (tree_test c (two_sums a b) Oc) as T. rewrite two_sums_val, two_sums_rsum, two_sums_leaves in T. cbv zeta in T.
  replace (length ((f0 :: a) ++ f0 :: b) - 1)%nat with (S (length (a ++ b))) in T by (rewrite !app_length; cbn [length]; lia). apply T.
  apply Forall_app. split; constructor; auto using ok_f0.
Qed.
Lemma edge_test_whole c a b ns : ok c -> value c < IZR (2 ^ 53) -> Forall2 whole (a ++ b) ns -> Forall (fun k => (0 <= k)%Z) ns ->
  flt c (fadd (fsum a) (fsum b)) = Rlt_bool (value c) (rsum (vals (a ++ b))).
Proof.
  intros (Fc & Pc) Tc W N. apply Forall2_app_inv_l in W. destruct W as (na & nb & Wa & Wb & ->). apply Forall_app in N. destruct N as (Na & Nb).
  assert (W0 : whole f0 0) by (split; [reflexivity|apply value_f0]).
  assert (HW : Forall2 whole (leaves (two_sums a b)) ((0 :: na) ++ 0 :: nb)%Z) by (rewrite two_sums_leaves; apply Forall2_app; constructor; auto).
  assert (HN : Forall (fun k => (0 <= k)%Z) ((0 :: na) ++ 0 :: nb)%Z) by (apply Forall_app; split; constructor; auto; lia).
  assert (E : rsum (vals (a ++ b)) = IZR (zsum ((0 :: na) ++ 0 :: nb)%Z)).
  { rewrite <- two_sums_rsum. assert (V : vals (leaves (two_sums a b)) = map IZR ((0 :: na) ++ 0 :: nb)%Z) by (clear - HW; induction HW as [|x n l ns (_ & V) _ IH]; cbn [vals map]; auto; rewrite V; f_equal; exact IH). rewrite V. clear. generalize ((0 :: na) ++ 0 :: nb)%Z. intros l. unfold rsum, zsum. induction l as [|x l IH]; cbn [map fold_right]; auto. now rewrite IH, plus_IZR. }
  rewrite E, <- two_sums_val. destruct (tree_whole _ _ HW HN) as [((F & ->%eq_sym) & _)|[(-> & L)|(F & L1 & L)]].
  - now apply flt_ok.
  - rewrite (flt_inf c Fc), Rlt_bool_true; auto. apply IZR_le in L. lra.
  - rewrite (flt_ok c _ Fc F), !Rlt_bool_true; auto; [apply IZR_le in L; lra|lra].
Qed.
Lemma vertex_sum a x : fadd (fsum a) x = fsum (a ++ [x]).
Proof. unfold fsum. now rewrite fold_left_app. Qed.
Lemma vertex_test c a : ok c -> Forall ok a -> let s := rsum (vals a) in
  (flt c (fsum a) = false -> (1 - u) ^ length a * s <= value c) /\ (flt c (fsum a) = true -> value c < (1 + u) ^ length a * s).
Proof.
  intros Oc Oa. cbv zeta. pose proof (tree_test c (seq_red a (Val f0)) Oc) as T. rewrite seq_red_val, seq_red_leaves in T. cbn [leaves reduced app] in T. cbv zeta in T. rewrite rsum_cons, value_f0, Rplus_0_l in T. cbn [length] in T.
  replace (S (length a) - 1)%nat with (length a) in T by lia. apply T. constructor; auto using ok_f0.
Qed.
Lemma vertex_test_whole c a ns : ok c -> value c < IZR (2 ^ 53) -> Forall2 whole a ns -> Forall (fun k => (0 <= k)%Z) ns ->
  flt c (fsum a) = Rlt_bool (value c) (rsum (vals a)).
Proof.
  intros (Fc & Pc) Tc W N. destruct (fsum_red a) as (-> & L). assert (W0 : whole f0 0) by (split; [reflexivity|apply value_f0]).
  assert (HW : Forall2 whole (leaves (seq_red a (Val f0))) (0 :: ns)%Z) by (rewrite L; constructor; auto).
  assert (HN : Forall (fun k => (0 <= k)%Z) (0 :: ns)%Z) by (constructor; auto; lia).
  assert (E : rsum (vals a) = IZR (zsum (0 :: ns)%Z)). { change (zsum (0 :: ns)%Z) with (zsum ns). clear - W. unfold rsum, zsum. induction W as [|x n l ns (_ & V) _ IH]; cbn [vals map fold_right]; auto. unfold vals in IH. now rewrite IH, V, plus_IZR. }
  rewrite E. destruct (tree_whole _ _ HW HN) as [((F & ->%eq_sym) & _)|[(-> & G)|(F & L1 & G)]].
  - now apply flt_ok.
  - rewrite (flt_inf c Fc), Rlt_bool_true; auto. apply IZR_le in G. lra.
  - rewrite (flt_ok c _ Fc F), !Rlt_bool_true; auto; [apply IZR_le in G; lra|lra].
Qed.
