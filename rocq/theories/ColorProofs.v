(** The parallel edge adjacency. *)
From Verif Require Import Base GraphModel GraphSpec CsrProofs ConstructProofs AccessProofs GraphTop SecondAdjModel ColorModel.

Lemma pmem_ok m k : pmem m k = true <-> In k m.
Proof.
  unfold pmem. rewrite existsb_exists. split.
  - intros ([a b] & I & E). apply andb_true_iff in E as (E1 & E2). apply Nat.eqb_eq in E1, E2. destruct k. cbn in *. now subst.
  - intros I. exists k. split; auto. now rewrite !Nat.eqb_refl.
Qed.
Lemma inserted_gen ops : forall m, NoDup m -> let r := fold_left (fun m k => if pmem m k then m else m ++ [k]) ops m in NoDup r /\ (forall k, In k r <-> In k m \/ In k ops) /\ length r <= length m + length ops.
Proof.
  induction ops as [|k ops IH]; intros m N; cbn [fold_left]; [split; auto; split; [cbn; tauto|lia]|]. destruct (pmem m k) eqn:E.
  - destruct (IH m N) as (A & B & C). split; auto. split; [|cbn; lia]. intros x. rewrite B. apply pmem_ok in E. cbn. intuition (subst; auto).
  - destruct (IH (m ++ [k])) as (A & B & C).
    { apply NoDup_app_iff. split; auto. split; [repeat constructor; auto|]. intros x I [<-|[]]. apply pmem_ok in I. congruence. }
    split; auto. split; [|rewrite app_length in C; cbn in *; lia]. intros x. rewrite B, in_app_iff. cbn. tauto.
Qed.
Lemma inserted_ok ops : NoDup (inserted ops) /\ (forall k, In k (inserted ops) <-> In k ops) /\ length (inserted ops) <= length ops.
Proof. destruct (inserted_gen ops [] (NoDup_nil _)) as (A & B & C). split; auto. split; [intros k; rewrite B; cbn; tauto|exact C]. Qed.

Lemma mapM_ex X Y (f : X -> option Y) l : (forall x, In x l -> exists y, f x = Some y) -> exists ys, mapM f l = Some ys.
Proof. induction l as [|x l IH]; intros H; cbn; [eauto|]. destruct (H x (or_introl eq_refl)) as (y & ->). destruct IH as (ys & ->); [intros; apply H; cbn; auto|]. cbn. eauto. Qed.

(** counting *)
Lemma cnt_perm a (l l' : list (nat * nat)) : Permutation l l' -> cnt_of a l = cnt_of a l'.
Proof. unfold cnt_of, vals_of. intros P. rewrite !map_length. induction P; cbn; auto; repeat (destruct (_ =? _); cbn); lia. Qed.
Lemma nth_upd_eq A (l : list A) i x : i < length l -> nth_error (upd l i x) i = Some x.
Proof. revert i. induction l as [|y l IH]; intros [|i] L; cbn in *; try lia; auto. apply IH. lia. Qed.
Lemma nth_upd_neq A (l : list A) i j x : i <> j -> nth_error (upd l i x) j = nth_error l j.
Proof. revert i j. induction l as [|y l IH]; intros [|i] [|j] N; cbn; auto; try congruence. Qed.
Lemma upd_len A (l : list A) i x : length (upd l i x) = length l.
Proof. revert i. induction l as [|y l IH]; intros [|i]; cbn; auto. Qed.
Lemma count_done n (order : list (nat * nat)) : (forall k, In k order -> fst k < n) -> forall d f, length d = n + 1 -> (forall a, a < n -> nth_error d (a + 1) = Some (f a)) -> nth_error d 0 = Some 0 ->
  exists d', foldM (fun d k => bump d (fst k + 1)) order d = Some d' /\ length d' = n + 1 /\ nth_error d' 0 = Some 0 /\ forall a, a < n -> nth_error d' (a + 1) = Some (f a + cnt_of a order).
Proof.
  induction order as [|k order IH]; intros HK d f L H Z0; cbn [foldM].
  - exists d. split; auto. split; auto. split; auto. intros a La. rewrite (H a La). f_equal. unfold cnt_of, vals_of. cbn. lia.
  - pose proof (HK k (or_introl eq_refl)) as Lk. unfold bump. rewrite (H _ Lk). cbn [obind].
    destruct (IH (fun x Hx => HK x (or_intror Hx)) (upd d (fst k + 1) (f (fst k) + 1)) (fun a => f a + if fst k =? a then 1 else 0)) as (d' & E & L' & Z' & H').
    + now rewrite upd_len.
    + intros a La. destruct (Nat.eqb_spec (fst k) a) as [<-|N]; [rewrite nth_upd_eq by lia; f_equal; lia|rewrite nth_upd_neq by lia; rewrite H by auto; f_equal; lia].
    + rewrite nth_upd_neq by lia. auto.
    + exists d'. split; auto. split; auto. split; auto. intros a La. rewrite (H' a La). f_equal. unfold cnt_of, vals_of. cbn [filter]. destruct (fst k =? a); cbn; lia.
Qed.
Lemma sums_nth l : forall acc i, i < length l -> nth_error (sums acc l) i = Some (acc + nsum (firstn (S i) l)).
Proof. unfold nsum. induction l as [|x l IH]; intros acc [|i] L; cbn in *; try lia; [f_equal; lia|]. rewrite IH by lia. cbn. f_equal. lia. Qed.
Lemma firstn_counts (d : list nat) (c : nat -> nat) n : length d = n -> (forall a, a < n -> nth_error d a = Some (c a)) -> d = map c (seq 0 n).
Proof.
  intros L H. apply nth_error_ext. intros i. destruct (Nat.lt_ge_cases i n) as [Li|G].
  - rewrite H by auto. rewrite nth_error_map, (nth_error_nth' _ 0) by (rewrite seq_length; auto). now rewrite seq_nth by auto.
  - rewrite !(proj2 (nth_error_None _ _)); auto; rewrite ?map_length, ?seq_length; lia.
Qed.
Lemma scan_ok cnt n (c : nat -> nat) : length cnt = n + 1 -> nth_error cnt 0 = Some 0 -> (forall a, a < n -> nth_error cnt (a + 1) = Some (c a)) ->
  length (scan cnt) = n + 1 /\ forall k, k <= n -> nth_error (scan cnt) k = Some (nsum (map c (seq 0 k))).
Proof.
  intros L Z0 H. destruct cnt as [|x r]; [discriminate|]. cbn in Z0. inversion Z0; subst x. cbn in L. assert (Lr : length r = n) by lia.
  assert (Er : r = map c (seq 0 n)). { apply firstn_counts; auto. intros a La. specialize (H a La). rewrite Nat.add_1_r in H. exact H. }
  assert (LS : forall l acc, length (sums acc l) = length l) by (induction l; intros; cbn; auto). cbn [scan]. split; [cbn; rewrite LS; lia|].
  intros [|k] Lk; [reflexivity|]. cbn [nth_error]. rewrite sums_nth by lia. f_equal. cbn [Nat.add]. f_equal. rewrite Er, firstn_map. f_equal.
  replace n with (S k + (n - S k)) by lia. rewrite seq_app, firstn_app, seq_length, Nat.sub_diag, firstn_O, app_nil_r. apply firstn_all2. rewrite seq_length. lia.
Qed.

(** the loop that fills the lists, under any schedule *)
Section Fill.
Variables (slots : list (nat * nat)) (n : nat) (off : list nat) (tot : nat).
Hypothesis ND : NoDup slots.
Hypothesis RG : forall k, In k slots -> fst k < n.
Notation c a := (cnt_of a slots).
Notation o k := (nsum (map (fun a => cnt_of a slots) (seq 0 k))).
Hypothesis OFF : forall k, k <= n -> nth_error off k = Some (o k).
Hypothesis TOT : tot = o n.
Definition started (p : list pc) (i : nat) : bool := match nth_error p i with Some Start | None => false | _ => true end.
Definition key (i : nat) : nat := match nth_error slots i with Some k => fst k | None => n end.
Definition nstarted (p : list pc) (a : nat) : nat := length (filter (fun i => started p i && (key i =? a)) (seq 0 (length slots))).
Record FInv (s : fstate) (ix : nat -> nat) : Prop := mkFI {
  fi_len : length (f_pc s) = length slots;
  fi_clen : length (f_cnt s) = n;
  fi_olen : length (f_out s) = tot;
  fi_init : forall i, i < tot -> exists x, aget (f_out s) i = Some x;
  fi_cnt : forall a, a < n -> nth_error (f_cnt s) a = Some (nstarted (f_pc s) a);
  fi_fetched : forall i k, nth_error (f_pc s) i = Some (Fetched k) -> k = ix i;
  fi_lt : forall i, started (f_pc s) i = true -> ix i < nstarted (f_pc s) (key i);
  fi_inj : forall i j, started (f_pc s) i = true -> started (f_pc s) j = true -> key i = key j -> ix i = ix j -> i = j;
  fi_done : forall i a b, nth_error (f_pc s) i = Some Finished -> nth_error slots i = Some (a, b) -> aget (f_out s) (o a + ix i) = Some b }.
Lemma key_count a : length (filter (fun i => key i =? a) (seq 0 (length slots))) = if a <? n then c a else length (filter (fun i => key i =? a) (seq 0 (length slots))).
Proof.
  destruct (a <? n) eqn:E; [|reflexivity]. clear E. unfold cnt_of, vals_of. rewrite map_length. unfold key. generalize n. clear. intros n0.
  assert (G : forall (l : list (nat * nat)) k, length (filter (fun i => (match nth_error l (i - k) with Some x => fst x | None => n0 end) =? a) (seq k (length l))) = length (filter (fun p => fst p =? a) l)).
  { induction l as [|x l IH]; intros k; [reflexivity|]. cbn [length seq filter]. rewrite Nat.sub_diag. cbn [nth_error]. specialize (IH (S k)).
    rewrite (filter_ext_in (fun i => (match nth_error (x :: l) (i - k) with Some x => fst x | None => n0 end) =? a) (fun i => (match nth_error l (i - S k) with Some x => fst x | None => n0 end) =? a)).
    - destruct (fst x =? a); cbn [length]; congruence.
    - intros i Hi. apply in_seq in Hi. replace (i - k) with (S (i - S k)) by lia. reflexivity. }
  rewrite <- (G slots 0). f_equal. apply filter_ext. intros i. now rewrite Nat.sub_0_r.
Qed.
Lemma nstarted_le p a : a < n -> nstarted p a <= c a.
Proof.
  intros L. unfold nstarted. assert (X : length (filter (fun i => key i =? a) (seq 0 (length slots))) = c a) by (rewrite key_count; now rewrite (proj2 (Nat.ltb_lt a n) L)).
  rewrite <- X. generalize (seq 0 (length slots)). clear. intros l. induction l as [|i l IH]; cbn; [lia|]. destruct (started p i); destruct (key i =? a); cbn; lia.
Qed.
Lemma started_upd p i q x : i < length p -> started (upd p i x) q = if q =? i then match x with Start => false | _ => true end else started p q.
Proof. intros L. unfold started. destruct (Nat.eqb_spec q i) as [->|N]; [now rewrite nth_upd_eq|now rewrite nth_upd_neq by auto]. Qed.
Lemma nstarted_same p i x a : i < length p -> started p i = true -> x <> Start -> nstarted (upd p i x) a = nstarted p a.
Proof.
  intros L S N. unfold nstarted. f_equal. apply filter_ext. intros j. rewrite started_upd by auto. destruct (Nat.eqb_spec j i) as [->|]; auto. rewrite S. destruct x; congruence.
Qed.
Lemma nstarted_new p i k a : length p = length slots -> i < length p -> started p i = false -> nstarted (upd p i (Fetched k)) a = nstarted p a + if key i =? a then 1 else 0.
Proof.
  intros LP L S. unfold nstarted. assert (G : forall l, NoDup l -> length (filter (fun j => started (upd p i (Fetched k)) j && (key j =? a)) l) = length (filter (fun j => started p j && (key j =? a)) l) + if existsb (Nat.eqb i) l && (key i =? a) then 1 else 0).
  { induction l as [|j l IH]; intros N; [reflexivity|]. inversion N as [|? ? NI N']; subst. specialize (IH N'). cbn [filter existsb]. rewrite started_upd by auto. destruct (Nat.eqb_spec j i) as [->|NE].
    - rewrite Nat.eqb_refl. cbn [orb andb]. rewrite S. cbn [andb]. assert (EX : existsb (Nat.eqb i) l = false). { apply Bool.not_true_is_false. intros X. apply existsb_exists in X as (y & Y & E). apply Nat.eqb_eq in E. now subst. }
      rewrite EX in IH. cbn [andb] in IH. destruct (key i =? a); cbn [length]; lia.
    - destruct (Nat.eqb_spec i j); [congruence|]. cbn [orb]. destruct (started p j && (key j =? a)); cbn [length]; lia. }
  rewrite G by apply seq_NoDup. f_equal. replace (existsb (Nat.eqb i) (seq 0 (length slots))) with true; [reflexivity|]. symmetry. apply existsb_exists. exists i. split; [apply in_seq; lia|apply Nat.eqb_refl].
Qed.
Lemma o_mono a k : a < n -> k < c a -> o a + k < tot.
Proof.
  intros L K. subst tot. replace n with (a + (1 + (n - a - 1))) by lia. rewrite seq_app, map_app, nsum_app. cbn [Nat.add seq map]. change (nsum (c a :: ?l)) with (c a + nsum l). cbn [nsum fold_right]. unfold nsum. cbn. lia.
Qed.
Lemma o_apart a b k m : a < n -> b < n -> k < c a -> m < c b -> o a + k = o b + m -> a = b /\ k = m.
Proof.
  intros La Lb K M E. assert (G : forall x y, x < y -> o x + c x <= o y).
  { intros x y L. replace y with (x + (1 + (y - x - 1))) by lia. rewrite seq_app, map_app, nsum_app. cbn [Nat.add seq map]. unfold nsum. cbn. lia. }
  destruct (Nat.lt_trichotomy a b) as [L|[->|L]]; [specialize (G a b L); lia|lia|specialize (G b a L); lia].
Qed.
Lemma fill_one s ix i : FInv s ix -> exists s' ix', fill_step off slots s i = Some s' /\ FInv s' ix'.
Proof.
  intros I. unfold fill_step. destruct (nth_error slots i) as [[a b]|] eqn:Es; [|eauto]. destruct (nth_error (f_pc s) i) as [p|] eqn:Ep; [|eauto].
  assert (La : a < n) by (apply (RG (a, b)); eapply nth_error_In; eauto). assert (Li : i < length (f_pc s)) by (apply nth_error_Some; congruence). assert (KI : key i = a) by (unfold key; now rewrite Es).
  destruct p as [|k|]; [| |eauto].
  - rewrite (fi_cnt _ _ I a La). cbn [obind]. unfold bump. rewrite (fi_cnt _ _ I a La). cbn [obind]. set (k := nstarted (f_pc s) a) in *. assert (SF : started (f_pc s) i = false) by (unfold started; now rewrite Ep).
    exists (mkF (upd (f_cnt s) a (k + 1)) (f_out s) (upd (f_pc s) i (Fetched k))), (fun j => if j =? i then k else ix j). split; auto.
    assert (NS : forall x, nstarted (upd (f_pc s) i (Fetched k)) x = nstarted (f_pc s) x + if a =? x then 1 else 0) by (intros x; rewrite nstarted_new; [now rewrite KI|apply I|auto|auto]).
    constructor; cbn [f_pc f_cnt f_out].
    + rewrite upd_len. apply I.
    + rewrite upd_len. apply I.
    + apply I.
    + apply I.
    + intros x Lx. rewrite NS. destruct (Nat.eqb_spec a x) as [<-|N]; [rewrite nth_upd_eq by (rewrite (fi_clen _ _ I); auto); reflexivity|rewrite nth_upd_neq by auto; rewrite (fi_cnt _ _ I x Lx); f_equal; lia].
    + intros j m H. destruct (Nat.eqb_spec j i) as [->|N]; [rewrite nth_upd_eq in H by auto; congruence|rewrite nth_upd_neq in H by auto; eapply (fi_fetched _ _ I); eauto].
    + intros j H. rewrite started_upd in H by auto. rewrite NS. destruct (Nat.eqb_spec j i) as [EJ|N]; [subst j; rewrite KI, Nat.eqb_refl; unfold k; lia|]. pose proof (fi_lt _ _ I j H). lia.
    + intros j m Hj Hm EK EI. rewrite started_upd in Hj, Hm by auto. destruct (Nat.eqb_spec j i) as [EJ|N]; destruct (Nat.eqb_spec m i) as [EM|N2]; try subst j; try subst m; auto.
      * exfalso. pose proof (fi_lt _ _ I m Hm) as X. rewrite <- EK, KI in X. fold k in X. lia.
      * exfalso. pose proof (fi_lt _ _ I j Hj) as X. rewrite EK, KI in X. fold k in X. lia.
      * now apply (fi_inj _ _ I).
    + intros j a' b' Hj Hs. destruct (Nat.eqb_spec j i) as [->|N]; [rewrite nth_upd_eq in Hj by auto; discriminate|]. rewrite nth_upd_neq in Hj by auto. eapply (fi_done _ _ I); eauto.
  - rewrite (OFF a) by lia. cbn [obind]. pose proof (fi_fetched _ _ I i k Ep) as EK. subst k. assert (ST : started (f_pc s) i = true) by (unfold started; now rewrite Ep).
    pose proof (fi_lt _ _ I i ST) as LT. rewrite KI in LT. assert (LC : ix i < c a) by (pose proof (nstarted_le (f_pc s) a La); lia). pose proof (o_mono a (ix i) La LC) as LO.
    unfold aset. rewrite (fi_olen _ _ I). rewrite (proj2 (Nat.ltb_lt _ _) LO). cbn [obind].
    exists (mkF (f_cnt s) (upd (f_out s) (o a + ix i) (Some b)) (upd (f_pc s) i Finished)), ix. split; auto.
    assert (NS : forall x, nstarted (upd (f_pc s) i Finished) x = nstarted (f_pc s) x) by (intros x; apply nstarted_same; auto; discriminate).
    assert (SS : forall j, started (upd (f_pc s) i Finished) j = started (f_pc s) j) by (intros j; rewrite started_upd by auto; destruct (Nat.eqb_spec j i) as [->|]; auto).
    constructor; cbn [f_pc f_cnt f_out].
    + rewrite upd_len. apply I.
    + apply I.
    + rewrite upd_len. apply I.
    + intros x Lx. unfold aget. destruct (Nat.eq_dec (o a + ix i) x) as [<-|N]; [rewrite nth_upd_eq by (rewrite (fi_olen _ _ I); auto); eauto|rewrite nth_upd_neq by auto; apply (fi_init _ _ I x Lx)].
    + intros x Lx. rewrite NS. now apply (fi_cnt _ _ I).
    + intros j m H. destruct (Nat.eqb_spec j i) as [->|N]; [rewrite nth_upd_eq in H by auto; congruence|rewrite nth_upd_neq in H by auto; eapply (fi_fetched _ _ I); eauto].
    + intros j H. rewrite SS in H. rewrite NS. now apply (fi_lt _ _ I).
    + intros j m Hj Hm. rewrite SS in Hj, Hm. now apply (fi_inj _ _ I).
    + intros j a' b' Hj Hs. unfold aget. destruct (Nat.eqb_spec j i) as [->|N].
      * rewrite Es in Hs. inversion Hs; subst a' b'. rewrite nth_upd_eq by (rewrite (fi_olen _ _ I); auto). reflexivity.
      * rewrite nth_upd_neq in Hj by auto. assert (SJ : started (f_pc s) j = true) by (unfold started; now rewrite Hj). assert (KJ : key j = a') by (unfold key; now rewrite Hs). assert (La' : a' < n) by (apply (RG (a', b')); eapply nth_error_In; eauto).
        pose proof (fi_lt _ _ I j SJ) as LJ. rewrite KJ in LJ. pose proof (nstarted_le (f_pc s) a' La'). rewrite nth_upd_neq; [exact (fi_done _ _ I j a' b' Hj Hs)|]. intros E. destruct (o_apart a a' (ix i) (ix j) La La' LC ltac:(lia) E) as (<- & EI). apply N. symmetry. apply (fi_inj _ _ I); auto. congruence.
Qed.
Lemma fill_first : FInv (fill_init n tot (length slots)) (fun _ => 0).
Proof.
  assert (S0 : forall i, started (repeat Start (length slots)) i = false). { intros i. unfold started. destruct (nth_error _ i) as [p|] eqn:E; auto. apply nth_error_In, repeat_spec in E. now subst. }
  constructor; cbn [fill_init f_pc f_cnt f_out].
  - apply repeat_length.
  - apply repeat_length.
  - unfold ainit. now rewrite map_length, repeat_length.
  - intros i L. rewrite aget_ainit. destruct (nth_error (repeat 0 tot) i) eqn:E; eauto. apply nth_error_None in E. rewrite repeat_length in E. lia.
  - intros a L. unfold nstarted. rewrite (filter_ext _ (fun _ => false)) by (intros j; now rewrite S0). assert (X : forall l : list nat, filter (fun _ => false) l = []) by (induction l; auto). rewrite X.
    rewrite (nth_error_nth' _ 0) by (now rewrite repeat_length). now rewrite nth_repeat.
  - intros i k H. apply nth_error_In, repeat_spec in H. discriminate.
  - intros i H. rewrite S0 in H. discriminate.
  - intros i j H. rewrite S0 in H. discriminate.
  - intros i a b H. apply nth_error_In, repeat_spec in H. discriminate.
Qed.
Lemma fill_all sch : exists s ix, foldM (fill_step off slots) sch (fill_init n tot (length slots)) = Some s /\ FInv s ix.
Proof.
  assert (G : forall sch s ix, FInv s ix -> exists s' ix', foldM (fill_step off slots) sch s = Some s' /\ FInv s' ix').
  { induction sch0 as [|i sch0 IH]; intros s ix I; cbn [foldM]; [eauto|]. destruct (fill_one s ix i I) as (s1 & ix1 & -> & I1). cbn [obind]. eauto. }
  eapply G. apply fill_first.
Qed.
Lemma fill_result s ix : FInv s ix -> Forall (eq Finished) (f_pc s) -> forall a, a < n ->
  exists row, mapM (aget (f_out s)) (seq (o a) (c a)) = Some row /\ NoDup row /\ forall b, In b row <-> In (a, b) slots.
Proof.
  intros I F a La. assert (FI : forall i k, nth_error slots i = Some k -> nth_error (f_pc s) i = Some Finished).
  { intros i k H. assert (L : i < length (f_pc s)) by (rewrite (fi_len _ _ I); apply nth_error_Some; congruence). destruct (nth_error (f_pc s) i) eqn:E; [|apply nth_error_None in E; lia]. rewrite Forall_forall in F. now rewrite <- (F _ (nth_error_In _ _ E)). }
  set (T := filter (fun i => key i =? a) (seq 0 (length slots))).
  assert (LT : length T = c a) by (unfold T; rewrite key_count; now rewrite (proj2 (Nat.ltb_lt a n) La)).
  assert (TI : forall i, In i T <-> exists b, nth_error slots i = Some (a, b)).
  { intros i. unfold T. rewrite filter_In, in_seq, Nat.eqb_eq. split.
    - intros ((_ & L) & K). unfold key in K. destruct (nth_error slots i) as [[x y]|] eqn:E; [cbn in K; subst; eauto|lia].
    - intros (b & E). split; [split; [lia|apply nth_error_Some; congruence]|]. unfold key. now rewrite E. }
  assert (ST : forall i, In i T -> started (f_pc s) i = true) by (intros i H; apply TI in H as (b & E); unfold started; now rewrite (FI _ _ E)).
  assert (KT : forall i, In i T -> key i = a) by (intros i H; apply TI in H as (b & E); unfold key; now rewrite E).
  assert (IL : forall i, In i T -> ix i < c a). { intros i H. pose proof (fi_lt _ _ I i (ST i H)) as X. rewrite (KT i H) in X. pose proof (nstarted_le (f_pc s) a La). lia. }
  assert (ON : forall k, k < c a -> exists i b, nth_error slots i = Some (a, b) /\ ix i = k).
  { assert (NDT : NoDup (map ix T)).
    { assert (G : forall l, NoDup l -> (forall i, In i l -> In i T) -> NoDup (map ix l)).
      { induction l as [|i l IH]; intros N H; cbn; constructor; [|apply IH; [now inversion N|intros; apply H; cbn; auto]].
        intros X. apply in_map_iff in X as (j & E & Hj). inversion N; subst. assert (j = i). { apply (fi_inj _ _ I); auto; [apply ST, H; cbn; auto|apply ST, H; cbn; auto|]. rewrite !KT by (apply H; cbn; auto). reflexivity. } now subst j. }
      apply G; auto. apply NoDup_filter, seq_NoDup. }
    assert (IC : incl (seq 0 (c a)) (map ix T)).
    { apply NoDup_length_incl; auto; [rewrite map_length, seq_length; lia|]. intros k Hk. apply in_map_iff in Hk as (i & <- & Hi). apply in_seq. specialize (IL i Hi). lia. }
    intros k Hk. assert (X : In k (map ix T)) by (apply IC, in_seq; lia). apply in_map_iff in X as (i & E & Hi). apply TI in Hi as (b & Hb). eauto. }
  destruct (mapM_ex _ _ (aget (f_out s)) (seq (o a) (c a))) as (row & ER).
  { intros x Hx. apply in_seq in Hx. apply (fi_init _ _ I). pose proof (o_mono a (x - o a) La ltac:(lia)). lia. }
  exists row. split; auto. pose proof (mapM_length _ _ _ _ _ ER) as LR. rewrite seq_length in LR.
  assert (NT : forall k b, nth_error row k = Some b <-> exists i, nth_error slots i = Some (a, b) /\ ix i = k).
  { intros k b. split.
    - intros H. assert (Lk : k < c a) by (rewrite <- LR; apply nth_error_Some; congruence). destruct (ON k Lk) as (i & b' & Hi & Ei). pose proof (fi_done _ _ I i a b' (FI _ _ Hi) Hi) as X. rewrite Ei in X.
      destruct (mapM_nth _ _ _ _ _ k (o a + k) ER) as (y & Hy & Ey); [rewrite (nth_error_nth' _ 0) by (rewrite seq_length; auto); now rewrite seq_nth by auto|]. assert (b' = b) by congruence. subst. eauto.
    - intros (i & Hi & <-). pose proof (fi_done _ _ I i a b (FI _ _ Hi) Hi) as X. assert (Lk : ix i < c a) by (apply IL, TI; eauto). destruct (mapM_nth _ _ _ _ _ (ix i) (o a + ix i) ER) as (y & Hy & Ey); [rewrite (nth_error_nth' _ 0) by (rewrite seq_length; auto); now rewrite seq_nth by auto|]. congruence. }
  split.
  - apply NoDup_nth_error. intros k k' Lk E. destruct (nth_error row k) as [b|] eqn:E1; [|apply nth_error_None in E1; lia]. symmetry in E. apply NT in E1 as (i & Hi & <-). apply NT in E as (j & Hj & <-). f_equal. rewrite NoDup_nth_error in ND. apply ND; [apply nth_error_Some; congruence|congruence].
  - intros b. split.
    + intros H. apply In_nth_error in H as (k & Hk). apply NT in Hk as (i & Hi & _). eapply nth_error_In; eauto.
    + intros H. apply In_nth_error in H as (i & Hi). eapply nth_error_In. apply NT. eauto.
Qed.
End Fill.
(** every schedule that lets each thread act twice ends the loop *)
Lemma fill_ends slots n off tot sch s : foldM (fill_step off slots) sch (fill_init n tot (length slots)) = Some s -> (forall i, i < length slots -> 2 <= count_occ Nat.eq_dec sch i) -> Forall (eq Finished) (f_pc s).
Proof.
  set (left := fun p => match p with Start => 2 | Fetched _ => 1 | Finished => 0 end).
  assert (G : forall sch s s', foldM (fill_step off slots) sch s = Some s' -> length (f_pc s) = length slots -> length (f_pc s') = length slots /\ forall i p p', nth_error (f_pc s) i = Some p -> nth_error (f_pc s') i = Some p' -> left p' <= left p - count_occ Nat.eq_dec sch i).
  { induction sch0 as [|j sch0 IH]; intros s0 s' E L; cbn [foldM] in E.
    - inversion E; subst. split; auto. intros i p p' H H'. cbn. assert (p = p') by congruence. subst. lia.
    - destruct (fill_step off slots s0 j) as [s1|] eqn:E1; [|discriminate]. cbn [obind] in E.
      assert (X : length (f_pc s1) = length slots /\ forall i p p1, nth_error (f_pc s0) i = Some p -> nth_error (f_pc s1) i = Some p1 -> left p1 <= left p - if Nat.eq_dec j i then 1 else 0).
      { unfold fill_step in E1. destruct (nth_error slots j) as [[a b]|] eqn:Es.
        2:{ inversion E1; subst. split; auto. intros i p p1 H H'. assert (p = p1) by congruence. subst. destruct (Nat.eq_dec j i) as [->|]; [|lia]. exfalso. apply nth_error_None in Es. assert (i < length (f_pc s1)) by (apply nth_error_Some; congruence). lia. }
        destruct (nth_error (f_pc s0) j) as [p0|] eqn:Ep; [|apply nth_error_None in Ep; assert (j < length slots) by (apply nth_error_Some; congruence); lia]. assert (Lj : j < length (f_pc s0)) by (apply nth_error_Some; congruence).
        destruct p0 as [|k|].
        - destruct (nth_error (f_cnt s0) a); [|discriminate]. cbn [obind] in E1. destruct (bump _ _); [|discriminate]. inversion E1; subst. cbn [f_pc]. split; [now rewrite upd_len|]. intros i p p1 H H'. destruct (Nat.eq_dec j i) as [->|N]; [rewrite nth_upd_eq in H' by auto; assert (p = Start) by congruence; subst; inversion H'; cbn; lia|rewrite nth_upd_neq in H' by auto; assert (p = p1) by congruence; subst; lia].
        - destruct (nth_error off a); [|discriminate]. cbn [obind] in E1. destruct (aset _ _ _); [|discriminate]. inversion E1; subst. cbn [f_pc]. split; [now rewrite upd_len|]. intros i p p1 H H'. destruct (Nat.eq_dec j i) as [->|N]; [rewrite nth_upd_eq in H' by auto; inversion H'; cbn; lia|rewrite nth_upd_neq in H' by auto; assert (p = p1) by congruence; subst; lia].
        - inversion E1; subst. split; auto. intros i p p1 H H'. assert (p = p1) by congruence. subst. destruct (Nat.eq_dec j i) as [->|]; [|lia]. assert (p1 = Finished) by congruence. subst. cbn. lia. }
      destruct X as (L1 & X). destruct (IH s1 s' E L1) as (L' & Y). split; auto. intros i p p' H H'. destruct (nth_error (f_pc s1) i) as [p1|] eqn:H1; [|apply nth_error_None in H1; assert (i < length (f_pc s0)) by (apply nth_error_Some; congruence); lia].
      specialize (X i p p1 H H1). specialize (Y i p1 p' H1 H'). cbn [count_occ]. destruct (Nat.eq_dec j i); lia. }
  intros E H. destruct (G sch _ s E) as (L & X); [apply repeat_length|]. apply Forall_forall. intros p Hp. apply In_nth_error in Hp as (i & Hi). assert (Li : i < length slots) by (rewrite <- L; apply nth_error_Some; congruence).
  assert (X1 := X i Start p ltac:(cbn [fill_init f_pc]; rewrite (nth_error_nth' _ Start) by (now rewrite repeat_length); now rewrite nth_repeat) Hi). specialize (H i Li). unfold left in X1; destruct p; [lia|lia|reflexivity].
Qed.
