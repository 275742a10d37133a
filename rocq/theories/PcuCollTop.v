(** Consequences for PCU_Add/Min/Max, PCU_Exscan and PCU_Barrier. *)
From Verif Require Import Base PcuCollModel PcuCollExec PcuCollProofs.

(** [prog] holds the steps every rank executes *)
Definition runs (n : nat) (code : nat -> nat -> option (list cact)) (prog : nat -> list cact) : Prop :=
  forall r, r < n -> code n r = Some (prog r).

Section Top.
Context {A : Type}.
Variable m : A -> A -> A.
Variable n : nat.
Variable init : nat -> A.
Variable prog : nat -> list cact.
Hypothesis Hn : 0 < n.

Lemma allreduce_levels : runs n allreduce_prog prog -> forall r, r < n ->
  strip (prog r) = levels (ceil_log2 n + ceil_log2 n) (act_all n) r 0.
Proof. intros H r Hr. destruct (allreduce_prog_levels n r Hr) as (l & H1 & H2). rewrite H in H1 by auto. congruence. Qed.
Lemma scan_levels : runs n scan_prog prog -> forall r, r < n ->
  strip (prog r) = levels (floor_log2 n + floor_log2 n) (act_scan n) r 0.
Proof. intros H r Hr. destruct (scan_prog_levels n r Hr) as (l & H1 & H2). rewrite H in H1 by auto. congruence. Qed.

Lemma allreduce_value i s r : (forall a b c, m (m a b) c = m a (m b c)) -> runs n allreduce_prog prog ->
  csteps m n i (cinit prog init) s -> r < n -> c_pc s r = [] ->
  c_val s r = fold_left m (map init (seq 1 (n - 1))) (init 0).
Proof.
  intros Ha Hp Hs Hr Hf.
  rewrite (finished_value m n (ceil_log2 n + ceil_log2 n) (act_all n) init prog (all_send n) (all_recv n) (allreduce_levels Hp) i s r) by auto.
  rewrite V_all_final by auto. now apply V_red_root.
Qed.
Lemma allreduce_agree i s r q : runs n allreduce_prog prog ->
  csteps m n i (cinit prog init) s -> r < n -> q < n -> c_pc s r = [] -> c_pc s q = [] -> c_val s r = c_val s q.
Proof.
  intros Hp Hs Hr Hq Hf Hfq.
  rewrite !(finished_value m n (ceil_log2 n + ceil_log2 n) (act_all n) init prog (all_send n) (all_recv n) (allreduce_levels Hp) i s) by auto.
  now rewrite !V_all_final by auto.
Qed.
Lemma allreduce_progress i s : runs n allreduce_prog prog -> csteps m n i (cinit prog init) s ->
  ~ finished n s -> exists s', cstep m n s s'.
Proof. intros Hp. apply (progress m n (ceil_log2 n + ceil_log2 n) (act_all n) init prog (all_send n) (all_recv n) (allreduce_levels Hp)). Qed.
Lemma allreduce_clean i s r q : runs n allreduce_prog prog -> csteps m n i (cinit prog init) s ->
  r < n -> c_pc s r = [] -> c_net s r q = [].
Proof. intros Hp. apply (finished_net m n (ceil_log2 n + ceil_log2 n) (act_all n) init prog (all_send n) (all_recv n) (allreduce_levels Hp)). Qed.
Lemma scan_value i s r : (forall a b c, m (m a b) c = m a (m b c)) -> runs n scan_prog prog ->
  csteps m n i (cinit prog init) s -> r < n -> c_pc s r = [] ->
  Some (c_val s r) = cmb m (map init (rev (seq 0 (r + 1)))).
Proof.
  intros Ha Hp Hs Hr Hf.
  rewrite (finished_value m n (floor_log2 n + floor_log2 n) (act_scan n) init prog (scan_send n) (scan_recv n) (scan_levels Hp) i s r) by auto.
  symmetry. now apply V_scan_final.
Qed.
Lemma scan_progress i s : runs n scan_prog prog -> csteps m n i (cinit prog init) s ->
  ~ finished n s -> exists s', cstep m n s s'.
Proof. intros Hp. apply (progress m n (floor_log2 n + floor_log2 n) (act_scan n) init prog (scan_send n) (scan_recv n) (scan_levels Hp)). Qed.
Lemma coll_bound i s : csteps m n i (cinit prog init) s ->
  i <= 2 * nsum (map (fun r => length (prog r)) (seq 0 n)).
Proof. clear Hn. intros H. pose proof (steps_bound m n _ _ _ H) as G. rewrite measure_init in G. lia. Qed.

Lemma all_ranks_in r q : r < n -> q < n -> In q (V (@app nat) (act_all n) (fun r => [r]) r (ceil_log2 n + ceil_log2 n)).
Proof.
  intros Hr Hq. rewrite V_all_final by auto.
  pose proof (V_red_root (@app nat) (fun a b c => eq_sym (app_assoc a b c)) n (fun r => [r]) Hn) as H.
  rewrite H. unfold total.
  assert (G : forall l a, In q a \/ In q l -> In q (fold_left (@app nat) (map (fun r => [r]) l) a)).
  { induction l as [|x l IH]; intros a Hin; simpl.
    - destruct Hin as [?|[]]; auto.
    - apply IH. rewrite in_app_iff. simpl in *. tauto. }
  apply G. destruct (Nat.eq_dec q 0); [left; left; auto|right; apply in_seq; lia].
Qed.
Lemma barrier i s r q : runs n allreduce_prog prog -> csteps m n i (cinit prog init) s ->
  r < n -> q < n -> q <> r -> c_pc s r = [] -> started prog s q.
Proof.
  intros Hp Hs Hr Hq Hne Hf.
  apply (finished_all_started m n (ceil_log2 n + ceil_log2 n) (act_all n) init prog (all_send n) (all_recv n) (allreduce_levels Hp) i s r q); auto.
  now apply all_ranks_in.
Qed.
End Top.

(* ---------------- elementwise operations ---------------- *)
Lemma zip_assoc f : (forall a b c, f (f a b) c = f a (f b c)) ->
  forall a b c, zip_with f (zip_with f a b) c = zip_with f a (zip_with f b c).
Proof.
  intros H. induction a as [|x a IH]; intros [|y b] [|z c]; try reflexivity.
  unfold zip_with in *. simpl. now rewrite H, IH.
Qed.
Lemma zip_length f a b : length (zip_with f a b) = Nat.min (length a) (length b).
Proof. unfold zip_with. now rewrite map_length, combine_length. Qed.
Lemma zip_nth f a b i : i < length a -> i < length b -> nth i (zip_with f a b) 0%Z = f (nth i a 0%Z) (nth i b 0%Z).
Proof.
  revert b i; induction a as [|x a IH]; intros [|y b] [|i] Ha Hb; simpl in *; try lia; auto.
  apply IH; lia.
Qed.
Lemma if_min a b : ((if Z.ltb b a then b else a) = Z.min a b)%Z.
Proof. destruct (Z.ltb_spec b a); lia. Qed.
Lemma if_max a b : ((if Z.ltb a b then b else a) = Z.max a b)%Z.
Proof. destruct (Z.ltb_spec a b); lia. Qed.
Lemma min_assoc a b c : let f := (fun a b : Z => if Z.ltb b a then b else a) in (f (f a b) c = f a (f b c))%Z.
Proof. cbv beta zeta. rewrite !if_min. lia. Qed.
Lemma max_assoc a b c : let f := (fun a b : Z => if Z.ltb a b then b else a) in (f (f a b) c = f a (f b c))%Z.
Proof. cbv beta zeta. rewrite !if_max. lia. Qed.

Lemma fold_zip f (l : list (list Z)) a len i : length a = len -> (forall x, In x l -> length x = len) -> i < len ->
  length (fold_left (zip_with f) l a) = len /\
  nth i (fold_left (zip_with f) l a) 0%Z = fold_left f (map (fun x => nth i x 0%Z) l) (nth i a 0%Z).
Proof.
  revert a. induction l as [|x l IH]; intros a Ha Hl Hi; simpl; auto.
  assert (length x = len) by (apply Hl; left; auto).
  destruct (IH (zip_with f a x)) as [H1 H2]; auto.
  - rewrite zip_length; lia.
  - intros; apply Hl; right; auto.
  - split; auto. rewrite H2. f_equal. apply zip_nth; lia.
Qed.
Lemma fold_add l a : (fold_left Z.add l a = a + zsum l)%Z.
Proof. revert a; induction l as [|x l IH]; intros a; simpl; [lia|]. rewrite IH. lia. Qed.
Lemma fold_min_Z l a : let f := (fun a b : Z => if Z.ltb b a then b else a) in
  (In (fold_left f l a) (a :: l)) /\ forall x, In x (a :: l) -> (fold_left f l a <= x)%Z.
Proof.
  cbv zeta. revert a; induction l as [|y l IH]; intros a; simpl.
  - split; auto. intros x [->|[]]; lia.
  - destruct (IH (if (y <? a)%Z then y else a)) as [H1 H2]. split.
    + destruct H1 as [H1|H1]; auto. rewrite <- H1. destruct (y <? a)%Z; auto.
    + intros x Hx. destruct (Z.ltb_spec y a).
      * destruct Hx as [->|[->|Hx]]; [transitivity y; [apply H2; left; auto|lia]|apply H2; left; auto|apply H2; right; auto].
      * destruct Hx as [->|[->|Hx]]; [apply H2; left; auto|transitivity a; [apply H2; left; auto|lia]|apply H2; right; auto].
Qed.
Lemma fold_max_Z l a : let f := (fun a b : Z => if Z.ltb a b then b else a) in
  (In (fold_left f l a) (a :: l)) /\ forall x, In x (a :: l) -> (x <= fold_left f l a)%Z.
Proof.
  cbv zeta. revert a; induction l as [|y l IH]; intros a; simpl.
  - split; auto. intros x [->|[]]; lia.
  - destruct (IH (if (a <? y)%Z then y else a)) as [H1 H2]. split.
    + destruct H1 as [H1|H1]; auto. rewrite <- H1. destruct (a <? y)%Z; auto.
    + intros x Hx. destruct (Z.ltb_spec a y).
      * destruct Hx as [->|[->|Hx]]; [transitivity y; [lia|apply H2; left; auto]|apply H2; left; auto|apply H2; right; auto].
      * destruct Hx as [->|[->|Hx]]; [apply H2; left; auto|transitivity a; [lia|apply H2; left; auto]|apply H2; right; auto].
Qed.

(** the contributions of all ranks to array cell i *)
Definition column (init : nat -> list Z) (n i : nat) : list Z := map (fun q => nth i (init q) 0%Z) (seq 0 n).

Lemma column_cons init n i : 0 < n -> column init n i = nth i (init 0) 0%Z :: map (fun x => nth i x 0%Z) (map init (seq 1 (n - 1))).
Proof. intros H. unfold column. destruct n as [|k]; [lia|]. simpl. rewrite Nat.sub_0_r. f_equal. rewrite map_map. reflexivity. Qed.

Section Arrays.
Variable n len : nat.
Variable init : nat -> list Z.
Variable prog : nat -> list cact.
Hypothesis Hn : 0 < n.
Hypothesis Hlen : forall r, r < n -> length (init r) = len.

Lemma rest_len : forall x, In x (map init (seq 1 (n - 1))) -> length x = len.
Proof. intros x Hx. apply in_map_iff in Hx as (q & <- & Hq). apply in_seq in Hq. apply Hlen. lia. Qed.

Lemma add_all i s r c : runs n allreduce_prog prog -> csteps pcu_add n i (cinit prog init) s -> r < n -> c_pc s r = [] -> c < len ->
  length (c_val s r) = len /\ nth c (c_val s r) 0%Z = zsum (column init n c).
Proof.
  intros Hp Hs Hr Hf Hc.
  rewrite (allreduce_value pcu_add n init prog Hn i s r (zip_assoc _ (fun a b c => eq_sym (Z.add_assoc a b c))) Hp Hs Hr Hf).
  destruct (fold_zip Z.add (map init (seq 1 (n - 1))) (init 0) len c (Hlen 0 Hn) rest_len Hc) as [H1 H2].
  split; [exact H1|]. unfold pcu_add. rewrite H2, fold_add, (column_cons init n c Hn). reflexivity.
Qed.
Lemma min_all i s r c : runs n allreduce_prog prog -> csteps pcu_min n i (cinit prog init) s -> r < n -> c_pc s r = [] -> c < len ->
  In (nth c (c_val s r) 0%Z) (column init n c) /\ forall x, In x (column init n c) -> (nth c (c_val s r) 0 <= x)%Z.
Proof.
  intros Hp Hs Hr Hf Hc.
  rewrite (allreduce_value pcu_min n init prog Hn i s r (zip_assoc _ min_assoc) Hp Hs Hr Hf).
  destruct (fold_zip (fun a b => if Z.ltb b a then b else a)%Z (map init (seq 1 (n - 1))) (init 0) len c (Hlen 0 Hn) rest_len Hc) as [H1 H2].
  unfold pcu_min. rewrite H2, (column_cons init n c Hn). apply fold_min_Z.
Qed.
Lemma max_all i s r c : runs n allreduce_prog prog -> csteps pcu_max n i (cinit prog init) s -> r < n -> c_pc s r = [] -> c < len ->
  In (nth c (c_val s r) 0%Z) (column init n c) /\ forall x, In x (column init n c) -> (x <= nth c (c_val s r) 0)%Z.
Proof.
  intros Hp Hs Hr Hf Hc.
  rewrite (allreduce_value pcu_max n init prog Hn i s r (zip_assoc _ max_assoc) Hp Hs Hr Hf).
  destruct (fold_zip (fun a b => if Z.ltb a b then b else a)%Z (map init (seq 1 (n - 1))) (init 0) len c (Hlen 0 Hn) rest_len Hc) as [H1 H2].
  unfold pcu_max. rewrite H2, (column_cons init n c Hn). apply fold_max_Z.
Qed.
Lemma scan_all i s r c : runs n scan_prog prog -> csteps pcu_add n i (cinit prog init) s -> r < n -> c_pc s r = [] -> c < len ->
  length (c_val s r) = len /\ nth c (c_val s r) 0%Z = zsum (column init (r + 1) c).
Proof.
  intros Hp Hs Hr Hf Hc.
  pose proof (scan_value pcu_add n init prog Hn i s r (zip_assoc _ (fun a b c => eq_sym (Z.add_assoc a b c))) Hp Hs Hr Hf) as H.
  unfold cmb in H. replace (r + 1) with (S r) in * by lia. rewrite seq_snoc, rev_app_distr in H. simpl in H. inversion H as [E]. clear H.
  destruct (fold_zip Z.add (map init (rev (seq 0 r))) (init r) len c (Hlen r Hr)) as [H1 H2]; auto.
  { intros x Hx. apply in_map_iff in Hx as (q & <- & Hq). rewrite <- in_rev in Hq. apply in_seq in Hq. apply Hlen. lia. }
  rewrite E. unfold pcu_add. split; [exact H1|]. rewrite H2, fold_add.
  unfold column. rewrite seq_snoc, map_app, zsum_app. simpl.
  rewrite map_map. rewrite (zsum_perm (map (fun x => nth c (init x) 0%Z) (rev (seq 0 r))) (map (fun q => nth c (init q) 0%Z) (seq 0 r))).
  - lia.
  - apply Permutation_map. symmetry. apply Permutation_rev.
Qed.
Lemma exscan_all i s r c : runs n scan_prog prog -> csteps pcu_add n i (cinit prog init) s -> r < n -> c_pc s r = [] -> c < len ->
  nth c (exscan_post (c_val s r) (init r)) 0%Z = zsum (column init r c).
Proof.
  intros Hp Hs Hr Hf Hc. destruct (scan_all i s r c Hp Hs Hr Hf Hc) as [H1 H2].
  unfold exscan_post. rewrite zip_nth by (rewrite ?Hlen; lia). rewrite H2.
  unfold column. rewrite Nat.add_1_r, seq_snoc, map_app, zsum_app. simpl. lia.
Qed.
End Arrays.
