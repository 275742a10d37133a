(** Index bookkeeping and the counting-sort (CSR fill) argument used by constructEdges. *)
From Verif Require Import Base GraphModel.

(** ** position of a global id in the vertex numbering *)
Fixpoint idx (l : list Z) (v : Z) : nat :=
  match l with [] => 0 | a :: r => if Z.eqb v a then 0 else S (idx r v) end.

Definition memZ (v : Z) (l : list Z) : bool := existsb (Z.eqb v) l.
Lemma memZ_In v l : memZ v l = true <-> In v l.
Proof. unfold memZ. rewrite existsb_exists. split.
  - intros (x & H & E). apply Z.eqb_eq in E. now subst.
  - intros H. exists v. split; auto. apply Z.eqb_refl. Qed.

Definition add1 (acc : list Z) (v : Z) : list Z := if memZ v acc then acc else acc ++ [v].
(** numbering after seeing the pins [ps]: new ids are appended in order of first appearance *)
Definition add_new (base ps : list Z) : list Z := fold_left add1 ps base.

Lemma idx_nth l v : In v l -> nth_error l (idx l v) = Some v.
Proof. induction l as [|a l IH]; simpl; intros H; [tauto|].
  destruct (Z.eqb_spec v a); simpl; [now subst|]. apply IH. destruct H; auto; congruence. Qed.
Lemma idx_lt l v : In v l -> idx l v < length l.
Proof. intros H. apply nth_error_Some. rewrite idx_nth; congruence. Qed.
Lemma idx_app l r v : In v l -> idx (l ++ r) v = idx l v.
Proof. induction l as [|a l IH]; simpl; intros H; [tauto|].
  destruct (Z.eqb_spec v a); auto. f_equal; apply IH. destruct H; auto; congruence. Qed.
Lemma idx_app_new l v r : ~ In v l -> idx (l ++ v :: r) v = length l.
Proof. induction l as [|a l IH]; simpl; intros H. - now rewrite Z.eqb_refl.
  - destruct (Z.eqb_spec v a); [subst; tauto|]. f_equal; apply IH; tauto. Qed.
Lemma idx_inj l v w : In v l -> In w l -> idx l v = idx l w -> v = w.
Proof. intros Hv Hw E. pose proof (idx_nth l v Hv). pose proof (idx_nth l w Hw). congruence. Qed.
Lemma nth_idx l k v : NoDup l -> nth_error l k = Some v -> idx l v = k.
Proof. intros Hn Hk. eapply NoDup_nth_error_inj; eauto. apply idx_nth. eapply nth_error_In; eauto. Qed.

Lemma add_new_app base p q : add_new base (p ++ q) = add_new (add_new base p) q.
Proof. unfold add_new. apply fold_left_app. Qed.
Lemma add1_ext acc v : exists m, add1 acc v = acc ++ m.
Proof. unfold add1. destruct (memZ v acc); [exists []|exists [v]]; auto using app_nil_r. Qed.
Lemma add_new_ext base ps : exists m, add_new base ps = base ++ m.
Proof. revert base; induction ps as [|v ps IH]; intros base.
  - exists []; simpl; now rewrite app_nil_r.
  - change (add_new base (v :: ps)) with (add_new (add1 base v) ps).
    destruct (IH (add1 base v)) as [m ->]. destruct (add1_ext base v) as [m' ->].
    exists (m' ++ m). now rewrite app_assoc. Qed.
Lemma add1_In acc v : In v (add1 acc v).
Proof. unfold add1. destruct (memZ v acc) eqn:E. now apply memZ_In.
  apply in_app_iff; right; left; auto. Qed.
Lemma add_new_incl base ps : incl base (add_new base ps).
Proof. destruct (add_new_ext base ps) as [m ->]. intros x H; apply in_app_iff; auto. Qed.
Lemma add_new_In base ps v : In v ps -> In v (add_new base ps).
Proof. revert base; induction ps as [|w ps IH]; intros base H; simpl in *; [tauto|].
  change (add_new base (w :: ps)) with (add_new (add1 base w) ps).
  destruct H as [->|H]; auto. apply add_new_incl, add1_In. Qed.
Lemma add1_NoDup acc v : NoDup acc -> NoDup (add1 acc v).
Proof. unfold add1. destruct (memZ v acc) eqn:E; auto. intros H.
  apply NoDup_app_iff; repeat split; auto.
  - repeat constructor; auto.
  - intros x Hx [->|[]]. apply memZ_In in Hx. congruence. Qed.
Lemma add_new_NoDup base ps : NoDup base -> NoDup (add_new base ps).
Proof. revert base; induction ps as [|w ps IH]; intros base H; auto.
  apply (IH (add1 base w)). now apply add1_NoDup. Qed.
Lemma add_new_sub base ps v : In v (add_new base ps) -> In v base \/ In v ps.
Proof. revert base; induction ps as [|w ps IH]; intros base H; auto.
  change (add_new base (w :: ps)) with (add_new (add1 base w) ps) in H.
  apply IH in H as [H|H]; [|right; right; auto].
  unfold add1 in H. destruct (memZ w base); auto. apply in_app_iff in H as [H|[->|[]]]; auto.
  right; left; auto. Qed.
Lemma idx_add_new base ps v : In v base -> idx (add_new base ps) v = idx base v.
Proof. intros H. destruct (add_new_ext base ps) as [m ->]. now apply idx_app. Qed.

(** vtx_mapping is the inverse of the numbering *)
Definition MapInv (vm : zmap nat) (all : list Z) : Prop :=
  forall v k, zfind vm v = Some k <-> nth_error all k = Some v.

Lemma MapInv_find vm all v : MapInv vm all -> In v all -> NoDup all -> zfind vm v = Some (idx all v).
Proof. intros H Hv Hn. apply H. now apply idx_nth. Qed.
Lemma MapInv_none vm all v : MapInv vm all -> ~ In v all -> zfind vm v = None.
Proof. intros H Hv. destruct (zfind vm v) eqn:E; auto. apply H in E. apply nth_error_In in E. tauto. Qed.
Lemma MapInv_snoc vm all v : MapInv vm all -> ~ In v all ->
  MapInv (zset vm v (length all)) (all ++ [v]).
Proof.
  intros H Hv w k. simpl. destruct (Z.eqb_spec w v).
  - subst w. split; intros E.
    + inversion E; subst. rewrite nth_error_app2 by lia. now rewrite Nat.sub_diag.
    + destruct (Nat.lt_ge_cases k (length all)) as [L|L].
      * rewrite nth_error_app1 in E by auto. apply nth_error_In in E; tauto.
      * rewrite nth_error_app2 in E by lia. destruct (k - length all) as [|d] eqn:D.
        -- f_equal; lia.
        -- simpl in E. destruct d; discriminate.
  - rewrite (H w k). split; intros E.
    + rewrite nth_error_app1; auto. apply nth_error_Some; congruence.
    + destruct (Nat.lt_ge_cases k (length all)) as [L|L].
      * rewrite nth_error_app1 in E by auto; auto.
      * rewrite nth_error_app2 in E by lia. destruct (k - length all) as [|[|d]]; simpl in E; congruence.
Qed.

(** ** prefix sums *)
Lemma prefix_sums_ok n (deg : arr nat) (c : nat -> nat) :
  length deg = n + 1 -> aget deg 0 = Some 0 -> (forall u, u < n -> aget deg (u + 1) = Some (c u)) ->
  exists deg', prefix_sums n deg = Some deg' /\ length deg' = n + 1 /\
    forall k, k <= n -> aget deg' k = Some (nsum (map c (seq 0 k))).
Proof.
  intros Hl H0 Hc. unfold prefix_sums.
  destruct (foldM_inv (fun (a : arr nat) i => x <- aget a i ;; y <- aget a (i - 1) ;; aset a i (x + y))
    (fun pre (a : arr nat) => length a = n + 1 /\
       (forall k, k <= length pre -> aget a k = Some (nsum (map c (seq 0 k)))) /\
       (forall u, length pre <= u -> u < n -> aget a (u + 1) = Some (c u))) (seq 1 n) deg) as (a & Ha & HP).
  - repeat split; auto. intros k Hk. simpl in Hk. assert (k = 0) by lia. now subst.
  - intros pre x post a Hs (La & H1 & H2).
    assert (Hx : x = length pre + 1 /\ length pre < n).
    { assert (nth_error (seq 1 n) (length pre) = Some x).
      { rewrite Hs, nth_error_app2, Nat.sub_diag; auto. }
      assert (L : length pre < n).
      { rewrite <- (seq_length n 1), Hs, app_length; simpl; lia. }
      rewrite nth_error_seq in H by auto. inversion H; lia. }
    destruct Hx as [-> L].
    rewrite H2 by lia. simpl. replace (length pre + 1 - 1) with (length pre) by lia.
    rewrite H1 by lia. simpl. rewrite aset_some by lia.
    eexists; split; [reflexivity|]. rewrite upd_length, app_length; simpl.
    repeat split; auto.
    + intros k Hk. destruct (Nat.eq_dec k (length pre + 1)) as [->|N].
      * rewrite aget_upd_eq by lia. f_equal.
        replace (length pre + 1) with (S (length pre)) by lia.
        rewrite seq_snoc, map_app, nsum_app; simpl. lia.
      * rewrite aget_upd_neq by lia. apply H1; lia.
    + intros u Hu Hn. rewrite aget_upd_neq by lia. apply H2; lia.
  - exists a; split; auto. destruct HP as (La & H1 & H2). rewrite seq_length in H1. auto.
Qed.

(** ** CSR fill *)
Section Fill.
Variable n : nat.
Variable tot : list (nat * nat).
Definition off (k : nat) : nat := nsum (map (fun u => cnt_of u tot) (seq 0 k)).

Definition block (pre : list (nat * nat)) (u : nat) : arr nat :=
  ainit (vals_of u pre) ++ anew (cnt_of u tot - cnt_of u pre).
Definition FillInv (pre : list (nat * nat)) (s : arr nat * arr nat) : Prop :=
  length (snd s) = n /\
  (forall u, u < n -> aget (snd s) u = Some (off u + cnt_of u pre)) /\
  fst s = concat (map (block pre) (seq 0 n)).

Lemma block_length pre u : cnt_of u pre <= cnt_of u tot -> length (block pre u) = cnt_of u tot.
Proof. intros H. unfold block. rewrite app_length, ainit_length, anew_length. unfold cnt_of in *. lia. Qed.

Lemma blocks_length pre k a : (forall u, cnt_of u pre <= cnt_of u tot) ->
  length (concat (map (block pre) (seq a k))) = nsum (map (fun u => cnt_of u tot) (seq a k)).
Proof. intros H. rewrite length_concat, map_map. f_equal. apply map_ext. intros; now apply block_length. Qed.

Lemma seq_split3 u : u < n -> seq 0 n = seq 0 u ++ u :: seq (S u) (n - S u).
Proof. intros H. replace n with (u + S (n - S u)) at 1 by lia. rewrite seq_app. reflexivity. Qed.

Lemma fill_step pre u x s :
  FillInv pre s -> u < n -> (forall w, cnt_of w pre <= cnt_of w tot) -> cnt_of u pre < cnt_of u tot ->
  exists s', push_row s u x = Some s' /\ FillInv (pre ++ [(u, x)]) s'.
Proof.
  destruct s as [el tc]. intros (Lt & Ht & He) Hu Hle Hlt. simpl in *.
  unfold push_row. rewrite Ht by auto. simpl. rewrite aset_some by lia. simpl.
  assert (Hoff : length (concat (map (block pre) (seq 0 u))) = off u) by (now apply blocks_length).
  assert (Hel : length el = off n) by (subst el; now apply blocks_length).
  assert (Hbound : off u + cnt_of u pre < off n).
  { unfold off. rewrite (seq_split3 u Hu), map_app, nsum_app. cbn [map nsum fold_right].
    fold (nsum (map (fun u => cnt_of u tot) (seq (S u) (n - S u)))). lia. }
  rewrite aset_some by lia. simpl.
  eexists; split; [reflexivity|]. repeat split; cbn [fst snd].
  - now rewrite upd_length.
  - intros w Hw. destruct (Nat.eq_dec u w) as [->|N].
    + rewrite aget_upd_eq by lia. f_equal. rewrite cnt_of_snoc_eq. lia.
    + rewrite aget_upd_neq by auto. rewrite Ht by auto. f_equal. rewrite cnt_of_snoc_neq by auto. lia.
  - assert (Hother : forall w, w <> u -> block (pre ++ [(u, x)]) w = block pre w).
    { intros w Hw. unfold block. rewrite cnt_of_snoc_neq by auto.
      rewrite vals_of_app, vals_of_single_neq, app_nil_r by auto. reflexivity. }
    rewrite He. rewrite (seq_split3 u Hu). rewrite !map_app, !concat_app. cbn [map concat].
    rewrite <- Hoff at 1. rewrite upd_app_r. f_equal.
    + f_equal. apply map_ext_in. intros w Hw. apply in_seq in Hw. symmetry; apply Hother; lia.
    + rewrite upd_app_l by (rewrite block_length; auto). f_equal.
      * unfold block at 1.
        assert (E : cnt_of u pre = length (ainit (vals_of u pre)) + 0) by (rewrite ainit_length; unfold cnt_of; lia).
        rewrite E at 2. rewrite upd_app_r. unfold block. rewrite cnt_of_snoc_eq, vals_of_app, vals_of_single_eq.
        unfold ainit. rewrite map_app, <- app_assoc. f_equal.
        destruct (cnt_of u tot - cnt_of u pre) as [|d] eqn:D; [lia|].
        simpl. f_equal. unfold anew. f_equal. lia.
      * f_equal. apply map_ext_in. intros w Hw. apply in_seq in Hw. symmetry; apply Hother; lia.
Qed.

Lemma fill_init tc : length tc = n -> (forall u, u < n -> aget tc u = Some (off u)) ->
  FillInv [] (anew (off n), tc).
Proof.
  intros L H. repeat split; cbn [fst snd]; auto.
  - intros u Hu. rewrite H by auto. f_equal. unfold cnt_of, vals_of. simpl. lia.
  - unfold off, block. clear. generalize 0 as a. induction n as [|k IH]; intros a; [reflexivity|].
    cbn [seq map concat nsum fold_right]. fold (nsum (map (fun u => cnt_of u tot) (seq (S a) k))).
    rewrite <- IH. unfold anew. rewrite repeat_app. f_equal.
    change (vals_of a []) with (@nil nat). change (cnt_of a (@nil (nat*nat))) with 0.
    simpl. now rewrite Nat.sub_0_r.
Qed.

Lemma fill_done s : FillInv tot s -> fst s = ainit (concat (map (fun u => vals_of u tot) (seq 0 n))).
Proof.
  intros (_ & _ & ->). unfold ainit. rewrite concat_map, map_map. f_equal.
  apply map_ext. intros u. unfold block. rewrite Nat.sub_diag. simpl. now rewrite app_nil_r.
Qed.
End Fill.

(** reading a row of the filled array *)
Lemma concat_row A (rows : nat -> list A) n u m x :
  u < n -> nth_error (rows u) m = Some x ->
  nth_error (concat (map rows (seq 0 n))) (nsum (map (fun k => length (rows k)) (seq 0 u)) + m) = Some x.
Proof.
  intros Hu Hm. rewrite (seq_split3 n u Hu), map_app, concat_app. cbn [map concat].
  assert (E : nsum (map (fun k => length (rows k)) (seq 0 u)) = length (concat (map rows (seq 0 u)))).
  { rewrite length_concat, map_map. reflexivity. }
  rewrite E. rewrite nth_error_app2 by lia.
  replace (length (concat (map rows (seq 0 u))) + m - length (concat (map rows (seq 0 u)))) with m by lia.
  rewrite nth_error_app1; auto. apply nth_error_Some; congruence.
Qed.
