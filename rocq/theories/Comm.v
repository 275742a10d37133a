(** One PCU communication phase as the partitioning code sees it: every part packs records for
    other parts (PCU_COMM_PACK), sends, and receives records in a while (PCU_Comm_Receive()) loop.
    Justified by C27 (buffers), C31 (phases): each part receives exactly the records packed for
    it, in an order that depends on the schedule. *)
From Verif Require Import Base.

(** [sent] has, for each part, the (destination, record) pairs it packed; [recv] the (sender,
    record) pairs each part received. *)
Definition addressed {M} (q : nat) (sent : list (list (Z * M))) : list (Z * M) :=
  flat_map (fun pm : nat * list (Z * M) =>
    map (fun m => (Z.of_nat (fst pm), snd m)) (filter (fun m => Z.eqb (fst m) (Z.of_nat q)) (snd pm)))
    (combine (seq 0 (length sent)) sent).
(** PCU_Comm_Pack aborts on an invalid rank (C27_invalid_rank) *)
Definition dests_ok {M} (sent : list (list (Z * M))) : Prop :=
  forall ms m, In ms sent -> In m ms -> (0 <= fst m < Z.of_nat (length sent))%Z.
Definition delivered {M} (sent recv : list (list (Z * M))) : Prop :=
  dests_ok sent /\ length recv = length sent /\
  forall q r, nth_error recv q = Some r -> Permutation r (addressed q sent).

Lemma addressed_in M q (sent : list (list (Z * M))) p m :
  In (p, m) (addressed q sent) <-> exists i ms, nth_error sent i = Some ms /\ p = Z.of_nat i /\ In (Z.of_nat q, m) ms.
Proof.
  unfold addressed. rewrite in_flat_map. split.
  - intros ((i & ms) & Hi & H). apply in_map_iff in H as ((d & m') & E & H). cbn [fst snd] in *. inversion E; subst.
    apply filter_In in H as (H & Hd). cbn in Hd. apply Z.eqb_eq in Hd. subst d. exists i, ms. split; [|auto].
    apply In_nth_error in Hi as (j & Hj).
    assert (G : forall (l : list (list (Z * M))) a j i ms, nth_error (combine (seq a (length l)) l) j = Some (i, ms) -> i = a + j /\ nth_error l j = Some ms).
    { clear. induction l as [|x l IH]; intros a [|j] i ms H; cbn in *; try discriminate.
      - inversion H; subst. split; [lia|auto].
      - apply IH in H as (? & ?). split; [lia|auto]. }
    apply G in Hj as (-> & Hj). exact Hj.
  - intros (i & ms & Hi & -> & H). exists (i, ms). split.
    + assert (G : forall (l : list (list (Z * M))) a i ms, nth_error l i = Some ms -> In (a + i, ms) (combine (seq a (length l)) l)).
      { clear. induction l as [|x l IH]; intros a [|i] ms H; cbn in *; try discriminate.
        - inversion H; subst. rewrite Nat.add_0_r. auto.
        - right. specialize (IH (S a) i ms H). replace (a + S i) with (S a + i) by lia. exact IH. }
      apply (G sent 0). exact Hi.
    + cbn. apply in_map_iff. exists (Z.of_nat q, m). split; [reflexivity|]. apply filter_In. split; [exact H|]. cbn. apply Z.eqb_refl.
Qed.
Lemma delivered_in M (sent recv : list (list (Z * M))) q r p m : delivered sent recv -> nth_error recv q = Some r ->
  In (p, m) r <-> exists i ms, nth_error sent i = Some ms /\ p = Z.of_nat i /\ In (Z.of_nat q, m) ms.
Proof.
  intros (_ & _ & H) E. rewrite <- addressed_in. specialize (H q r E). split; intros X.
  - eapply Permutation_in; eauto. - eapply Permutation_in; [symmetry; eauto|auto].
Qed.

(** total size: nothing lost, nothing invented *)
Lemma delivered_exists M (sent : list (list (Z * M))) : dests_ok sent -> exists recv, delivered sent recv.
Proof.
  intros H. exists (map (fun q => addressed q sent) (seq 0 (length sent))). split; [exact H|]. split.
  - now rewrite map_length, seq_length.
  - intros q r E. rewrite nth_error_map in E.
    destruct (nth_error (seq 0 (length sent)) q) as [x|] eqn:Ex; [|discriminate].
    assert (q < length sent).
    { rewrite <- (seq_length (length sent) 0). apply nth_error_Some. congruence. }
    rewrite nth_error_seq in Ex by auto. cbn in Ex. inversion Ex; subst. cbn in E. inversion E. apply Permutation_refl.
Qed.

(** run one step on every part: [f q a b] for part number q *)
Fixpoint par2 {A B C} (f : nat -> A -> B -> option C) (q : nat) (l1 : list A) (l2 : list B) : option (list C) :=
  match l1, l2 with
  | [], [] => Some []
  | a :: l1', b :: l2' => c <- f q a b ;; r <- par2 f (S q) l1' l2' ;; Some (c :: r)
  | _, _ => None
  end.
Lemma par2_length A B C (f : nat -> A -> B -> option C) q l1 l2 r : par2 f q l1 l2 = Some r -> length r = length l1 /\ length l2 = length l1.
Proof.
  revert q l2 r. induction l1 as [|a l1 IH]; intros q [|b l2] r H; cbn in H; try discriminate; [inversion H; auto|].
  destruct (f q a b); [|discriminate]. cbn in H. destruct (par2 f (S q) l1 l2) eqn:E; [|discriminate]. cbn in H. inversion H; subst.
  apply IH in E as (E1 & E2). cbn. now rewrite E1, E2.
Qed.
Lemma par2_nth A B C (f : nat -> A -> B -> option C) q l1 l2 r i c : par2 f q l1 l2 = Some r -> nth_error r i = Some c ->
  exists a b, nth_error l1 i = Some a /\ nth_error l2 i = Some b /\ f (q + i) a b = Some c.
Proof.
  revert q l2 r i. induction l1 as [|a l1 IH]; intros q [|b l2] r i H Hi; cbn in H; try discriminate.
  - inversion H; subst. destruct i; discriminate.
  - destruct (f q a b) as [c0|] eqn:Ef; [|discriminate]. cbn in H. destruct (par2 f (S q) l1 l2) eqn:E; [|discriminate]. cbn in H. inversion H; subst.
    destruct i as [|i].
    + cbn in Hi. inversion Hi; subst. exists a, b. rewrite Nat.add_0_r. auto.
    + cbn in Hi. destruct (IH _ _ _ _ E Hi) as (a' & b' & H1 & H2 & H3). exists a', b'. replace (q + S i) with (S q + i) by lia. auto.
Qed.
Lemma par2_total A B C (f : nat -> A -> B -> option C) q l1 l2 : length l2 = length l1 ->
  (forall i a b, nth_error l1 i = Some a -> nth_error l2 i = Some b -> exists c, f (q + i) a b = Some c) ->
  exists r, par2 f q l1 l2 = Some r.
Proof.
  revert q l2. induction l1 as [|a l1 IH]; intros q [|b l2] L H; cbn in *; try discriminate; [eauto|].
  destruct (H 0 a b eq_refl eq_refl) as (c & E). rewrite Nat.add_0_r in E. rewrite E. cbn.
  destruct (IH (S q) l2) as (r & Er); [lia| |].
  - intros i a' b' Ha Hb. replace (S q + i) with (q + S i) by lia. now apply H.
  - rewrite Er. cbn. eauto.
Qed.
