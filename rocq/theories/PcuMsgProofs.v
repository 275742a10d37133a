(** Packing, sending and unpacking are exact; ordered delivery sorts. *)
From Verif Require Import Base PcuAAModel PcuAAProofs PcuMsgModel.
From Coq Require Import Sorted.

(* ------------------------------------------------------------------ *)
(** * Memory *)
Lemma read_at_split l1 c l2 : read_at (l1 ++ ainit c ++ l2) (length l1) (length c) = Some c.
Proof.
  revert l1. induction c as [|x c IH]; intros l1; simpl; auto.
  assert (E : aget (l1 ++ Some x :: ainit c ++ l2) (length l1) = Some x).
  { unfold aget. rewrite nth_error_app2 by lia. rewrite Nat.sub_diag. reflexivity. }
  unfold ainit in *. rewrite E. cbn [obind].
  specialize (IH (l1 ++ [Some x])). rewrite <- app_assoc in IH. simpl in IH.
  rewrite app_length in IH. simpl in IH. rewrite Nat.add_1_r in IH. rewrite IH. reflexivity.
Qed.
Lemma write_at_split l1 mid l2 c : length mid = length c ->
  write_at (l1 ++ mid ++ l2) (length l1) c = Some (l1 ++ ainit c ++ l2).
Proof.
  revert l1 mid. induction c as [|x c IH]; intros l1 mid H; destruct mid as [|a mid]; try discriminate; simpl; auto.
  rewrite aset_some by (rewrite app_length; simpl; lia). cbn [obind].
  replace (upd (l1 ++ a :: mid ++ l2) (length l1) (Some x)) with ((l1 ++ [Some x]) ++ mid ++ l2).
  2:{ pose proof (upd_app_r _ l1 (a :: mid ++ l2) 0 (Some x)) as E. rewrite Nat.add_0_r in E. rewrite E.
      simpl. rewrite <- app_assoc. reflexivity. }
  specialize (IH (l1 ++ [Some x]) mid). rewrite app_length in IH. simpl in IH. rewrite Nat.add_1_r in IH.
  rewrite IH by (simpl in H; lia). unfold ainit. simpl. now rewrite <- app_assoc.
Qed.

Definition holds (b : buffer) (c : list byte) : Prop :=
  exists tail, b_mem b = ainit c ++ tail /\ b_size b = length c.

Lemma push_write b c d : holds b c -> exists b1 off m, push_buffer b (length d) = (b1, off) /\
  write_at (b_mem b1) off d = Some m /\ holds {| b_mem := m; b_size := b_size b1 |} (c ++ d).
Proof.
  intros (tail & Hm & Hs). unfold push_buffer.
  assert (Hgen : forall mem, (exists t1 t2, mem = ainit c ++ t1 ++ t2 /\ length t1 = length d) ->
     exists m, write_at mem (b_size b + length d - length d) d = Some m /\
       holds {| b_mem := m; b_size := b_size b + length d |} (c ++ d)).
  { intros mem (t1 & t2 & -> & L). replace (b_size b + length d - length d) with (length (ainit c)).
    2:{ rewrite ainit_length. lia. }
    rewrite write_at_split by auto. eexists. split; [reflexivity|]. exists t2. simpl.
    split; [unfold ainit; now rewrite map_app, <- app_assoc|]. rewrite app_length. lia. }
  assert (Hcut : forall t : arr byte, length d <= length t -> exists t1 t2, t = t1 ++ t2 /\ length t1 = length d).
  { intros t L. exists (firstn (length d) t), (skipn (length d) t). rewrite firstn_skipn, firstn_length. split; [auto|lia]. }
  destruct (b_cap b <? b_size b + length d) eqn:E.
  - apply Nat.ltb_lt in E. set (cap := if b_size b + length d <? _ then _ else _).
    assert (Hc : b_size b + length d <= cap /\ b_cap b <= cap).
    { subst cap. destruct (Nat.ltb_spec (b_size b + length d) ((b_cap b + 16) * 3 / 2)); lia. }
    unfold b_cap in Hc. rewrite Hm, app_length, ainit_length in Hc.
    destruct (Hcut (tail ++ anew (cap - length (b_mem b)))) as (t1 & t2 & Et & L).
    { rewrite app_length, anew_length, Hm, app_length, ainit_length. lia. }
    destruct (Hgen (realloc (b_mem b) cap)) as (m & W & H).
    { exists t1, t2. split; auto. unfold realloc. rewrite firstn_all2.
      - rewrite <- Et, Hm, <- app_assoc. now rewrite !app_length, ainit_length.
      - rewrite Hm, app_length, ainit_length. lia. }
    eexists _, _, m. split; [reflexivity|]. simpl. auto.
  - apply Nat.ltb_ge in E. unfold b_cap in E. rewrite Hm, app_length, ainit_length in E.
    destruct (Hcut tail) as (t1 & t2 & Et & L); [lia|].
    destruct (Hgen (b_mem b)) as (m & W & H).
    { exists t1, t2. rewrite Hm, Et. auto. }
    eexists _, _, m. split; [reflexivity|]. simpl. auto.
Qed.

(* ------------------------------------------------------------------ *)
(** * The peers of a phase *)
(** what has been packed for rank d *)
Definition packed_for (d : Z) (ops : list (Z * list byte)) : list byte :=
  concat (map snd (filter (fun o => Z.eqb (fst o) d) ops)).

Definition peers_ok (p : peers) (ops : list (Z * list byte)) : Prop :=
  inv (p_tree p) /\ sorted (elements (p_tree p)) /\
  (forall k, (exists x, In x (elements (p_tree p)) /\ fst x = k) <-> In k (map fst ops)) /\
  NoDup (map snd (elements (p_tree p))) /\
  (forall x, In x (elements (p_tree p)) -> exists b, nth_error (p_bufs p) (snd x) = Some b /\ holds b (packed_for (fst x) ops)).

Lemma packed_for_snoc_eq d ops data : packed_for d (ops ++ [(d, data)]) = packed_for d ops ++ data.
Proof. unfold packed_for. rewrite filter_app. simpl. rewrite Z.eqb_refl, map_app, concat_app. simpl. now rewrite app_nil_r. Qed.
Lemma packed_for_snoc_neq d d' ops data : d' <> d -> packed_for d (ops ++ [(d', data)]) = packed_for d ops.
Proof. intros H. unfold packed_for. rewrite filter_app. simpl. destruct (Z.eqb_spec d' d); [congruence|]. now rewrite app_nil_r. Qed.
Lemma packed_for_none d ops : ~ In d (map fst ops) -> packed_for d ops = [].
Proof.
  unfold packed_for. induction ops as [|[k x] ops IH]; simpl; auto. intros H.
  destruct (Z.eqb_spec k d); [tauto|]. apply IH. tauto.
Qed.
Lemma sorted_unique l a b : sorted l -> In a l -> In b l -> fst a = fst b -> a = b.
Proof.
  induction l as [|x l IH]; simpl; [tauto|]. intros H Ha Hb E. apply sorted_cons in H as (H1 & H2).
  unfold lt_node, key in H2. destruct Ha as [->|Ha], Hb as [->|Hb]; auto.
  - specialize (H2 b Hb). lia.
  - specialize (H2 a Ha). lia.
Qed.

Lemma pack_ok n p ops to data : peers_ok p ops -> (0 <= to < Z.of_nat n)%Z ->
  exists p', comm_pack n p to data = Some p' /\ peers_ok p' (ops ++ [(to, data)]).
Proof.
  intros (Hi & Hs & Hk & Ha & Hb) Hto. unfold comm_pack.
  replace (Z.ltb to 0 || Z.leb (Z.of_nat n) to)%Z%bool with false.
  2:{ symmetry. apply orb_false_iff. split; [apply Z.ltb_ge|apply Z.leb_gt]; lia. }
  assert (Hstep : forall p1 x, inv (p_tree p1) -> sorted (elements (p_tree p1)) ->
    (forall k, (exists y, In y (elements (p_tree p1)) /\ fst y = k) <-> In k (map fst ops) \/ k = to) ->
    NoDup (map snd (elements (p_tree p1))) -> In x (elements (p_tree p1)) -> fst x = to ->
    (forall y, In y (elements (p_tree p1)) -> exists b, nth_error (p_bufs p1) (snd y) = Some b /\ holds b (packed_for (fst y) ops)) ->
    exists p', (b <- nth_error (p_bufs p1) (snd x) ;;
      let (b1, off) := push_buffer b (length data) in
      m <- write_at (b_mem b1) off data ;;
      Some {| p_tree := p_tree p1; p_bufs := upd (p_bufs p1) (snd x) {| b_mem := m; b_size := b_size b1 |} |}) = Some p' /\
      peers_ok p' (ops ++ [(to, data)])).
  { clear. intros p1 x I S K N Hx Ex B. destruct (B x Hx) as (b & Eb & H). rewrite Eb. cbn [obind].
    destruct (push_write b _ data H) as (b1 & off & m & E1 & E2 & H2). rewrite E1, E2. cbn [obind].
    eexists. split; [reflexivity|]. split; [|split; [|split; [|split]]]; cbn [p_tree p_bufs]; auto.
    - intros k. rewrite K, map_app, in_app_iff. simpl. intuition.
    - intros y Hy. destruct (Z.eq_dec (fst y) to) as [E|E].
      + assert (y = x) by (eapply sorted_unique; eauto; congruence). subst y.
        eexists. rewrite nth_error_upd_eq by (apply nth_error_Some; congruence). split; [reflexivity|].
        rewrite Ex, packed_for_snoc_eq. now rewrite Ex in H2.
      + rewrite packed_for_snoc_neq by auto. destruct (B y Hy) as (b' & Eb' & H').
        exists b'. split; auto. rewrite nth_error_upd_neq; auto.
        intros F. apply E. rewrite <- Ex. f_equal. symmetry.
        assert (G : forall l : list node, NoDup (map snd l) -> In x l -> In y l -> snd x = snd y -> x = y).
        { clear. induction l as [|a l IH]; simpl; [tauto|]. intros N Hx Hy E. inversion N; subst.
          destruct Hx as [->|Hx], Hy as [->|Hy]; auto.
          - exfalso. apply H1. rewrite E. now apply in_map.
          - exfalso. apply H1. rewrite <- E. now apply in_map. }
        eapply G; eauto. }
  destruct (find (to, 0) (p_tree p)) as [x|] eqn:F.
  - apply find_spec in F as (F1 & F2); auto. unfold key in F2; simpl in F2. cbn [obind].
    apply (Hstep p x); auto. intros k. rewrite Hk. split; [auto|]. intros [H|E]; [exact H|].
    rewrite E. apply Hk. exists x. auto.
  - assert (Hno : forall y, In y (elements (p_tree p)) -> fst y <> to).
    { intros y Hy E. assert (X : find (to, 0) (p_tree p) = Some y) by (apply find_spec; auto). congruence. }
    destruct (insert_spec (to, length (p_bufs p)) (p_tree p) Hi Hs) as (t' & res & E & G & El & _).
    rewrite E. cbn [obind]. 
    assert (HI : forall y, In y (elements t') <-> In y (elements (p_tree p)) \/ y = (to, length (p_bufs p))).
    { intros y. rewrite El, ins_in by auto. split; [tauto|]. intros [H|H]; [auto|]. right; split; [exact H|exact Hno]. }
    destruct (Hstep {| p_tree := t'; p_bufs := p_bufs p ++ [make_buffer] |} (to, length (p_bufs p))) as (p' & E' & H'); cbn [p_tree p_bufs];
      [apply G|rewrite El; now apply ins_sorted| | | | | | ].
    + intros k. rewrite <- Hk. split.
      * intros (y & Hy & Ey). apply HI in Hy as [Hy| ->]; [left; eauto|]. simpl in Ey. auto.
      * intros [(y & Hy & Ey)| ->]; [exists y; split; auto; apply HI; auto|].
        exists (to, length (p_bufs p)). split; auto. apply HI. auto.
    + assert (Hp : Permutation (elements t') ((to, length (p_bufs p)) :: elements (p_tree p))).
      { rewrite El. clear -Hno. revert Hno. generalize (elements (p_tree p)) as l.
        induction l as [|a l IH]; intros H; simpl; auto.
        unfold less, key. simpl.
        destruct (Z.ltb to (fst a)) eqn:E1; auto.
        destruct (Z.ltb (fst a) to) eqn:E2.
        - rewrite IH; [apply perm_swap|]. intros; apply H; simpl; auto.
        - apply Z.ltb_ge in E1, E2. exfalso. apply (H a); simpl; auto. lia. }
      apply (Permutation_map snd) in Hp. eapply Permutation_NoDup; [symmetry; exact Hp|]. simpl. constructor; auto.
      rewrite in_map_iff. intros (y & E1 & Hy). destruct (Hb y Hy) as (b & Eb & _).
      assert (snd y < length (p_bufs p)) by (apply nth_error_Some; congruence). lia.
    + apply HI. auto.
    + reflexivity.
    + intros y Hy. apply HI in Hy as [Hy| ->].
      * destruct (Hb y Hy) as (b & Eb & H). exists b. split; auto. rewrite nth_error_app1; auto.
        apply nth_error_Some. congruence.
      * exists make_buffer. simpl. rewrite nth_error_app2 by lia. rewrite Nat.sub_diag. split; auto.
        rewrite packed_for_none; [exists []; auto|]. rewrite <- Hk. intros (y & Hy & Ey). eapply Hno; eauto.
    + exists p'. split; auto.
Qed.

Lemma pack_all_ok n : forall ops p done, peers_ok p done -> (forall o, In o ops -> (0 <= fst o < Z.of_nat n)%Z) ->
  exists p', pack_all n p ops = Some p' /\ peers_ok p' (done ++ ops).
Proof.
  induction ops as [|[to d] ops IH]; intros p done H R; cbn [pack_all].
  - rewrite app_nil_r. eauto.
  - destruct (pack_ok n p done to d H) as (p1 & E & H1); [apply (R (to, d)); simpl; auto|]. rewrite E. cbn [obind].
    destruct (IH p1 (done ++ [(to, d)]) H1) as (p' & E' & H'); [intros; apply R; simpl; auto|].
    exists p'. rewrite <- app_assoc in H'. auto.
Qed.
Lemma no_peers_ok : peers_ok no_peers [].
Proof. split; [exact I|]. split; [constructor|]. split; [|split]; simpl.
  - intros k. split; [intros (x & [] & _)|tauto]. - constructor. - tauto. Qed.

Lemma message_ok p x ops : peers_ok p ops -> In x (elements (p_tree p)) ->
  message_of p x = if Z.ltb int_max (Z.of_nat (length (packed_for (fst x) ops))) then None
                   else Some (fst x, packed_for (fst x) ops).
Proof.
  intros (_ & _ & _ & _ & B) H. destruct (B x H) as (b & Eb & (tail & Em & Es)). unfold message_of.
  rewrite Eb. cbn [obind]. rewrite Es. destruct (Z.ltb _ _); auto.
  rewrite Em. pose proof (read_at_split [] (packed_for (fst x) ops) tail) as R. simpl in R.
  rewrite R. reflexivity.
Qed.
Definition fits (d : Z) (ops : list (Z * list byte)) : Prop := (Z.of_nat (length (packed_for d ops)) <= int_max)%Z.
Lemma send_tree_ok p ops : peers_ok p ops -> (forall x, In x (elements (p_tree p)) -> fits (fst x) ops) ->
  forall t, (forall x, In x (elements t) -> In x (elements (p_tree p))) ->
  exists ms, send_tree p t = Some ms.
Proof.
  intros H F. induction t as [|l IHl x n r IHr]; intros S; cbn [send_tree elements].
  - exists []. auto.
  - cbn [elements] in S. rewrite (message_ok p x ops H) by (apply S, in_or_app; simpl; auto).
    assert (Fx : fits (fst x) ops) by (apply F, S, in_or_app; simpl; auto). unfold fits in Fx.
    destruct (Z.ltb_spec int_max (Z.of_nat (length (packed_for (fst x) ops)))); [lia|]. cbn [obind].
    destruct IHl as (a & E1); [intros; apply S, in_or_app; auto|].
    destruct IHr as (b & E2); [intros; apply S, in_or_app; simpl; auto|].
    rewrite E1. cbn [obind]. rewrite E2. cbn [obind]. eauto.
Qed.
Lemma send_tree_sound p ops : peers_ok p ops -> forall t ms, (forall x, In x (elements t) -> In x (elements (p_tree p))) ->
  send_tree p t = Some ms ->
  Permutation ms (map (fun x => (fst x, packed_for (fst x) ops)) (elements t)) /\
  forall x, In x (elements t) -> fits (fst x) ops.
Proof.
  intros H. induction t as [|l IHl x n r IHr]; intros ms S E; cbn [send_tree elements] in *.
  - inversion E; subst. split; [constructor|intros x []].
  - rewrite (message_ok p x ops H) in E by (apply S, in_or_app; simpl; auto).
    destruct (Z.ltb_spec int_max (Z.of_nat (length (packed_for (fst x) ops)))) as [|Fx]; [discriminate|]. cbn [obind] in E.
    destruct (send_tree p l) as [a|]; [|discriminate]. cbn [obind] in E.
    destruct (send_tree p r) as [b|]; [|discriminate]. cbn [obind] in E. inversion E; subst.
    destruct (IHl a) as (P1 & F1); [intros; apply S, in_or_app; auto|auto|].
    destruct (IHr b) as (P2 & F2); [intros; apply S, in_or_app; simpl; auto|auto|]. split.
    + rewrite map_app. simpl. apply Permutation_cons_app. apply Permutation_app; auto.
    + intros y Hy. apply in_app_or in Hy as [Hy|[<-|Hy]]; auto.
Qed.
Lemma NoDup_fst_sorted l : sorted l -> NoDup (map fst l).
Proof.
  induction l as [|x l IH]; simpl; intros H; constructor; apply sorted_cons in H as (H1 & H2); auto.
  rewrite in_map_iff. intros (y & E & Hy). specialize (H2 y Hy). unfold lt_node, key in H2. lia.
Qed.

Lemma sent_messages n ops p ms : (forall o, In o ops -> (0 <= fst o < Z.of_nat n)%Z) ->
  pack_all n no_peers ops = Some p -> comm_send p = Some ms -> NoDup (map fst ms) /\
    (forall d, In d (map fst ms) <-> In d (map fst ops)) /\
    (forall d bytes, In (d, bytes) ms -> bytes = packed_for d ops) /\ (forall d, In d (map fst ops) -> fits d ops).
Proof.
  intros R E0 E2. destruct (pack_all_ok n ops no_peers [] no_peers_ok R) as (p' & E & H). simpl in H.
  rewrite E0 in E. inversion E; subst p'.
  destruct (send_tree_sound p ops H (p_tree p) ms ltac:(auto) E2) as (P & F).
  assert (Pf : Permutation (map fst ms) (map fst (elements (p_tree p)))).
  { apply (Permutation_map fst) in P. rewrite map_map in P. exact P. }
  split; [|split; [|split]].
  - eapply Permutation_NoDup; [symmetry; exact Pf|]. apply NoDup_fst_sorted, H.
  - intros d. split; intros D.
    + apply (Permutation_in _ Pf) in D. apply in_map_iff in D as (x & E3 & D). apply H. eauto.
    + apply H in D as (x & D & E3). eapply Permutation_in; [symmetry; exact Pf|]. apply in_map_iff. eauto.
  - intros d bytes D. apply (Permutation_in _ P) in D. apply in_map_iff in D as (x & E3 & _). congruence.
  - intros d D. apply H in D as (x & D & <-). auto.
Qed.
Lemma pack_send n ops : (forall o, In o ops -> (0 <= fst o < Z.of_nat n)%Z) -> (forall d, In d (map fst ops) -> fits d ops) ->
  exists p ms, pack_all n no_peers ops = Some p /\ comm_send p = Some ms.
Proof.
  intros R F. destruct (pack_all_ok n ops no_peers [] no_peers_ok R) as (p & E & H). simpl in H.
  destruct (send_tree_ok p ops H) with (t := p_tree p) as (ms & E2); eauto.
  intros x Hx. apply F. apply H. eauto.
Qed.

Lemma pack_out_of_range n p to data : (to < 0 \/ Z.of_nat n <= to)%Z -> comm_pack n p to data = None.
Proof. intros H. unfold comm_pack. replace (Z.ltb to 0 || Z.leb (Z.of_nat n) to)%Z%bool with true; auto.
  symmetry. apply orb_true_iff. destruct H; [left; apply Z.ltb_lt|right; apply Z.leb_le]; lia. Qed.

(* ------------------------------------------------------------------ *)
(** * Unpacking *)
Fixpoint slices (c : list byte) (sizes : list nat) : list (list byte) :=
  match sizes with [] => [] | n :: r => firstn n c :: slices (skipn n c) r end.

Lemma unpack_all_ok b : forall sizes done rest, b_mem b = ainit (done ++ rest) ->
  (nsum sizes <= length rest ->
     unpack_all {| b_mem := b_mem b; b_size := length done |} sizes
     = Some ({| b_mem := b_mem b; b_size := length done + nsum sizes |}, slices rest sizes)) /\
  (length rest < nsum sizes -> unpack_all {| b_mem := b_mem b; b_size := length done |} sizes = None).
Proof.
  induction sizes as [|n sizes IH]; intros done rest Hm; cbn [unpack_all slices nsum fold_right].
  - rewrite Nat.add_0_r. split; [auto|lia].
  - change (fold_right Nat.add 0 sizes) with (nsum sizes). unfold comm_unpack, walk_buffer, b_cap.
    cbn [b_mem b_size]. assert (L : length (b_mem b) = length done + length rest) by (rewrite Hm, ainit_length, app_length; lia).
    rewrite L. destruct (length done + length rest <? length done + n) eqn:E.
    + apply Nat.ltb_lt in E. cbn [obind]. split; [lia|auto].
    + apply Nat.ltb_ge in E. cbn [obind].
      assert (R : read_at (b_mem b) (length done) n = Some (firstn n rest)).
      { rewrite Hm. unfold ainit. rewrite map_app. rewrite <- (firstn_skipn n rest) at 1. rewrite map_app.
        rewrite <- (map_length Some done). 
        pose proof (read_at_split (map Some done) (firstn n rest) (map Some (skipn n rest))) as Q.
        rewrite firstn_length, Nat.min_l in Q by lia. exact Q. }
      cbn [b_mem]. rewrite R. cbn [obind].
      destruct (IH (done ++ firstn n rest) (skipn n rest)) as (A & B).
      { rewrite <- app_assoc, firstn_skipn. auto. }
      rewrite app_length, firstn_length, Nat.min_l, skipn_length in A, B by lia.
      split; intros H.
      * rewrite A by lia. cbn [obind]. rewrite <- Nat.add_assoc. reflexivity.
      * rewrite B by lia. reflexivity.
Qed.
Lemma concat_slices sizes : forall c, nsum sizes = length c -> concat (slices c sizes) = c.
Proof.
  induction sizes as [|n sizes IH]; intros c H; simpl in *.
  - destruct c; [auto|discriminate].
  - rewrite IH; [apply firstn_skipn|]. rewrite skipn_length. unfold nsum in *. lia.
Qed.
Lemma slices_map_length (ds : list (list byte)) : slices (concat ds) (map (@length byte) ds) = ds.
Proof. induction ds as [|d ds IH]; simpl; auto. rewrite firstn_app_exact, skipn_app_exact. now rewrite IH. Qed.

(* ------------------------------------------------------------------ *)
(** * Ordered delivery *)
Definition order_ok (t : tree) (msgs : list (Z * list byte)) : Prop :=
  inv t /\ sorted (elements t) /\ Permutation (elements t) (combine (map fst msgs) (seq 0 (length msgs))).

Lemma combine_snoc A B (l : list A) (k : list B) a b : length l = length k ->
  combine (l ++ [a]) (k ++ [b]) = combine l k ++ [(a, b)].
Proof. revert k. induction l as [|x l IH]; intros [|y k] H; try discriminate; simpl; auto. f_equal. apply IH. auto. Qed.
Lemma ins_perm x l : (forall a, In a l -> fst a <> fst x) -> Permutation (ins x l) (x :: l).
Proof.
  induction l as [|a l IH]; intros H; simpl; auto.
  unfold less, key. destruct (Z.ltb (fst x) (fst a)) eqn:E1; auto.
  destruct (Z.ltb (fst a) (fst x)) eqn:E2.
  - rewrite IH; [apply perm_swap|]. intros; apply H; simpl; auto.
  - apply Z.ltb_ge in E1, E2. exfalso. apply (H a); simpl; auto. lia.
Qed.
Lemma collect_ok : forall arrivals t msgs, order_ok t msgs -> NoDup (map fst (msgs ++ arrivals)) ->
  exists t', order_collect t msgs arrivals = Some (t', msgs ++ arrivals) /\ order_ok t' (msgs ++ arrivals).
Proof.
  induction arrivals as [|m r IH]; intros t msgs (Hi & Hs & Hp) N; cbn [order_collect].
  - rewrite app_nil_r. exists t. split; auto. split; [|split]; auto.
  - destruct (insert_spec (fst m, length msgs) t Hi Hs) as (t' & res & E & G & El & _). rewrite E. cbn [obind].
    destruct (IH t' (msgs ++ [m])) as (t2 & E2 & H2).
    + split; [apply G|]. split; [rewrite El; now apply ins_sorted|].
      rewrite El. rewrite ins_perm.
      * rewrite map_app, app_length. cbn [map length]. rewrite Nat.add_1_r, seq_snoc, combine_snoc by now rewrite map_length, seq_length.
        simpl. rewrite Hp. apply Permutation_cons_append.
      * intros a Ha. apply (Permutation_in _ Hp) in Ha. destruct a as [k i]. apply in_combine_l in Ha. simpl.
        rewrite map_app in N. apply NoDup_app_iff in N as (_ & _ & N). intros ->. apply (N _ Ha). simpl. auto.
    + rewrite <- app_assoc. auto.
    + exists t2. rewrite <- app_assoc in E2, H2. auto.
Qed.

Lemma fill_elements t : fill t = map snd (elements t).
Proof. induction t; simpl; auto. rewrite map_app. simpl. rewrite IHt1, IHt2. reflexivity. Qed.

Definition opened (t : tree) (msgs : list (Z * list byte)) (at_ : Z) : order :=
  {| o_tree := t; o_msgs := msgs; o_array := fill t; o_count := count t; o_ready := true; o_at := at_ |}.

Lemma listen_from arrivals t msgs : order_ok t msgs -> forall fuel i,
  i <= count t -> count t < fuel + i -> exists ms,
  listen_loop fuel arrivals (opened t msgs (Z.of_nat i - 1)) = Some (init_order, ms) /\
  Forall2 (fun a m => nth_error msgs (snd a) = Some m) (skipn i (elements t)) ms.
Proof.
  intros (Hi & Hs & Hp). induction fuel as [|f IH]; intros i Hi1 Hf; [lia|].
  cbn [listen_loop]. unfold order_receive. cbn [opened o_ready o_at o_count o_array o_msgs obind].
  replace (Z.of_nat i - 1 + 1)%Z with (Z.of_nat i) by lia.
  destruct (Z.eqb_spec (Z.of_nat i) (Z.of_nat (count t))) as [E|E].
  - cbn [obind]. exists []. split; auto. rewrite skipn_all2; [constructor|]. rewrite <- count_spec. lia.
  - destruct (Z.ltb_spec (Z.of_nat i) 0); [lia|]. rewrite Nat2Z.id, fill_elements, nth_error_map.
    destruct (nth_error (elements t) i) as [a|] eqn:Ea.
    2:{ apply nth_error_None in Ea. rewrite <- count_spec in Ea. lia. }
    cbn [option_map obind].
    assert (Hlt : snd a < length msgs).
    { pose proof (nth_error_In _ _ Ea) as Ia. apply (Permutation_in _ Hp) in Ia. destruct a as [k j].
      apply in_combine_r in Ia. apply in_seq in Ia. simpl. lia. }
    destruct (nth_error msgs (snd a)) as [m|] eqn:Em; [|apply nth_error_None in Em; lia]. cbn [obind].
    destruct (IH (S i)) as (ms & E2 & F); [lia|lia|].
    unfold opened in E2. rewrite fill_elements in E2. replace (Z.of_nat (S i) - 1)%Z with (Z.of_nat i) in E2 by lia.
    match goal with |- context [option_map snd ?e] => change e with (@nth_error node (elements t) i); rewrite Ea end.
    cbn [option_map obind opened o_tree]. rewrite Em. cbn [obind].
    rewrite E2. cbn [obind]. exists (m :: ms). split; auto.
    assert (Es : skipn i (elements t) = a :: skipn (S i) (elements t)).
    { clear -Ea. revert i Ea. generalize (elements t) as l. induction l as [|x l IH]; intros [|i] E; simpl in *; try discriminate.
      - congruence. - now rewrite (IH i). }
    rewrite Es. constructor; auto.
Qed.

Lemma Forall2_perm_l A B (R : A -> B -> Prop) l l' k : Permutation l l' -> Forall2 R l k ->
  exists k', Permutation k k' /\ Forall2 R l' k'.
Proof.
  intros P. revert k. induction P; intros k F.
  - inversion F; subst. exists []. auto.
  - inversion F; subst. destruct (IHP _ H3) as (k' & P' & F'). exists (y :: k'). auto.
  - inversion F; subst. inversion H3; subst. eexists. split; [apply perm_swap|]. auto.
  - destruct (IHP1 _ F) as (k1 & Pa & Fa). destruct (IHP2 _ Fa) as (k2 & Pb & Fb). exists k2. split; auto. etransitivity; eauto.
Qed.

Lemma order_delivers arrivals fuel : NoDup (map fst arrivals) -> length arrivals < fuel -> exists ms,
  listen_loop fuel arrivals init_order = Some (init_order, ms) /\ Permutation ms arrivals /\
  StronglySorted (fun a b => (fst a < fst b)%Z) ms.
Proof.
  intros N L. destruct fuel as [|f]; [lia|].
  destruct (collect_ok arrivals Bot []) as (t & E & H); [split; [exact I|split; [constructor|simpl; auto]]|auto|].
  simpl in E, H.
  assert (C : count t = length arrivals).
  { rewrite count_spec. destruct H as (_ & _ & P). apply Permutation_length in P. rewrite P. etransitivity; [exact (combine_length (map fst arrivals) (seq 0 (length arrivals)))|]. rewrite map_length, seq_length. lia. }
  destruct (listen_from arrivals t arrivals H (S f) 0) as (ms & E2 & F); [lia|lia|]. simpl in F.
  assert (E3 : listen_loop (S f) arrivals init_order = listen_loop (S f) arrivals (opened t arrivals (Z.of_nat 0 - 1))).
  { cbn [listen_loop]. unfold order_receive. cbn [init_order o_ready]. unfold prepare. cbn [init_order o_tree o_msgs].
    rewrite E. cbn [obind]. reflexivity. }
  rewrite E3, E2. exists ms. split; auto.
  assert (Fst : Forall2 (fun (a : node) (m : Z * list byte) => fst a = fst m) (elements t) ms).
  { destruct H as (_ & _ & P). assert (Hin : forall a, In a (elements t) -> nth_error (map fst arrivals) (snd a) = Some (fst a)).
    { intros a Ha. apply (Permutation_in _ P) in Ha. destruct a as [k j]. apply In_nth_error in Ha as (i & Hi). simpl.
      assert (G : forall (l : list Z) s, nth_error (combine l (seq s (length l))) i = Some (k, j) -> j = s + i /\ nth_error l i = Some k).
      { clear. intros l. revert i. induction l as [|x l IH]; intros [|i] s Hs; simpl in *; try discriminate.
        - inversion Hs; subst. split; [lia|auto].
        - apply IH in Hs as (? & ?). split; [lia|auto]. }
      rewrite <- (map_length fst) in Hi. apply G in Hi as (-> & Hi). exact Hi. }
    revert F Hin. clear. induction 1; intros Hin; constructor.
    - specialize (Hin x (or_introl eq_refl)). rewrite nth_error_map, H in Hin. simpl in Hin. congruence.
    - apply IHF. intros; apply Hin; simpl; auto. }
  split.
  - destruct H as (_ & _ & P). destruct (Forall2_perm_l _ _ _ _ _ _ P F) as (k' & P1 & F1).
    rewrite P1. assert (k' = arrivals); [|subst; auto].
    assert (G : forall (pre l : list (Z * list byte)) k', Forall2 (fun (a : Z * nat) m => nth_error (pre ++ l) (snd a) = Some m)
              (combine (map fst l) (seq (length pre) (length l))) k' -> k' = l).
    { clear. intros pre l. revert pre. induction l as [|x l IH]; intros pre k' F; simpl in F; inversion F; subst; auto.
      simpl in H1. rewrite nth_error_app2, Nat.sub_diag in H1 by lia. simpl in H1. inversion H1; subst.
      f_equal. apply (IH (pre ++ [y])). rewrite <- app_assoc, app_length. simpl. now rewrite Nat.add_1_r. }
    apply (G [] arrivals). exact F1.
  - destruct H as (_ & S & _). revert S Fst. clear. intros S F. revert S.
    induction F; intros S; constructor; apply sorted_cons in S as (S1 & S2); auto.
    assert (G : forall b, In b l' -> exists a, In a l /\ fst a = fst b).
    { clear -F. induction F; simpl; [tauto|]. intros b [<-|Hb]; [exists x; auto|]. destruct (IHF b Hb) as (a & ? & ?). eauto. }
    apply Forall_forall. intros b Hb. destruct (G b Hb) as (a & Ha & Ea). specialize (S2 a Ha). unfold lt_node, key in S2. lia.
Qed.
