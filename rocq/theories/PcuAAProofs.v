(** The AA tree is a balanced ordered set. *)
From Verif Require Import Base PcuAAModel.
From Coq Require Import Sorted.

Fixpoint inv (t : tree) : Prop :=
  match t with
  | Bot => True
  | Node l x n r => inv l /\ inv r /\ n = S (lv l) /\ (lv r = lv l \/ lv r = n) /\ lv (rt r) < n
  end.

Lemma lv_Bot t : inv t -> lv t = 0 -> t = Bot.
Proof. destruct t; simpl; auto. intros (_ & _ & H & _) H0. lia. Qed.
Lemma rt_le t : inv t -> lv (rt t) <= lv t.
Proof. destruct t; simpl; auto. intros (_ & _ & H & H0 & _). lia. Qed.
Lemma inv_rt t : inv t -> inv (rt t).
Proof. destruct t; simpl; tauto. Qed.

Lemma skew_elements t : elements (skew t) = elements t.
Proof. destruct t as [|l x n r]; auto. unfold skew. destruct (lv l =? n); auto. destruct l; auto.
  cbn [elements]. now rewrite <- app_assoc. Qed.
Lemma split_elements t t' : split t = Some t' -> elements t' = elements t.
Proof. destruct t as [|l x n r]; [discriminate|]. unfold split. destruct (lv (rt r) =? n).
  - destruct r; [discriminate|]. intros H; inversion H. cbn [elements]. now rewrite <- app_assoc.
  - intros H; inversion H; auto. Qed.

Ltac lvs := repeat match goal with
  | |- context [?a =? ?b] => destruct (Nat.eqb_spec a b); try (exfalso; simpl in *; lia)
  end.

(* ---------------- insertion ---------------- *)
(** what insertion into a subtree may do to it *)
Definition grown (t t' : tree) : Prop :=
  inv t' /\ (lv t' = lv t \/ (lv t' = S (lv t) /\ lv (rt t') < lv t' /\ lv (rt t) = lv t)).

Lemma fix_left l' y n r l : inv l -> inv r -> n = S (lv l) -> (lv r = lv l \/ lv r = n) -> lv (rt r) < n ->
  grown l l' -> exists t', split (skew (Node l' y n r)) = Some t' /\ grown (Node l y n r) t'.
Proof.
  intros Hl Hr Hn Hrl Hrr [Hl' Hg].
  destruct Hg as [Hg|(Hg & Hg2 & Hg3)].
  - unfold skew. destruct (Nat.eqb_spec (lv l') n); [lia|]. unfold split.
    destruct (Nat.eqb_spec (lv (rt r)) n); [lia|]. eexists; split; [reflexivity|].
    split; [|left; simpl; auto]. simpl. repeat split; auto; lia.
  - destruct l' as [|a lx ln b]; [simpl in *; lia|]. unfold skew. simpl lv in *.
    destruct (Nat.eqb_spec ln n); [|lia]. simpl in Hg2. destruct Hl' as (Ha & Hb & Hl1 & Hl2 & Hl3).
    unfold split. cbn [rt]. destruct (Nat.eqb_spec (lv r) ln).
    + eexists; split; [reflexivity|]. split.
      * simpl. repeat split; auto; lia.
      * right. simpl. lia.
    + eexists; split; [reflexivity|]. split.
      * simpl. repeat split; auto; lia.
      * left. simpl. lia.
Qed.
Lemma fix_right l y n r r' : inv l -> inv r -> n = S (lv l) -> (lv r = lv l \/ lv r = n) -> lv (rt r) < n ->
  grown r r' -> (lv r' = lv r -> lv (rt r) < lv r -> True) -> 
  exists t', split (skew (Node l y n r')) = Some t' /\ grown (Node l y n r) t'.
Proof.
  intros Hl Hr Hn Hrl Hrr [Hr' Hg] _.
  unfold skew. destruct (Nat.eqb_spec (lv l) n); [lia|]. unfold split.
  destruct (Nat.eqb_spec (lv (rt r')) n) as [e|e].
  - destruct r' as [|a rx rn b]; [simpl in *; lia|]. eexists; split; [reflexivity|]. simpl in *.
    destruct Hr' as (Ha & Hb & H1 & H2 & H3). pose proof (rt_le a Ha). split.
    + simpl. repeat split; auto; lia.
    + right. simpl. destruct Hg as [Hg|(Hg & Hg2 & Hg3)]; lia.
  - eexists; split; [reflexivity|]. pose proof (rt_le _ Hr').
    split; [|left; simpl; auto]. simpl. repeat split; auto; destruct Hg as [Hg|(Hg & Hg2 & Hg3)]; lia.
Qed.
Lemma fix_none l y n r : inv (Node l y n r) -> split (skew (Node l y n r)) = Some (Node l y n r).
Proof.
  intros (Hl & Hr & Hn & Hrl & Hrr). unfold skew. destruct (Nat.eqb_spec (lv l) n); [lia|].
  unfold split. destruct (Nat.eqb_spec (lv (rt r)) n); [lia|]. reflexivity.
Qed.

(** sorted-list insertion, the specification *)
Definition lt_node (a b : node) : Prop := (key a < key b)%Z.
Definition sorted (l : list node) : Prop := StronglySorted lt_node l.
Fixpoint ins (x : node) (l : list node) : list node :=
  match l with
  | [] => [x]
  | y :: t => if less x y then x :: l else if less y x then y :: ins x t else l
  end.

Lemma less_spec a b : less a b = true <-> (key a < key b)%Z.
Proof. unfold less. apply Z.ltb_lt. Qed.
Lemma less_false a b : less a b = false <-> (key b <= key a)%Z.
Proof. unfold less. apply Z.ltb_ge. Qed.

Lemma sorted_app l1 l2 : sorted (l1 ++ l2) <-> sorted l1 /\ sorted l2 /\ (forall a b, In a l1 -> In b l2 -> lt_node a b).
Proof.
  unfold sorted. induction l1 as [|x l1 IH]; simpl.
  - split; [intros H; repeat split; auto; [constructor|intros a b []]|tauto].
  - split.
    + intros H. inversion H as [|? ? H1 H2]; subst. apply IH in H1 as (A1 & A2 & A3).
      rewrite Forall_forall in H2. repeat split; auto.
      * constructor; auto. apply Forall_forall. intros; apply H2. apply in_or_app; auto.
      * intros a b [<-|Ha] Hb; [apply H2; apply in_or_app; auto|auto].
    + intros (A1 & A2 & A3). inversion A1 as [|? ? B1 B2]; subst. constructor.
      * apply IH. repeat split; auto.
      * rewrite Forall_forall in *. intros b Hb. apply in_app_or in Hb as [Hb|Hb]; auto.
Qed.
Lemma sorted_cons x l : sorted (x :: l) <-> sorted l /\ (forall b, In b l -> lt_node x b).
Proof. unfold sorted. split.
  - intros H. inversion H as [|? ? H1 H2]; subst. split; auto. now apply Forall_forall.
  - intros [H1 H2]. constructor; auto. now apply Forall_forall. Qed.

Lemma ins_app_left x y l1 l2 : (key x < key y)%Z -> ins x (l1 ++ y :: l2) = ins x l1 ++ y :: l2.
Proof. intros H. induction l1 as [|a l1 IH]; simpl.
  - apply less_spec in H. now rewrite H.
  - destruct (less x a); auto. destruct (less a x); auto. simpl. now rewrite IH. Qed.
Lemma ins_app_right x y l1 l2 : (forall a, In a l1 -> (key a < key x)%Z) -> (key y < key x)%Z ->
  ins x (l1 ++ y :: l2) = l1 ++ y :: ins x l2.
Proof. intros H Hy. assert (E : forall a l, (key a < key x)%Z -> ins x (a :: l) = a :: ins x l).
  { intros a l Ha. simpl. destruct (less x a) eqn:E1; [apply less_spec in E1; lia|].
    destruct (less a x) eqn:E2; auto. apply less_false in E2. lia. }
  induction l1 as [|a l1 IH].
  - simpl app. now rewrite E.
  - simpl app. rewrite E by (apply H; left; auto). f_equal. apply IH. intros; apply H; right; auto. Qed.
Lemma ins_same x y l1 l2 : (forall a, In a l1 -> (key a < key x)%Z) -> key y = key x ->
  ins x (l1 ++ y :: l2) = l1 ++ y :: l2.
Proof. intros H Hy. induction l1 as [|a l1 IH]; simpl.
  - destruct (less x y) eqn:E1; [apply less_spec in E1; lia|].
    destruct (less y x) eqn:E2; [apply less_spec in E2; lia|]. auto.
  - assert (Ha : (key a < key x)%Z) by (apply H; left; auto).
    destruct (less x a) eqn:E1; [apply less_spec in E1; lia|].
    destruct (less a x) eqn:E2; [|apply less_false in E2; lia].
    f_equal. apply IH. intros; apply H; right; auto. Qed.

Lemma insert_spec x : forall t, inv t -> sorted (elements t) -> exists t' res,
  insert x t = Some (t', res) /\ grown t t' /\ elements t' = ins x (elements t) /\
  In res (elements t') /\ key res = key x /\ (In res (elements t) \/ res = x).
Proof.
  induction t as [|l IHl y n r IHr]; intros Hi Hs.
  - eexists _, _. split; [reflexivity|]. split; [split; [simpl; repeat split; auto|right; simpl; lia]|].
    simpl. auto.
  - simpl in Hi. destruct Hi as (Hl & Hr & Hn & Hrl & Hrr). simpl in Hs. apply sorted_app in Hs as (S1 & S2 & S3).
    apply sorted_cons in S2 as (S2 & S4). cbn [insert].
    destruct (less x y) eqn:E1.
    + apply less_spec in E1. destruct (IHl Hl S1) as (l' & res & H1 & H2 & H3 & H4 & H5 & H6). rewrite H1. cbn [obind].
      destruct (fix_left l' y n r l Hl Hr Hn Hrl Hrr H2) as (t' & H7 & H8). rewrite H7. cbn [obind].
      exists t', res. split; [reflexivity|]. split; [auto|].
      assert (E : elements t' = ins x (elements (Node l y n r))).
      { rewrite (split_elements _ _ H7), skew_elements. cbn [elements]. rewrite H3, ins_app_left; auto. }
      split; auto. cbn [elements] in *. rewrite ins_app_left in E by auto. rewrite E, <- H3. rewrite !in_app_iff. tauto.
    + destruct (less y x) eqn:E2.
      * apply less_spec in E2. destruct (IHr Hr S2) as (r' & res & H1 & H2 & H3 & H4 & H5 & H6). rewrite H1. cbn [obind].
        destruct (fix_right l y n r r' Hl Hr Hn Hrl Hrr H2) as (t' & H7 & H8); auto. rewrite H7. cbn [obind].
        exists t', res. split; [reflexivity|]. split; [auto|].
        assert (E : elements t' = ins x (elements (Node l y n r))).
        { rewrite (split_elements _ _ H7), skew_elements. cbn [elements]. rewrite H3, ins_app_right; auto.
          intros a Ha. specialize (S3 a y Ha (or_introl eq_refl)). unfold lt_node in S3. lia. }
        split; auto. cbn [elements] in *. rewrite ins_app_right in E; auto.
        2:{ intros a Ha. specialize (S3 a y Ha (or_introl eq_refl)). unfold lt_node in S3. lia. }
        rewrite E, <- H3. rewrite !in_app_iff. simpl. tauto.
      * cbn [obind]. rewrite fix_none by (simpl; auto). cbn [obind].
        apply less_false in E1, E2.
        eexists _, _. split; [reflexivity|]. split; [split; [simpl; auto|left; auto]|].
        split; [|split; [|split]].
        -- cbn [elements]. rewrite ins_same; auto; [|lia].
           intros a Ha. specialize (S3 a y Ha (or_introl eq_refl)). unfold lt_node in S3. lia.
        -- simpl. apply in_or_app. right; left; auto.
        -- lia.
        -- left. simpl. apply in_or_app. right; left; auto.
Qed.

Lemma ins_in x l a : sorted l -> In a (ins x l) <-> In a l \/ (a = x /\ forall b, In b l -> key b <> key x).
Proof.
  induction l as [|y l IH]; intros Hs; simpl.
  - split; [intros [<-|[]]; right; split; auto; intros ? []|intros [[]|[-> _]]; auto].
  - apply sorted_cons in Hs as (H1 & H2). destruct (less x y) eqn:E1.
    + apply less_spec in E1. split.
      * intros [<-|[<-|Ha]]; auto. right. split; auto. intros b [<-|Hb]; [lia|]. specialize (H2 b Hb). unfold lt_node in H2. lia.
      * intros [[<-|Ha]|[-> _]]; simpl; auto.
    + apply less_false in E1. destruct (less y x) eqn:E2.
      * apply less_spec in E2. simpl. rewrite IH by auto. split.
        -- intros [<-|[Ha|[-> Ha]]]; auto. right. split; auto. intros b [<-|Hb]; auto; lia.
        -- intros [[<-|Ha]|[-> Ha]]; auto. right; right. split; auto.
      * apply less_false in E2. simpl. split; [tauto|]. intros [Ha|[-> Ha]]; auto.
        exfalso. apply (Ha y); auto. lia.
Qed.
Lemma ins_sorted x l : sorted l -> sorted (ins x l).
Proof.
  induction l as [|y l IH]; intros Hs; simpl.
  - apply sorted_cons. split; [constructor|intros ? []].
  - pose proof Hs as Hs0. apply sorted_cons in Hs as (H1 & H2). destruct (less x y) eqn:E1.
    + apply less_spec in E1. apply sorted_cons. split; auto. intros b [<-|Hb]; auto.
      specialize (H2 b Hb). unfold lt_node in *. lia.
    + destruct (less y x) eqn:E2; auto. apply less_spec in E2. apply sorted_cons. split; auto.
      intros b Hb. apply ins_in in Hb as [Hb|[-> _]]; auto.
Qed.

(* ---------------- find, count, height ---------------- *)
Lemma find_spec x : forall t, sorted (elements t) -> forall y, find x t = Some y <-> In y (elements t) /\ key y = key x.
Proof.
  induction t as [|l IHl k n r IHr]; intros Hs y; simpl in *.
  - split; [discriminate|intros [[] _]].
  - apply sorted_app in Hs as (S1 & S2 & S3). apply sorted_cons in S2 as (S2 & S4).
    rewrite in_app_iff. simpl. destruct (less x k) eqn:E1.
    + apply less_spec in E1. rewrite (IHl S1). split; [tauto|]. intros [[H|[<-|H]] Hk]; auto; [lia|].
      specialize (S4 y H). unfold lt_node in S4. lia.
    + apply less_false in E1. destruct (less k x) eqn:E2.
      * apply less_spec in E2. rewrite (IHr S2). split; [tauto|]. intros [[H|[<-|H]] Hk]; auto; [|lia].
        specialize (S3 y k H (or_introl eq_refl)). unfold lt_node in S3. lia.
      * apply less_false in E2. assert (key k = key x) by lia. split.
        -- intros H0. inversion H0; subst. auto.
        -- intros [[H0|[<-|H0]] Hk]; auto.
           ++ specialize (S3 y k H0 (or_introl eq_refl)). unfold lt_node in S3. lia.
           ++ specialize (S4 y H0). unfold lt_node in S4. lia.
Qed.
Lemma count_spec t : count t = length (elements t).
Proof. induction t; simpl; auto. rewrite app_length. simpl. lia. Qed.
Lemma height_lv t : inv t -> height t <= 2 * lv t /\ (lv (rt t) < lv t -> height t <= 2 * lv t - 1).
Proof.
  induction t as [|l IHl k n r IHr]; simpl; [lia|]. intros (Hl & Hr & Hn & Hrl & Hrr).
  destruct (IHl Hl) as [A1 A2]. destruct (IHr Hr) as [B1 B2]. destruct Hrl as [e|e].
  - split; intros; lia.
  - rewrite e in *. specialize (B2 Hrr). split; intros; lia.
Qed.
Lemma size_lv t : inv t -> 2 ^ lv t <= count t + 1.
Proof.
  induction t as [|l IHl k n r IHr]; simpl; [lia|]. intros (Hl & Hr & Hn & Hrl & Hrr).
  specialize (IHl Hl). specialize (IHr Hr). subst n. simpl.
  destruct Hrl as [e|e]; rewrite e in IHr; simpl in IHr; lia.
Qed.
Lemma height_bound t : inv t -> 2 ^ height t <= (count t + 1) * (count t + 1).
Proof.
  intros H. destruct (height_lv t H) as [H1 _]. pose proof (size_lv t H) as H2.
  transitivity (2 ^ (lv t + lv t)).
  - apply Nat.pow_le_mono_r; lia.
  - rewrite Nat.pow_add_r. now apply Nat.mul_le_mono.
Qed.

(* ---------------- rebalancing after removal ---------------- *)
Definition shrunk (t t' : tree) : Prop :=
  inv t' /\ ((lv t' = lv t /\ (lv (rt t) < lv t -> lv (rt t') < lv t')) \/ S (lv t') = lv t).

Lemma map_right_elements f t : (forall t, elements (f t) = elements t) -> elements (map_right f t) = elements t.
Proof. intros H. destruct t; simpl; auto. now rewrite H. Qed.
Lemma set_level_elements t n : elements (set_level t n) = elements t.
Proof. destruct t; reflexivity. Qed.
Lemma rebalance_elements t t' : rebalance t = Some t' -> elements t' = elements t.
Proof.
  destruct t as [|l x n r]; [intros H; inversion H; auto|]. unfold rebalance.
  destruct (_ || _); [|intros H; inversion H; auto].
  set (r1 := if n - 1 <? lv r then set_level r (n - 1) else r).
  assert (Er : elements r1 = elements r) by (unfold r1; destruct (n - 1 <? lv r); auto; apply set_level_elements).
  set (t3 := map_right (map_right skew) (map_right skew (skew (Node l x (n - 1) r1)))).
  assert (Et : elements t3 = elements (Node l x n r)).
  { unfold t3. rewrite map_right_elements by (intros; apply map_right_elements; apply skew_elements).
    rewrite map_right_elements by apply skew_elements. rewrite skew_elements. cbn [elements]. now rewrite Er. }
  destruct (split t3) as [t4|] eqn:E4; [|discriminate]. cbn [obind].
  apply split_elements in E4. destruct t4 as [|l4 x4 n4 r4]; [discriminate|].
  destruct (split r4) as [r5|] eqn:E5; [|discriminate]. cbn [obind]. intros H; inversion H; subst.
  apply split_elements in E5. cbn [elements] in *. rewrite E5, E4, Et. reflexivity.
Qed.

Lemma skew_no l x n r : lv l <> n -> skew (Node l x n r) = Node l x n r.
Proof. intros H. unfold skew. destruct (Nat.eqb_spec (lv l) n); auto. contradiction. Qed.
Lemma skew_rot ll lx n lr x r : skew (Node (Node ll lx n lr) x n r) = Node ll lx n (Node lr x n r).
Proof. unfold skew. cbn [lv]. now rewrite Nat.eqb_refl. Qed.
Lemma skew_inv t : inv t -> skew t = t.
Proof. destruct t; auto. intros (_ & _ & H & _). apply skew_no. lia. Qed.
Lemma split_no l x n r : lv (rt r) <> n -> split (Node l x n r) = Some (Node l x n r).
Proof. intros H. unfold split. destruct (Nat.eqb_spec (lv (rt r)) n); auto. contradiction. Qed.
Lemma split_rot l x n rl rx rn rr : lv rr = n ->
  split (Node l x n (Node rl rx rn rr)) = Some (Node (Node l x n rl) rx (S rn) rr).
Proof. intros H. unfold split. cbn [rt]. rewrite H. now rewrite Nat.eqb_refl. Qed.

Lemma rebalance_left l' k n r : inv l' -> inv r -> lv l' = n -> (lv r = S n \/ lv r = S (S n)) -> lv (rt r) < S (S n) ->
  exists t', rebalance (Node l' k (S (S n)) r) = Some t' /\ inv t' /\
    ((lv t' = S (S n) /\ (lv r = S n -> lv (rt t') < S (S n))) \/ lv t' = S n).
Proof.
  intros Hl Hr Hn Hrl Hrr. unfold rebalance. replace (S (S n) - 1) with (S n) by lia.
  destruct (Nat.ltb_spec (lv l' + 1) (S (S n))) as [_|g]; [|lia]. cbn [orb]. cbv zeta.
  pose proof (rt_le _ Hl) as Hlr.
  destruct r as [|rl rx rn rr]; [simpl in Hrl; lia|]. cbn [lv rt] in *.
  destruct Hrl as [e|e]; subst rn;
  destruct Hr as (Hrl1 & Hrr1 & Hr1 & Hr2 & Hr3); pose proof (rt_le _ Hrl1) as Hx1; pose proof (rt_le _ Hrr1) as Hx2.
  - (* right child one level down: becomes horizontal *)
    destruct (Nat.ltb_spec (S n) (S n)) as [g|_]; [lia|].
    rewrite skew_no by lia. cbn [map_right]. rewrite (skew_no rl) by lia. cbn [map_right]. rewrite skew_inv by auto.
    destruct (Nat.eq_dec (lv rr) (S n)) as [e2|e2].
    + rewrite split_rot by auto. cbn [obind].
      destruct rr as [|a b c d]; [simpl in e2; lia|]. cbn [lv rt] in *. subst c.
      destruct Hrr1 as (A1 & A2 & A3 & A4 & A5). pose proof (rt_le d A2). rewrite split_no by lia. cbn [obind].
      eexists; split; [reflexivity|]. split; [simpl; repeat split; auto; lia|left; simpl; split; auto; lia].
    + rewrite split_no by auto. cbn [obind]. rewrite split_no by lia.
      cbn [obind]. eexists; split; [reflexivity|]. split; [simpl; repeat split; auto; lia|right; simpl; auto].
  - (* right child horizontal *)
    destruct (Nat.ltb_spec (S n) (S (S n))) as [_|g]; [|lia].
    cbn [set_level]. rewrite skew_no by lia. cbn [map_right].
    destruct rl as [|a c rln b]; [simpl in *; lia|]. cbn [lv rt] in *.
    assert (rln = S n) by lia. subst rln. assert (Hrrn : lv rr = S n) by lia.
    destruct Hrl1 as (A1 & A2 & A3 & A4 & A5). rewrite skew_rot. cbn [map_right].
    pose proof (rt_le _ A1). pose proof (rt_le _ A2).
    destruct (Nat.eq_dec (lv b) (S n)) as [e2|e2].
    + destruct b as [|b1 bk bn b2]; [simpl in e2; lia|]. cbn [lv rt] in *. subst bn.
      destruct A2 as (B1 & B2 & B3 & B4 & B5). rewrite skew_rot.
      pose proof (rt_le _ B1). pose proof (rt_le _ B2).
      rewrite split_rot by reflexivity. cbn [obind]. rewrite split_rot by auto. cbn [obind].
      eexists; split; [reflexivity|]. split; [simpl; repeat split; auto; lia|left; simpl; split; auto; lia].
    + rewrite skew_no by auto. rewrite split_rot by reflexivity. cbn [obind].
      destruct rr as [|c1 ck cn c2]; [simpl in *; lia|]. cbn [lv rt] in *. subst cn.
      destruct Hrr1 as (C1 & C2 & C3 & C4 & C5). pose proof (rt_le _ C1). pose proof (rt_le _ C2).
      destruct (Nat.eq_dec (lv c2) (S n)) as [e3|e3].
      * rewrite split_rot by auto. cbn [obind].
        eexists; split; [reflexivity|]. split; [simpl; repeat split; auto; lia|left; simpl; split; auto; lia].
      * rewrite split_no by auto. cbn [obind].
        eexists; split; [reflexivity|]. split; [simpl; repeat split; auto; lia|left; simpl; split; auto; lia].
Qed.

Lemma rebalance_right l k n r' : inv l -> inv r' -> lv l = S n -> lv r' = n ->
  exists t', rebalance (Node l k (S (S n)) r') = Some t' /\ inv t' /\
    ((lv t' = S (S n) /\ lv (rt t') < S (S n)) \/ lv t' = S n).
Proof.
  intros Hl Hr Hln Hrn. unfold rebalance. replace (S (S n) - 1) with (S n) by lia.
  destruct (Nat.ltb_spec (lv r' + 1) (S (S n))) as [_|g]; [|lia]. rewrite orb_true_r. cbv zeta.
  destruct (Nat.ltb_spec (S n) (lv r')) as [g|_]; [lia|]. pose proof (rt_le r' Hr).
  destruct l as [|la lk ln lb]; [simpl in *; lia|]. cbn [lv] in *. subst ln.
  destruct Hl as (A1 & A2 & A3 & A4 & A5). pose proof (rt_le _ A1). pose proof (rt_le _ A2).
  rewrite skew_rot. cbn [map_right].
  destruct (Nat.eq_dec (lv lb) (S n)) as [e|e].
  - destruct lb as [|c d m e']; [simpl in e; lia|]. cbn [lv rt] in *. subst m.
    destruct A2 as (B1 & B2 & B3 & B4 & B5). pose proof (rt_le _ B1). pose proof (rt_le _ B2).
    rewrite skew_rot. cbn [map_right]. rewrite skew_no by lia.
    rewrite split_rot by reflexivity. cbn [obind]. rewrite split_no by lia. cbn [obind].
    eexists; split; [reflexivity|]. split; [simpl; repeat split; auto; lia|left; simpl; split; auto; lia].
  - rewrite skew_no by auto. cbn [map_right]. rewrite skew_inv by auto.
    rewrite split_no by (cbn [rt]; lia). cbn [obind]. rewrite split_no by lia. cbn [obind].
    eexists; split; [reflexivity|]. split; [simpl; repeat split; auto; lia|right; simpl; auto].
Qed.

Lemma rebalance_none l k n r : inv (Node l k n r) -> rebalance (Node l k n r) = Some (Node l k n r).
Proof.
  intros (Hl & Hr & Hn & Hrl & Hrr). unfold rebalance.
  destruct (Nat.ltb_spec (lv l + 1) n); [lia|]. destruct (Nat.ltb_spec (lv r + 1) n); [lia|]. reflexivity.
Qed.

Lemma after_left l k n r l' : inv (Node l k n r) -> shrunk l l' ->
  exists t', rebalance (Node l' k n r) = Some t' /\ shrunk (Node l k n r) t'.
Proof.
  intros (Hl & Hr & Hn & Hrl & Hrr) [Hl' Hs]. destruct Hs as [[Hs _]|Hs].
  - exists (Node l' k n r). split; [apply rebalance_none; simpl; repeat split; auto; lia|].
    split; [simpl; repeat split; auto; lia|left; simpl; auto].
  - destruct (rebalance_left l' k (lv l') r Hl' Hr eq_refl) as (t' & H1 & H2 & H3); try lia.
    subst n. rewrite <- Hs. exists t'. split; auto. split; auto. simpl. destruct H3 as [[H3 H4]|H3]; [left|right; lia].
    split; [lia|]. intros. rewrite H3. apply H4. lia.
Qed.
Lemma after_right l k n r r' : inv (Node l k n r) -> shrunk r r' ->
  exists t', rebalance (Node l k n r') = Some t' /\ shrunk (Node l k n r) t'.
Proof.
  intros (Hl & Hr & Hn & Hrl & Hrr) [Hr' Hs]. pose proof (rt_le _ Hr') as Hle. pose proof (rt_le _ Hr) as Hle0.
  assert (Hok : (lv r' = lv l \/ lv r' = n) -> lv (rt r') < n ->
    exists t', rebalance (Node l k n r') = Some t' /\ shrunk (Node l k n r) t').
  { intros G1 G2. exists (Node l k n r'). assert (inv (Node l k n r')) by (simpl; repeat split; auto; lia).
    split; [apply rebalance_none; auto|]. split; auto. left. simpl. split; auto. lia. }
  destruct Hs as [[Hs Hs2]|Hs].
  - apply Hok; [lia|]. destruct Hrl as [e|e]; [lia|]. specialize (Hs2 ltac:(lia)). lia.
  - destruct Hrl as [e|e]; [|apply Hok; lia].
    destruct (rebalance_right l k (lv r') r' Hl Hr') as (t' & H1 & H2 & H3); try lia.
    subst n. rewrite <- e, <- Hs. exists t'. split; auto. split; auto. simpl.
    destruct H3 as [[H3 H4]|H3]; [left; split; [lia|lia]|right; lia].
Qed.

(* ---------------- removal ---------------- *)
Lemma same_node_eq a b : same_node a b = true <-> a = b.
Proof. unfold same_node. rewrite andb_true_iff, Z.eqb_eq, Nat.eqb_eq. destruct a, b; simpl. split; [intros [-> ->]; auto|intros H; inversion H; auto]. Qed.

(** the removed subtree is replaced by its right child *)
Lemma leaf_right l k n r : inv (Node l k n r) -> l = Bot \/ r = Bot -> l = Bot /\ shrunk (Node l k n r) r.
Proof.
  intros (Hl & Hr & Hn & Hrl & Hrr) H.
  assert (l = Bot). { destruct H as [H|H]; auto. subst r. simpl in *. apply lv_Bot; auto. lia. }
  subst l. split; auto. split; auto. simpl in *. subst n.
  destruct Hrl as [e|e]; [right; lia|left; split; auto]. lia.
Qed.

(** case a: the key to delete was seen above, all keys here are larger *)
Lemma rs_min x d : key d = key x -> forall t v, t <> Bot -> inv t ->
  v_deleted v = Some d -> v_succ v = None -> (forall a, In a (elements t) -> (key x < key a)%Z) -> sorted (elements t) ->
  exists t' s v', remove_successor x t v = Some (t', v') /\ shrunk t t' /\ elements t = s :: elements t' /\
    v' = {| v_deleted := Some d; v_last := Some s; v_succ := Some s |}.
Proof.
  intros Hd. induction t as [|l IHl k n r IHr]; intros v Hb Hi Hv Hsu Hgt Hs; [congruence|].
  assert (Hk : less x k = true). { apply less_spec. apply Hgt. simpl. apply in_or_app. right; left; auto. }
  cbn [remove_successor]. rewrite Hk. rewrite Hv, Hsu.
  destruct l as [|ll lk ln lr].
  - cbn [remove_successor obind]. unfold at_removal. cbn [v_last v_deleted].
    assert (E : same_node k k = true) by (apply same_node_eq; auto). rewrite E.
    assert (E1 : less x d = false) by (apply less_false; lia). assert (E2 : less d x = false) by (apply less_false; lia).
    rewrite E1, E2. cbn [negb andb rt v_succ]. eexists _, k, _. split; [reflexivity|].
    split; [apply leaf_right; auto|]. simpl. auto.
  - assert (Hnb : Node ll lk ln lr <> Bot) by discriminate. set (l := Node ll lk ln lr) in *.
    pose proof Hi as (Hil & _). simpl in Hs. apply sorted_app in Hs as (S1 & S2 & S3).
    destruct (IHl {| v_deleted := Some d; v_last := Some k; v_succ := None |}) as (l' & s & v' & H1 & H2 & H3 & H4); auto.
    { intros a Ha. apply Hgt. simpl. apply in_or_app; auto. }
    rewrite H1. cbn [obind]. subst v'. unfold at_removal. cbn [v_last v_deleted].
    assert (Hks : same_node k s = false).
    { destruct (same_node k s) eqn:E; auto. apply same_node_eq in E. subst s.
      assert (Hin : In k (elements l)) by (rewrite H3; left; auto).
      specialize (S3 k k Hin (or_introl eq_refl)). unfold lt_node in S3. lia. }
    rewrite Hks. cbn [andb]. destruct (after_left l k n r l' Hi H2) as (t' & H5 & H6). rewrite H5. cbn [obind].
    exists t', s, {| v_deleted := Some d; v_last := Some s; v_succ := Some s |}. split; auto. split; auto. split; auto.
    rewrite (rebalance_elements _ _ H5). cbn [elements]. rewrite H3. reflexivity.
Qed.

(** case b: the key is in this subtree *)
Lemma rs_in x d : key d = key x -> forall t v, inv t -> sorted (elements t) -> In d (elements t) -> v_succ v = None ->
  exists t' s v' l1 l2, remove_successor x t v = Some (t', v') /\ shrunk t t' /\
    v' = {| v_deleted := Some d; v_last := Some s; v_succ := Some s |} /\ In s (elements t) /\
    ((s = d /\ elements t = l1 ++ d :: l2 /\ elements t' = l1 ++ l2) \/
     (s <> d /\ elements t = l1 ++ d :: s :: l2 /\ elements t' = l1 ++ d :: l2)).
Proof.
  intros Hd. induction t as [|l IHl k n r IHr]; intros v Hi Hs Hin Hsu; [destruct Hin|].
  pose proof Hs as Hs0. simpl in Hs. apply sorted_app in Hs as (S1 & S2 & S3). apply sorted_cons in S2 as (S2 & S4).
  pose proof Hi as Hi0. destruct Hi as (Hl & Hr & Hi). cbn [elements] in Hin. apply in_app_or in Hin.
  cbn [remove_successor].
  assert (Hne : forall s, In s (elements l) -> same_node k s = false).
  { intros s Hin'. destruct (same_node k s) eqn:E; auto. apply same_node_eq in E. subst s.
    specialize (S3 k k Hin' (or_introl eq_refl)). unfold lt_node in S3. lia. }
  assert (Hne' : forall s, In s (elements r) -> same_node k s = false).
  { intros s Hin'. destruct (same_node k s) eqn:E; auto. apply same_node_eq in E. subst s.
    specialize (S4 k Hin'). unfold lt_node in S4. lia. }
  destruct (less x k) eqn:E1.
  - apply less_spec in E1.
    assert (Hin' : In d (elements l)).
    { destruct Hin as [?|[<-|H]]; auto; [lia|]. specialize (S4 d H). unfold lt_node in S4. lia. }
    destruct (IHl {| v_deleted := v_deleted v; v_last := Some k; v_succ := v_succ v |} Hl S1 Hin' Hsu) as (l' & s & v' & l1 & l2 & H1 & H2 & H3 & H4 & H5).
    rewrite H1. cbn [obind]. subst v'. unfold at_removal. cbn [v_last v_deleted]. rewrite Hne by auto. cbn [andb].
    destruct (after_left l k n r l' Hi0 H2) as (t' & H6 & H7). rewrite H6. cbn [obind].
    exists t', s, {| v_deleted := Some d; v_last := Some s; v_succ := Some s |}.
    exists l1, (l2 ++ k :: elements r). do 3 (split; [now auto|]).
    rewrite (rebalance_elements _ _ H6). cbn [elements].
    split; [apply in_or_app; auto|]. destruct H5 as [(-> & A & B)|(Hn & A & B)]; [left|right]; rewrite A, B, <- ?app_assoc; auto.
  - apply less_false in E1. destruct (Z.eq_dec (key k) (key x)) as [e|e].
    + (* found here *)
      assert (d = k).
      { destruct Hin as [H|[H|H]]; auto.
        - specialize (S3 d k H (or_introl eq_refl)). unfold lt_node in S3. lia.
        - specialize (S4 d H). unfold lt_node in S4. lia. }
      subst d. clear Hin.
      assert (Hrb : r = Bot \/ r <> Bot) by (destruct r; [left; auto|right; discriminate]).
      destruct Hrb as [->|Hrb].
      * cbn [remove_successor obind]. unfold at_removal. cbn [v_last v_deleted].
        assert (E : same_node k k = true) by (apply same_node_eq; auto). rewrite E.
        assert (E3 : less x k = false) by (apply less_false; lia). assert (E2 : less k x = false) by (apply less_false; lia).
        rewrite E3, E2. cbn [negb andb rt v_succ].
        destruct (leaf_right l k n Bot Hi0 (or_intror eq_refl)) as [-> H].
        exists Bot, k. eexists. exists [], []. split; [reflexivity|]. split; [auto|]. split; [reflexivity|]. simpl. auto.
      * destruct (rs_min x k Hd r {| v_deleted := Some k; v_last := Some k; v_succ := v_succ v |} Hrb Hr eq_refl Hsu) as (r' & s & v' & H1 & H2 & H3 & H4); auto.
        { intros a Ha. specialize (S4 a Ha). unfold lt_node in S4. lia. }
        rewrite H1. cbn [obind]. subst v'. unfold at_removal. cbn [v_last v_deleted].
        assert (Hinr : In s (elements r)) by (rewrite H3; left; auto).
        rewrite Hne' by auto. cbn [andb]. destruct (after_right l k n r r' Hi0 H2) as (t' & H6 & H7). rewrite H6. cbn [obind].
        exists t', s, {| v_deleted := Some k; v_last := Some s; v_succ := Some s |}.
        exists (elements l), (elements r'). do 3 (split; [now auto|]).
        rewrite (rebalance_elements _ _ H6). cbn [elements]. rewrite H3. split; [apply in_or_app; simpl; auto|]. right. split; auto.
        intros ->. specialize (S4 k Hinr). unfold lt_node in S4. lia.
    + assert (Hin' : In d (elements r)).
      { destruct Hin as [H|[<-|H]]; auto; [|lia]. specialize (S3 d k H (or_introl eq_refl)). unfold lt_node in S3. lia. }
      destruct (IHr {| v_deleted := Some k; v_last := Some k; v_succ := v_succ v |} Hr S2 Hin' Hsu) as (r' & s & v' & l1 & l2 & H1 & H2 & H3 & H4 & H5).
      rewrite H1. cbn [obind]. subst v'. unfold at_removal. cbn [v_last v_deleted]. rewrite Hne' by auto. cbn [andb].
      destruct (after_right l k n r r' Hi0 H2) as (t' & H6 & H7). rewrite H6. cbn [obind].
      exists t', s, {| v_deleted := Some d; v_last := Some s; v_succ := Some s |}.
      exists (elements l ++ k :: l1), l2. do 3 (split; [now auto|]).
      rewrite (rebalance_elements _ _ H6). cbn [elements].
      split; [apply in_or_app; simpl; auto|]. destruct H5 as [(-> & A & B)|(Hn & A & B)]; [left|right]; rewrite A, B, <- ?app_assoc; auto.
Qed.

(** case c: the key is nowhere *)
Lemma rs_out x : forall t v, inv t -> (forall a, In a (elements t) -> key a <> key x) ->
  (forall d, v_deleted v = Some d -> key d <> key x) -> v_succ v = None ->
  exists v', remove_successor x t v = Some (t, v') /\ v_succ v' = None /\ (forall d, v_deleted v' = Some d -> key d <> key x).
Proof.
  induction t as [|l IHl k n r IHr]; intros v Hi Hk Hd Hsu; [exists v; auto|].
  pose proof Hi as Hi0. destruct Hi as (Hl & Hr & Hi). cbn [remove_successor].
  assert (Hat : forall v', (forall d, v_deleted v' = Some d -> key d <> key x) -> at_removal x k v' = false).
  { intros v' H. unfold at_removal. destruct (v_last v'); auto. destruct (v_deleted v') as [d|] eqn:E; auto.
    specialize (H d eq_refl). destruct (less x d) eqn:E1; [now rewrite andb_false_r|]. apply less_false in E1.
    assert (E2 : less d x = true) by (apply less_spec; lia). rewrite E2. apply andb_false_r. }
  assert (Hkk : key k <> key x) by (apply Hk; simpl; apply in_or_app; right; left; auto).
  destruct (less x k).
  - destruct (IHl {| v_deleted := v_deleted v; v_last := Some k; v_succ := v_succ v |}) as (v' & H1 & H2 & H3); auto.
    { intros; apply Hk; simpl; apply in_or_app; auto. }
    rewrite H1. cbn [obind]. rewrite Hat by auto. rewrite rebalance_none by auto. cbn [obind]. eauto.
  - destruct (IHr {| v_deleted := Some k; v_last := Some k; v_succ := v_succ v |}) as (v' & H1 & H2 & H3); auto.
    { intros; apply Hk; simpl; apply in_or_app; simpl; auto. }
    { simpl. intros d Hd'; inversion Hd'; subst; auto. }
    rewrite H1. cbn [obind]. rewrite Hat by auto. rewrite rebalance_none by auto. cbn [obind]. eauto.
Qed.

Lemma swap_spec d s : forall t l1 l2, sorted (elements t) -> elements t = l1 ++ d :: l2 ->
  exists t', swap_successor d s t = Some t' /\ elements t' = l1 ++ s :: l2 /\ (inv t -> inv t') /\ lv t' = lv t /\ lv (rt t') = lv (rt t).
Proof.
  induction t as [|l IHl k n r IHr]; intros l1 l2 Hs He; [destruct l1; discriminate|].
  pose proof Hs as Hs0. simpl in Hs. apply sorted_app in Hs as (S1 & S2 & S3). apply sorted_cons in S2 as (S2 & S4).
  cbn [elements swap_successor] in *.
  assert (Hin : In d (elements l ++ k :: elements r)) by (rewrite He; apply in_or_app; right; left; auto).
  assert (Huniq : forall a b a' b' : list node, sorted (a ++ d :: b) -> a ++ d :: b = a' ++ d :: b' -> a = a' /\ b = b').
  { clear. induction a as [|x a IH]; intros b [|y a'] b' Hso E; simpl in *.
    - inversion E; auto.
    - inversion E; subst. apply sorted_cons in Hso as [_ H]. specialize (H y ltac:(apply in_or_app; right; left; auto)). unfold lt_node in H. lia.
    - inversion E; subst. apply sorted_cons in Hso as [_ H]. specialize (H d ltac:(apply in_or_app; right; left; auto)). unfold lt_node in H. lia.
    - inversion E; subst. apply sorted_cons in Hso as [Hso _]. destruct (IH b a' b' Hso H1). subst; auto. }
  apply in_app_or in Hin. destruct (less d k) eqn:E1.
  - apply less_spec in E1. assert (Hin' : In d (elements l)).
    { destruct Hin as [?|[<-|H]]; auto; [lia|]. specialize (S4 d H). unfold lt_node in S4. lia. }
    apply in_split in Hin' as (a & b & Hab). rewrite Hab in *.
    destruct (IHl a b S1 eq_refl) as (l' & H1 & H2 & H3 & H4 & H5). rewrite H1. cbn [obind].
    eexists; split; [reflexivity|]. rewrite <- app_assoc in He, Hs0. simpl in He, Hs0.
    destruct (Huniq _ _ _ _ Hs0 He) as [<- <-]. cbn [elements inv lv rt]. rewrite H2, <- app_assoc, H4. simpl.
    split; auto. split; [|auto]. intros (B1 & B2 & B3). auto.
  - apply less_false in E1. destruct (less k d) eqn:E2.
    + apply less_spec in E2. assert (Hin' : In d (elements r)).
      { destruct Hin as [H|[<-|H]]; auto; [|lia]. specialize (S3 d k H (or_introl eq_refl)). unfold lt_node in S3. lia. }
      apply in_split in Hin' as (a & b & Hab). rewrite Hab in *.
      destruct (IHr a b S2 eq_refl) as (r' & H1 & H2 & H3 & H4 & H5). rewrite H1. cbn [obind].
      eexists; split; [reflexivity|].
      replace (elements l ++ k :: a ++ d :: b) with ((elements l ++ k :: a) ++ d :: b) in * by (rewrite <- app_assoc; auto).
      destruct (Huniq _ _ _ _ Hs0 He) as [<- <-]. cbn [elements inv lv rt]. rewrite H2, <- app_assoc, H4, H5. simpl.
      split; auto. split; [|auto]. intros (B1 & B2 & B3). auto.
    + apply less_false in E2. assert (d = k).
      { destruct Hin as [H|[H|H]]; auto.
        - specialize (S3 d k H (or_introl eq_refl)). unfold lt_node in S3. lia.
        - specialize (S4 d H). unfold lt_node in S4. lia. }
      subst k. assert (E : same_node d d = true) by (apply same_node_eq; auto). rewrite E.
      eexists; split; [reflexivity|]. destruct (Huniq _ _ _ _ Hs0 He) as [<- <-]. cbn [elements inv lv rt]. auto.
Qed.

Lemma remove_spec x t : inv t -> sorted (elements t) ->
  (exists t' d l1 l2, remove x t = Some (t', Some d) /\ inv t' /\ key d = key x /\
     elements t = l1 ++ d :: l2 /\ elements t' = l1 ++ l2) \/
  ((forall a, In a (elements t) -> key a <> key x) /\ remove x t = Some (t, None)).
Proof.
  intros Hi Hs. unfold remove.
  assert (Hdec : (exists d, In d (elements t) /\ key d = key x) \/ (forall a, In a (elements t) -> key a <> key x)).
  { generalize (elements t). induction l as [|a l IH]; [right; intros ? []|].
    destruct (Z.eq_dec (key a) (key x)); [left; exists a; simpl; auto|].
    destruct IH as [(d & H1 & H2)|IH]; [left; exists d; simpl; auto|right]. intros b [<-|Hb]; auto. }
  destruct Hdec as [(d & Hin & Hk)|Hout].
  - left. destruct (rs_in x d Hk t {| v_deleted := None; v_last := None; v_succ := None |} Hi Hs Hin eq_refl)
      as (t1 & s & v' & l1 & l2 & H1 & H2 & H3 & H4 & H5). rewrite H1. cbn [obind]. subst v'. cbn [v_succ v_deleted].
    destruct H5 as [(-> & A & B)|(Hn & A & B)].
    + assert (E : same_node d d = true) by (apply same_node_eq; auto). rewrite E.
      exists t1, d, l1, l2. repeat split; auto. apply H2.
    + destruct (same_node s d) eqn:E; [apply same_node_eq in E; congruence|].
      assert (Hs1 : sorted (elements t1)).
      { rewrite B. rewrite A in Hs. apply sorted_app in Hs as (S1 & S2 & S3). apply sorted_cons in S2 as (S2 & S4).
        apply sorted_cons in S2 as (S2 & S5). apply sorted_app. repeat split; auto.
        - apply sorted_cons. split; auto. intros; apply S4. right; auto.
        - intros a b Ha [<-|Hb]; apply S3; simpl; auto. }
      destruct (swap_spec d s t1 l1 l2 Hs1 B) as (t2 & G1 & G2 & G3 & _). rewrite G1. cbn [obind].
      exists t2, d, l1, (s :: l2). repeat split; auto. apply G3, H2.
  - right. split; auto. destruct (rs_out x t {| v_deleted := None; v_last := None; v_succ := None |} Hi Hout) as (v' & H1 & H2 & H3); auto.
    { simpl. discriminate. }
    rewrite H1. cbn [obind]. now rewrite H2.
Qed.
