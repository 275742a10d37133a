(** The second traversal of createDistanceQueue: its rounds, the order in which they leave the edges. *)
From Verif Require Import Base GraphModel TagModel QueueModel BfsProofs DistSets QueueProps.

(** ** sorting a stretch of an array *)
Lemma sort_stretch values (a : arr nat) pre R fuel : R <> [] -> (forall i, i < length (pre ++ R) -> aget a i = nth_error (pre ++ R) i) -> (forall x, In x R -> exists v, aget values x = Some v) -> 2 * length R + 4 <= fuel ->
  exists a' R', bfsSort fuel values a (Z.of_nat (length pre)) (Z.of_nat (length (pre ++ R)) - 1)%Z = Some a' /\ length a' = length a /\ Permutation R R' /\
    (forall i, i < length (pre ++ R') -> aget a' i = nth_error (pre ++ R') i) /\
    forall i j x y v w, i <= j -> nth_error R' i = Some x -> nth_error R' j = Some y -> aget values x = Some v -> aget values y = Some w -> (v <= w)%Z.
Proof.
  intros NE HA HV HF. assert (L0 : 0 < length R) by (destruct R; [congruence|cbn; lia]). rewrite app_length in *. set (p := length pre) in *. set (n := length R) in *.
  destruct (C39_sorts values a p (p + n - 1) fuel) as (a' & E & P & OUT & ORD); [lia| |lia|].
  { intros k K. rewrite HA by lia. unfold p. rewrite nth_error_app2 by (unfold p in K; lia). destruct (nth_error R (k - length pre)) as [x|] eqn:Ex; [|apply nth_error_None in Ex; unfold p, n in *; lia]. destruct (HV x (nth_error_In _ _ Ex)) as (v & Ev). eauto. }
  replace (Z.of_nat (p + n) - 1)%Z with (Z.of_nat (p + n - 1)) by lia. rewrite E. exists a'. assert (LA : length a' = length a) by (symmetry; now apply Permutation_length).
  assert (LP : p + n <= length a). { assert (K : aget a (p + n - 1) <> None). { rewrite HA by lia. unfold p. rewrite nth_error_app2 by (unfold p, n in *; lia). apply nth_error_Some. unfold p, n in *. lia. } destruct (aget a (p + n - 1)) eqn:G; [|congruence]. apply aget_lt in G. lia. }
  assert (INIT : forall k, k < p + n -> exists x, nth_error a k = Some (Some x) /\ nth_error (pre ++ R) k = Some x).
  { intros k Lk. pose proof (HA k Lk) as G. destruct (nth_error (pre ++ R) k) as [x|] eqn:Ex; [|apply nth_error_None in Ex; rewrite app_length in Ex; unfold p, n in *; lia]. exists x. split; auto. unfold aget in G. destruct (nth_error a k) as [[y|]|]; congruence. }
  assert (EA : a = map Some (pre ++ R) ++ skipn (p + n) a).
  { apply nth_error_ext. intros k. destruct (Nat.lt_ge_cases k (p + n)) as [L|G].
    - rewrite nth_error_app1 by (rewrite map_length, app_length; auto). rewrite nth_error_map. destruct (INIT k L) as (x & -> & ->). reflexivity.
    - rewrite nth_error_app2 by (rewrite map_length, app_length; auto). rewrite map_length, app_length. fold p n. rewrite nth_error_skipn'. f_equal. lia. }
  assert (OUT' : forall k, k < p \/ p + n <= k -> nth_error a' k = nth_error a k).
  { intros k K. specialize (OUT k ltac:(lia)). unfold aget in OUT. destruct (nth_error a' k) as [[x|]|] eqn:E1; destruct (nth_error a k) as [[y|]|] eqn:E2; try congruence.
    - apply nth_error_None in E2. assert (k < length a') by (apply nth_error_Some; congruence). lia. - apply nth_error_None in E1. assert (k < length a) by (apply nth_error_Some; congruence). lia. }
  set (seg := firstn n (skipn p a')).
  assert (EA' : a' = map Some pre ++ seg ++ skipn (p + n) a).
  { assert (F : firstn p a' = map Some pre).
    { apply nth_error_ext. intros k. destruct (Nat.lt_ge_cases k p) as [L|G].
      - rewrite nth_error_firstn' by auto. rewrite OUT' by auto. rewrite nth_error_map. destruct (INIT k ltac:(lia)) as (x & -> & Ex). rewrite nth_error_app1 in Ex by auto. rewrite Ex. reflexivity.
      - rewrite (proj2 (nth_error_None (map Some pre) k)) by (rewrite map_length; auto). apply nth_error_None. rewrite firstn_length. lia. }
    rewrite <- (firstn_skipn p a') at 1. rewrite F. f_equal. rewrite <- (firstn_skipn n (skipn p a')) at 1. fold seg. f_equal. rewrite skipn_add. apply nth_error_ext. intros k. rewrite !nth_error_skipn'. apply OUT'. lia. }
  assert (PS : Permutation (map Some R) seg). { rewrite EA, EA', map_app, <- app_assoc in P. apply Permutation_app_inv_l in P. apply Permutation_app_inv_r in P. exact P. }
  apply Permutation_sym, Permutation_map_inv in PS as (R' & ER & PR). exists R'. split; auto. split; auto. split; auto. assert (LR : length R' = n) by (symmetry; now apply Permutation_length).
  assert (GET : forall i, i < length (pre ++ R') -> aget a' i = nth_error (pre ++ R') i).
  { intros i Hi. rewrite app_length in Hi. unfold aget. rewrite EA', ER, app_assoc, <- map_app. rewrite nth_error_app1 by (rewrite map_length, app_length; auto). rewrite nth_error_map. destruct (nth_error (pre ++ R') i); reflexivity. }
  split; auto. intros i j x y v w IJ Hi Hj Hv Hw. assert (j < n) by (rewrite <- LR; apply nth_error_Some; congruence).
  assert (G2 : forall i x, nth_error R' i = Some x -> aget a' (p + i) = Some x). { intros k z Hk. assert (k < length R') by (apply nth_error_Some; congruence). rewrite GET by (rewrite app_length; unfold p; lia). unfold p. rewrite nth_error_app2 by lia. now replace (length pre + k - length pre) with k by lia. }
  apply (ORD (p + i) (p + j) x y v w); auto; lia.
Qed.

(** ** walks *)
Section Walks.
Variables (A : nat -> nat -> Prop).
Hypothesis Asym : forall a b, A a b -> A b a.
Definition Cn (a b : nat) : Prop := exists n, walk A [a] n b.
Lemma cn_refl a : Cn a a. Proof. exists 0. constructor. left; auto. Qed.
Lemma cn_adj a b : A a b -> Cn a b. Proof. intros H. exists 1. econstructor; [constructor; left; eauto|auto]. Qed.
Lemma walk_app a n b m c : walk A [a] n b -> walk A [b] m c -> walk A [a] (n + m) c.
Proof. intros H W. induction W as [e [<-|[]]|m x y W IH H']; [now rewrite Nat.add_0_r|]. rewrite Nat.add_succ_r. econstructor; eauto. Qed.
Lemma cn_trans a b c : Cn a b -> Cn b c -> Cn a c. Proof. intros (n & H) (m & K). exists (n + m). eapply walk_app; eauto. Qed.
Lemma cn_sym a b : Cn a b -> Cn b a.
Proof. intros (n & H). induction H as [e [<-|[]]|n x y H IH XY]; [apply cn_refl|]. apply (cn_trans _ x); auto. apply cn_adj; auto. Qed.
Lemma walk_from S0 n e : walk A S0 n e <-> exists p, In p S0 /\ walk A [p] n e.
Proof.
  split.
  - induction 1 as [e He|n a b H (p & Ip & W) AB]; [exists e; split; auto; constructor; left; auto|]. exists p. split; auto. econstructor; eauto.
  - intros (p & Ip & W). induction W as [e [<-|[]]|n x y W IH XY]; [constructor; auto|econstructor; eauto].
Qed.
Lemma cn_closed (P : nat -> Prop) : (forall a b, A a b -> P a -> P b) -> forall a b, Cn a b -> P a -> P b.
Proof. intros H a b (n & W) Pa. induction W as [e [<-|[]]|n x y W IH XY]; eauto. Qed.
End Walks.

Definition below (push : bool) (x d : Z) : Prop := if push then (x <= d)%Z else (x < d)%Z.
Lemma below_le push x d d' : below push x d -> (d <= d')%Z -> below push x d'.
Proof. unfold below. destruct push; lia. Qed.
Lemma below_any push x d : (x < d)%Z -> below push x d. Proof. unfold below. destruct push; lia. Qed.
Lemma below_imp push x d : below push x d -> (x <= d)%Z. Proof. unfold below. destruct push; lia. Qed.

Section Layers.
Variables (push : bool) (g : graph) (ne nv bfuel : nat) (pins il : nat -> list nat).
Notation adj := (adj nv pins il).
Hypothesis Hsym : forall v a, v < nv -> In v (pins a) <-> In a (il v).
Hypothesis Hil : forall v b, v < nv -> In b (il v) -> b < ne.
Hypothesis Hfuel : 2 * ne + 4 <= bfuel.
(** what is known of the search *)
Definition search_works : Prop := forall visit X J O S0 depth s, contract ne nv pins il visit X J (fun e => In e O) -> (forall a b, adj a b -> ~ In a O -> ~ In b O) ->
  (forall L s vs, X L s -> X L (mkIn (in_seeds s) (in_n s) vs (in_osets s) (in_sets s) (in_par s) (in_size s) (in_lab s))) ->
  (forall e, In e O -> below push (vz s e) depth) -> Seeds ne (O ++ S0) s -> Vis ne O s -> (0 <= depth)%Z -> X (O ++ S0) s -> S0 <> [] ->
  exists R s' d, search push g (length O) depth visit bfuel s = Some (s', d) /\ Result ne nv pins il X J depth O S0 R s s' /\ forall e, In e R -> below push (vz s' e) d.
Hypothesis HS : search_works.

Lemma adj_sym a b : adj a b -> adj b a.
Proof. intros (v & Lv & Ha & Hb). exists v. split; auto. split; [apply Hsym; auto|apply Hsym; auto]. Qed.
Lemma adj_lt a b : adj a b -> a < ne /\ b < ne.
Proof. intros (v & Lv & Ha & Hb). split; [apply (Hil v); auto; apply Hsym; auto|eauto]. Qed.
Notation C := (Cn adj).

(** ** the first traversal *)
Variables (s1 : inputs) (L1 : list nat).
Hypothesis H1S : Seeds ne L1 s1.
Hypothesis H1V : Vis ne L1 s1.
Hypothesis H1C : forall a b, adj a b -> In a L1 -> In b L1.
Hypothesis H1M : forall i j a b, i <= j -> nth_error L1 i = Some a -> nth_error L1 j = Some b -> (vz s1 a <= vz s1 b)%Z.
Notation d1 := (vz s1).
Lemma l1_get i e : nth_error L1 i = Some e -> aget (in_seeds s1) i = Some e /\ e < ne /\ aget (in_vis s1) e = Some (d1 e) /\ In e L1.
Proof.
  intros H. destruct H1S as (A & B & G & ND & LT). assert (I : In e L1) by (eapply nth_error_In; eauto). split; [rewrite G; auto; apply nth_error_Some; congruence|]. split; auto. split; auto.
  apply (core_get ne L1); auto. split; auto.
Qed.

(** ** the order wanted *)
(** p is one of the edges of its component that are farthest from the seeds of the first traversal *)
Definition Peak (p : nat) : Prop := In p L1 /\ forall b, C p b -> (d1 b <= d1 p)%Z.
(** e is n steps from the nearest such edge *)
Definition Far (e n : nat) : Prop := (exists p, Peak p /\ walk adj [p] n e) /\ forall p k, Peak p -> walk adj [p] k e -> n <= k.
Definition Height (e : nat) (z : Z) : Prop := exists p, Peak p /\ C p e /\ z = d1 p.
Definition Size (e n : nat) : Prop := exists l, NoDup l /\ (forall x, In x l <-> C e x) /\ length l = n.
Record Order (L : list nat) : Prop := {
  o_all : forall e, In e L -> (exists n, Far e n) /\ (exists z, Height e z) /\ exists n, Size e n;
  o_same : forall i j a b x y, i <= j -> nth_error L i = Some a -> nth_error L j = Some b -> C a b -> Far a x -> Far b y -> x <= y;
  o_run : forall i j k a b c, i <= j -> j <= k -> nth_error L i = Some a -> nth_error L j = Some b -> nth_error L k = Some c -> C a c -> C a b;
  o_diff : forall i j a b x y n n', i <= j -> nth_error L i = Some a -> nth_error L j = Some b -> ~ C a b -> Height a x -> Height b y -> Size a n -> Size b n' -> (y < x)%Z \/ (y = x /\ n' <= n) }.

Lemma csym a b : C a b -> C b a. Proof. apply cn_sym. apply adj_sym. Qed.
Lemma height_det e z z' : Height e z -> Height e z' -> z = z'.
Proof. intros (p & (_ & P) & Ce & ->) (q & (_ & Q) & Cq & ->). assert (C p q) by (apply (cn_trans _ p e q); auto; apply csym; auto). pose proof (P q H). pose proof (Q p (csym _ _ H)). lia. Qed.
Lemma far_det e n n' : Far e n -> Far e n' -> n = n'.
Proof. intros ((p & P & W) & M) ((q & Q & W') & M'). pose proof (M q n' Q W'). pose proof (M' p n P W). lia. Qed.
Lemma size_det e n n' : Size e n -> Size e n' -> n = n'.
Proof. intros (l & N & I & <-) (l' & N' & I' & <-). apply Permutation_length, NoDup_Permutation; auto. intros x. rewrite I, I'. tauto. Qed.
Lemma height_cn a b z : Height a z -> C a b -> Height b z.
Proof. intros (p & P & H & E) K. exists p. split; auto. split; auto. eapply cn_trans; eauto. Qed.

(** ** the state between the rounds *)
Record LV (L2 : list nat) (s2 : inputs) (k : nat) (depth : Z) : Prop := {
  lv_seeds : Seeds ne L2 s2; lv_vis : Vis ne L2 s2;
  lv_lab : length (in_lab s2) = ne /\ (forall e, e < ne -> exists z, aget (in_lab s2) e = Some z) /\ forall e, ~ In e L2 -> e < ne -> aget (in_lab s2) e = Some (-1)%Z;
  lv_in : incl L2 L1; lv_closed : forall a b, adj a b -> In a L2 -> In b L2;
  lv_k : k <= length L1 /\ forall i e, k <= i -> nth_error L1 i = Some e -> In e L2;
  lv_depth : (0 <= depth)%Z /\ forall e, In e L2 -> below push (vz s2 e) depth;
  lv_order : Order L2;
  lv_rest : forall a b x, In a L2 -> Height a x -> In b L1 -> ~ In b L2 -> (d1 b < x)%Z }.

Lemma skip_ok L2 s2 depth : forall k, LV L2 s2 k depth -> exists k1, skip_visited s1 s2 k = Some k1 /\ LV L2 s2 k1 depth /\ forall i, k1 = S i -> exists e, nth_error L1 i = Some e /\ ~ In e L2.
Proof.
  induction k as [|i IH]; intros H; cbn [skip_visited]; [exists 0; split; auto; split; auto; discriminate|]. destruct (lv_k _ _ _ _ H) as (Lk & Vk). destruct (nth_error L1 i) as [e|] eqn:E; [|apply nth_error_None in E; lia].
  destruct (l1_get i e E) as (G & Le & _ & I1). rewrite G. cbn [obind]. assert (CO : Core ne L2 s2) by (split; [apply (lv_seeds _ _ _ _ H)|apply (lv_vis _ _ _ _ H)]). rewrite (core_get ne L2 s2 e CO Le). cbn [obind]. pose proof (core_in ne L2 s2 e CO) as II. destruct (Z.eqb_spec (vz s2 e) (-1)) as [EV|NV].
  - exists (S i). split; auto. split; auto. intros j Ej. inversion Ej; subst j. exists e. split; auto. intros I. apply II in I. contradiction.
  - apply IH. destruct H as [h1 h2 h3 h4 h5 h6 h7 h8 h9]. split; auto. split; [lia|]. intros j x Lj Hj. destruct (Nat.eq_dec j i) as [->|N]; [assert (x = e) by congruence; subst x; apply II; auto|]. apply (proj2 h6 j); auto. lia.
Qed.
(** the seeds of a round *)
Lemma collect_ok L2 s2 maxd : Core ne L2 s2 -> incl L2 L1 -> forall k sd n Cs, k <= length L1 -> length sd = ne -> n = length (L2 ++ Cs) -> (forall i, i < length (L2 ++ Cs) -> aget sd i = nth_error (L2 ++ Cs) i) -> NoDup (L2 ++ Cs) ->
  (forall e, In e Cs -> exists i, k <= i /\ nth_error L1 i = Some e) ->
  exists k2 sd' Cs', collect s1 s2 maxd k sd n = Some (k2, sd', length (L2 ++ Cs')) /\ k2 <= k /\ length sd' = ne /\ (forall i, i < length (L2 ++ Cs') -> aget sd' i = nth_error (L2 ++ Cs') i) /\ NoDup (L2 ++ Cs') /\
    (forall e, In e Cs' <-> In e Cs \/ (~ In e L2 /\ exists i, k2 <= i < k /\ nth_error L1 i = Some e)) /\
    (forall i e, k2 <= i < k -> nth_error L1 i = Some e -> d1 e = maxd) /\ forall i, k2 = S i -> exists e, nth_error L1 i = Some e /\ d1 e <> maxd.
Proof.
  intros CO IN. induction k as [|i IH]; intros sd n Cs Lk LS -> GS ND HC; cbn [collect].
  - exists 0, sd, Cs. split; auto. split; auto. split; auto. split; auto. split; auto. split; [intros e; split; [auto|intros [H|(_ & i & K & _)]; [auto|lia]]|]. split; [intros i e K; lia|discriminate].
  - destruct (nth_error L1 i) as [e|] eqn:E; [|apply nth_error_None in E; lia]. destruct (l1_get i e E) as (G & Le & GV & I1). rewrite G. cbn [obind]. rewrite GV. cbn [obind]. destruct (Z.eqb_spec (d1 e) maxd) as [ED|ND'].
    + rewrite (core_get ne L2 s2 e CO Le). cbn [obind]. pose proof (core_in ne L2 s2 e CO) as II.
      assert (FIN : forall k2 Cs0 Cs', k2 <= i -> (forall x, In x Cs0 <-> In x Cs \/ (x = e /\ ~ In e L2)) -> (forall x, In x Cs' <-> In x Cs0 \/ (~ In x L2 /\ exists j, k2 <= j < i /\ nth_error L1 j = Some x)) ->
        forall x, In x Cs' <-> In x Cs \/ (~ In x L2 /\ exists j, k2 <= j < S i /\ nth_error L1 j = Some x)).
      { intros k2 Cs0 Cs' K2 P Q x. rewrite Q, P. split.
        - intros [[A|(-> & A)]|(A & j & B & D)]; [auto|right; split; auto; exists i; split; [lia|auto]|]. right. split; auto. exists j. split; [lia|auto].
        - intros [A|(A & j & B & D)]; [auto|]. destruct (Nat.eq_dec j i) as [->|N]; [left; right; assert (x = e) by congruence; subst; auto|]. right. split; auto. exists j. split; [lia|auto]. }
      destruct (Z.eqb_spec (vz s2 e) (-1)) as [EV|NV].
      * assert (NI : ~ In e L2) by (intros I; apply II in I; contradiction).
        assert (NC : ~ In e (L2 ++ Cs)). { rewrite in_app_iff. intros [I|I]; [contradiction|]. destruct (HC e I) as (j & Lj & Ej). destruct H1S as (_ & _ & _ & ND1 & _). assert (j = i); [|lia]. eapply (proj1 (NoDup_nth_error L1) ND1); [apply nth_error_Some; congruence|congruence]. }
        assert (BD : forall x, In x (L2 ++ Cs) -> x < ne). { intros x Hx. destruct H1S as (_ & _ & _ & _ & B). apply B. apply in_app_iff in Hx as [Hx|Hx]; auto. destruct (HC x Hx) as (j & _ & Ej). eapply nth_error_In; eauto. }
        assert (LF : length (L2 ++ Cs) < ne). { assert (K : length (e :: L2 ++ Cs) <= length (seq 0 ne)). { apply NoDup_incl_length; [constructor; auto|]. intros x [<-|Hx]; apply in_seq; [lia|]. apply BD in Hx. lia. } rewrite seq_length in K. cbn in K. lia. }
        rewrite aset_some by lia. cbn [obind]. destruct (IH (upd sd (length (L2 ++ Cs)) (Some e)) (length (L2 ++ Cs) + 1) (Cs ++ [e])) as (k2 & sd' & Cs' & R1 & R2 & R3 & R4 & R5 & R6 & R7 & R8); auto; try lia.
        { now rewrite upd_length. } { rewrite !app_length. cbn [length]. lia. }
        { intros j Lj. rewrite app_assoc, app_length in Lj. cbn [length] in Lj. rewrite app_assoc. destruct (Nat.eq_dec j (length (L2 ++ Cs))) as [->|N]; [rewrite aget_upd_eq by lia; rewrite nth_error_app2, Nat.sub_diag by lia; reflexivity|]. rewrite aget_upd_neq by auto. rewrite (nth_error_app1 _ [e]) by lia. apply GS. lia. }
        { rewrite app_assoc. apply (Permutation_NoDup (Permutation_cons_append (L2 ++ Cs) e)). constructor; auto. }
        { intros x Hx. apply in_app_iff in Hx as [Hx|[<-|[]]]; [destruct (HC x Hx) as (j & A & B); exists j; split; [lia|auto]|exists i; auto]. }
        exists k2, sd', Cs'. split; auto. split; [lia|]. split; auto. split; auto. split; auto. split; [|split; auto].
        -- apply (FIN k2 (Cs ++ [e]) Cs'); auto. intros x. rewrite in_app_iff. cbn [In]. intuition (subst; auto).
        -- intros j x Lj Hj. destruct (Nat.eq_dec j i) as [->|N]; [congruence|]. apply (R7 j); auto. lia.
      * assert (I2 : In e L2) by (apply II; auto). destruct (IH sd (length (L2 ++ Cs)) Cs) as (k2 & sd' & Cs' & R1 & R2 & R3 & R4 & R5 & R6 & R7 & R8); auto; try lia.
        { intros x Hx. destruct (HC x Hx) as (j & A & B). exists j. split; [lia|auto]. }
        exists k2, sd', Cs'. split; auto. split; [lia|]. split; auto. split; auto. split; auto. split; [|split; auto].
        -- apply (FIN k2 Cs Cs'); auto. intros x. split; auto. intros [K|(_ & K)]; [auto|contradiction].
        -- intros j x Lj Hj. destruct (Nat.eq_dec j i) as [->|N]; [congruence|]. apply (R7 j); auto. lia.
    + exists (S i), sd, Cs. split; auto. split; auto. split; auto. split; auto. split; auto. split; [intros x; split; [auto|intros [H|(_ & j & K & _)]; [auto|lia]]|]. split; [intros j x K; lia|]. intros j Ej. inversion Ej; subst j. eauto.
Qed.
Lemma label_ok sd O S0 lab : (forall i, i < length (O ++ S0) -> aget sd i = nth_error (O ++ S0) i) -> NoDup S0 -> (forall e, In e S0 -> e < ne) -> length lab = ne ->
  exists lab', label_seeds sd (length O) (length (O ++ S0)) lab = Some lab' /\ length lab' = ne /\ (forall i e, nth_error S0 i = Some e -> aget lab' e = Some (Z.of_nat i)) /\ forall e, ~ In e S0 -> aget lab' e = aget lab e.
Proof.
  intros G ND B LL. unfold label_seeds. replace (length (O ++ S0) - length O) with (length S0) by (rewrite app_length; lia).
  assert (P : forall r D lb, S0 = D ++ r -> length lb = ne -> exists lb', foldM (fun lb i => e <- aget sd i ;; aset lb e (Z.of_nat (i - length O))) (seq (length O + length D) (length r)) lb = Some lb' /\ length lb' = ne /\
    (forall i e, nth_error r i = Some e -> aget lb' e = Some (Z.of_nat (length D + i))) /\ forall e, ~ In e r -> aget lb' e = aget lb e).
  { induction r as [|x r IH]; intros D lb ED LB; cbn [length seq foldM]; [exists lb; repeat split; auto; intros [|i] e H; discriminate H|].
    assert (GX : aget sd (length O + length D) = Some x). { rewrite G by (rewrite ED, !app_length; cbn; lia). rewrite nth_error_app2 by lia. replace (length O + length D - length O) with (length D) by lia. rewrite ED, nth_error_app2, Nat.sub_diag by lia. reflexivity. }
    rewrite GX. cbn [obind]. assert (LX : x < ne) by (apply B; rewrite ED; apply in_app_iff; right; left; auto). rewrite aset_some by lia. cbn [obind].
    assert (NX : ~ In x r) by (rewrite ED in ND; apply NoDup_app_iff in ND as (_ & ND & _); now inversion ND).
    destruct (IH (D ++ [x]) (upd lb x (Some (Z.of_nat (length O + length D - length O))))) as (lb' & E & L' & A1 & A2); [rewrite <- app_assoc; auto|now rewrite upd_length|].
    rewrite app_length in E, A1. cbn [length] in E, A1. replace (S (length O + length D)) with (length O + (length D + 1)) by lia. exists lb'. split; auto. split; auto. split.
    - intros [|i] e H; cbn [nth_error] in H; [inversion H; subst e; rewrite A2, aget_upd_eq by (auto; lia); do 2 f_equal; lia|]. rewrite (A1 i e H). do 2 f_equal. lia.
    - intros e He. rewrite A2 by (intros I; apply He; right; auto). apply aget_upd_neq. intros ->. apply He. left; auto. }
  destruct (P S0 [] lab eq_refl LL) as (lb' & E & L' & A1 & A2). cbn [length] in E. rewrite Nat.add_0_r in E. exists lb'. auto.
Qed.

(** ** one round *)
Section Round.
Variables (O S0 R : list nat) (maxd depth : Z) (s3 s4 : inputs).
Hypothesis RES : Result ne nv pins il (XS ne O S0 C) (JS S0) depth O S0 R s3 s4.
Hypothesis OC : forall a b, adj a b -> In a O -> In b O.
Hypothesis OI : incl O L1.
Hypothesis SI : forall e, In e S0 <-> In e L1 /\ ~ In e O /\ d1 e = maxd.
Hypothesis MAX : forall e, In e L1 -> ~ In e O -> (d1 e <= maxd)%Z.
Hypothesis SNE : S0 <> [].
Hypothesis HSm : length S0 + 1 <= bfuel.

Lemma r_nd : NoDup (O ++ R). Proof. apply (r_core _ _ _ _ _ _ _ _ _ _ _ _ RES). Qed.
Lemma r_lt e : In e R -> e < ne. Proof. intros H. apply (r_core _ _ _ _ _ _ _ _ _ _ _ _ RES). apply in_app_iff. auto. Qed.
Lemma r_no e : In e R -> ~ In e O.
Proof. intros H I. pose proof r_nd as N. apply NoDup_app_iff in N as (_ & _ & N). eapply N; eauto. Qed.
Lemma oc_cn a b : C a b -> In a O -> In b O. Proof. apply (cn_closed adj (fun e => In e O)). auto. Qed.
Lemma l1_cn a b : C a b -> In a L1 -> In b L1. Proof. apply (cn_closed adj (fun e => In e L1)). auto. Qed.
Lemma r_iff e : In e R <-> exists p, In p S0 /\ C p e.
Proof.
  split.
  - intros H. destruct (r_dist _ _ _ _ _ _ _ _ _ _ _ _ RES e H) as (d & _ & W & _). apply walk_from in W as (p & Ip & W). exists p. split; auto. exists d. auto.
  - intros (p & Ip & n & W). apply (r_all _ _ _ _ _ _ _ _ _ _ _ _ RES n). apply walk_from. exists p. auto.
Qed.
Lemma r_in e : In e R -> In e L1. Proof. intros H. apply r_iff in H as (p & Ip & H). eapply l1_cn; eauto. apply SI; auto. Qed.
Lemma r_cn a b : C a b -> In a R -> In b R.
Proof. intros H I. apply r_iff in I as (p & Ip & K). apply r_iff. exists p. split; auto. eapply cn_trans; eauto. Qed.
Lemma peak_seed p e : In e R -> C p e -> (Peak p <-> In p S0).
Proof.
  intros I Cp. assert (IP : In p R) by (eapply r_cn; [apply csym; eauto|auto]). split.
  - intros (P1 & P2). apply r_iff in I as (q & Iq & Cq). assert (C p q) by (eapply cn_trans; [eauto|apply csym; auto]). apply SI. split; auto. split; [apply r_no; auto|]. pose proof (P2 q H). apply SI in Iq as (_ & _ & Eq). pose proof (MAX p P1 (r_no p IP)). lia.
  - intros Ip. split; [apply SI; auto|]. intros b Hb. assert (Ib : In b R) by (eapply r_cn; eauto). pose proof (MAX b (r_in b Ib) (r_no b Ib)). apply SI in Ip as (_ & _ & E). lia.
Qed.
Lemma r_far e : In e R -> exists d, vz s4 e = (depth + Z.of_nat d)%Z /\ Far e d.
Proof.
  intros I. destruct (r_dist _ _ _ _ _ _ _ _ _ _ _ _ RES e I) as (d & E & W & M). exists d. split; auto. split.
  - apply walk_from in W as (p & Ip & W). exists p. split; auto. apply (peak_seed p e); auto. exists d. auto.
  - intros p k P Wk. apply M. apply walk_from. exists p. split; auto. apply (peak_seed p e); auto. exists k. auto.
Qed.
Lemma r_height e : In e R -> Height e maxd.
Proof. intros I. pose proof I as I'. apply r_iff in I as (p & Ip & Cp). exists p. split; [apply (peak_seed p e); auto|]. split; auto. symmetry. apply SI. auto. Qed.
(** the edges of the component up to a distance *)
Lemma r_layers d : forall e, In e R -> vz s4 e = (depth + Z.of_nat d)%Z -> exists l, length l = S d /\ NoDup l /\ forall x, In x l -> C e x /\ (vz s4 x <= vz s4 e)%Z.
Proof.
  induction d as [|d IH]; intros e I E.
  - exists [e]. split; auto. split; [repeat constructor; auto|]. intros x [<-|[]]. split; [apply cn_refl|lia].
  - destruct (r_dist _ _ _ _ _ _ _ _ _ _ _ _ RES e I) as (d' & E' & W & M). assert (d' = S d) by lia. subst d'. inversion W as [|n a b Wa AB]; subst.
    assert (Ia : In a R) by (apply (r_all _ _ _ _ _ _ _ _ _ _ _ _ RES d a Wa)). destruct (r_dist _ _ _ _ _ _ _ _ _ _ _ _ RES a Ia) as (da & Ea & Wa' & Ma). assert (da <= d) by auto. assert (S d <= S da) by (apply M; econstructor; eauto). assert (da = d) by lia. subst da.
    destruct (IH a Ia Ea) as (l & Ll & Nl & Hl). exists (e :: l). split; [cbn; auto|]. split; [constructor; auto; intros K; apply Hl in K as (_ & K); lia|]. intros x [<-|Hx]; [split; [apply cn_refl|lia]|]. destruct (Hl x Hx) as (P & Q). split; [|lia].
    apply (cn_trans _ e a x); auto. apply csym, cn_adj. auto.
Qed.

Variable rt : nat -> nat.
Hypothesis K : SOK ne O S0 C rt R s4.
Lemma same_cls a b : In a R -> In b R -> (cls rt s4 a = cls rt s4 b <-> C a b).
Proof.
  intros Ia Ib. split; [apply (k_sound _ _ _ _ _ _ _ K); auto|].
  assert (ST : forall x y, In x R -> In y R -> adj x y -> cls rt s4 x = cls rt s4 y).
  { intros x y Ix Iy (v & Lv & Hx & Hy). destruct (r_J _ _ _ _ _ _ _ _ _ _ _ _ RES x v Ix Lv Hx) as (c & Ic & Hc & Jc).
    assert (P : forall b, In b R -> In b (il v) -> cls rt s4 b = cls rt s4 c). { intros z Iz Hz. destruct (Jc z Hz) as [->|(r & A & B)]; auto. rewrite (root_of_ok ne O S0 C bfuel HSm rt R s4 _ K) in A by auto; rewrite (root_of_ok ne O S0 C bfuel HSm rt R s4 _ K) in B by auto. congruence. }
    rewrite (P x), (P y); auto. apply Hsym; auto. }
  intros (n & W). revert Ib. induction W as [e [<-|[]]|n x y W IH XY]; auto. intros Iy. assert (Ix : In x R) by (eapply r_cn; [apply csym, cn_adj; eauto|auto]). rewrite IH by auto. apply ST; auto.
Qed.
Lemma r_size e : In e R -> Size e (length (members rt s4 R (cls rt s4 e))).
Proof.
  intros I. exists (members rt s4 R (cls rt s4 e)). split; [|split; auto].
  - unfold members. apply NoDup_filter. pose proof r_nd as N. apply NoDup_app_iff in N. tauto.
  - intros x. unfold members. rewrite filter_In, Nat.eqb_eq. split; [intros (A & B); apply same_cls; auto|]. intros H. assert (Ix : In x R) by (eapply r_cn; eauto). split; auto. symmetry. apply same_cls; auto.
Qed.
Lemma r_range e : In e R -> (depth <= vz s4 e)%Z /\ (vz s4 e < depth + size_of rt s4 R (cls rt s4 e))%Z.
Proof.
  intros I. destruct (r_dist _ _ _ _ _ _ _ _ _ _ _ _ RES e I) as (d & E & _ & _). split; [lia|]. destruct (r_layers d e I E) as (l & Ll & Nl & Hl).
  destruct (r_size e I) as (l' & Nl' & Hl' & EL). assert (length l <= length l') by (apply NoDup_incl_length; auto; intros x Hx; apply Hl', Hl; auto). unfold size_of. lia.
Qed.
Lemma cls_root e : In e R -> In (cls rt s4 e) (roots S0 rt).
Proof. intros I. destruct (k_get _ _ _ _ _ _ _ K e I) as (k & Lk & Ek). rewrite (cls_of _ _ _ _ Ek). destruct (k_root _ _ _ _ _ _ _ K k Lk) as (A & B & _). apply (in_roots S0 bfuel HSm). auto. Qed.

(** ** the keys by which a round is sorted *)
Record keyed (key : nat -> Z) : Prop := {
  ky_same : forall a b, In a R -> In b R -> C a b -> (key a - vz s4 a = key b - vz s4 b)%Z;
  ky_diff : forall a b, In a R -> In b R -> ~ C a b -> ((forall x y, C a x -> C b y -> (key x < key y)%Z) /\ size_of rt s4 R (cls rt s4 b) <= size_of rt s4 R (cls rt s4 a))%Z \/
     ((forall x y, C a x -> C b y -> (key y < key x)%Z) /\ size_of rt s4 R (cls rt s4 a) <= size_of rt s4 R (cls rt s4 b))%Z }.
Lemma round_order key R' L : keyed key -> Permutation R R' -> (forall i j x y, i <= j -> nth_error R' i = Some x -> nth_error R' j = Some y -> (key x <= key y)%Z) ->
  Order L -> L = O -> (forall a b x, In a O -> Height a x -> In b L1 -> ~ In b O -> (d1 b < x)%Z) -> Order (O ++ R').
Proof.
  intros [ks kd] P SO [oa os or od] -> REST. assert (IR : forall e, In e R' <-> In e R) by (intros e; split; apply Permutation_in; [apply Permutation_sym|]; auto).
  assert (POS : forall i e, nth_error (O ++ R') i = Some e -> (i < length O /\ nth_error O i = Some e /\ In e O) \/ (length O <= i /\ nth_error R' (i - length O) = Some e /\ In e R)).
  { intros i e H. destruct (Nat.lt_ge_cases i (length O)) as [Li|Gi]; [left; rewrite nth_error_app1 in H by auto; split; auto; split; auto; eapply nth_error_In; eauto|right]. rewrite nth_error_app2 in H by auto. split; auto. split; auto. apply IR. eapply nth_error_In; eauto. }
  split.
  - intros e He. apply in_app_iff in He as [He|He]; [apply oa; auto|]. apply IR in He. split; [destruct (r_far e He) as (d & _ & F); eauto|]. split; [eexists; apply r_height; auto|eexists; apply r_size; auto].
  - intros i j a b x y IJ Ha Hb Cab Fa Fb. apply POS in Ha as [(Li & Ha & Ia)|(Li & Ha & Ia)]; apply POS in Hb as [(Lj & Hb & Ib)|(Lj & Hb & Ib)]; try lia.
    + apply (os i j a b); auto. + exfalso. apply (r_no b Ib). eapply oc_cn; eauto.
    + pose proof (SO (i - length O) (j - length O) a b ltac:(lia) Ha Hb). pose proof (ks a b Ia Ib Cab). destruct (r_far a Ia) as (da & Ea & FA). destruct (r_far b Ib) as (db & Eb & FB). assert (x = da) by (eapply far_det; eauto). assert (y = db) by (eapply far_det; eauto). lia.
  - intros i j k a b c IJ JK Ha Hb Hc Cac. apply POS in Ha as [(Li & Ha & Ia)|(Li & Ha & Ia)]; apply POS in Hc as [(Lk & Hc & Ic)|(Lk & Hc & Ic)]; try lia.
    + apply POS in Hb as [(Lj & Hb & Ib)|(Lj & Hb & Ib)]; [apply (or i j k a b c); auto|lia].
    + exfalso. apply (r_no c Ic). eapply oc_cn; eauto.
    + apply POS in Hb as [(Lj & Hb & Ib)|(Lj & Hb & Ib)]; [lia|]. destruct (Nat.eq_dec (cls rt s4 a) (cls rt s4 b)) as [E|N]; [apply same_cls; auto|]. exfalso. assert (NC : ~ C a b) by (intros H; apply N; apply same_cls; auto).
      pose proof (SO (i - length O) (j - length O) a b ltac:(lia) Ha Hb). pose proof (SO (j - length O) (k - length O) b c ltac:(lia) Hb Hc).
      destruct (kd a b Ia Ib NC) as [(Q & _)|(Q & _)]; [pose proof (Q c b Cac (cn_refl _ b))|pose proof (Q a b (cn_refl _ a) (cn_refl _ b))]; lia.
  - intros i j a b x y n n' IJ Ha Hb NC Ha' Hb' Sa Sb. apply POS in Ha as [(Li & Ha & Ia)|(Li & Ha & Ia)]; apply POS in Hb as [(Lj & Hb & Ib)|(Lj & Hb & Ib)]; try lia.
    + apply (od i j a b); auto.
    + assert (y = maxd) by (eapply height_det; eauto; apply r_height; auto). subst y. left.
      apply r_iff in Ib as (p & Ip & Cp). apply SI in Ip as (I1 & IO & ED). pose proof (REST a p x Ia Ha' I1 IO). lia.
    + right. assert (x = maxd) by (eapply height_det; eauto; apply r_height; auto). assert (y = maxd) by (eapply height_det; eauto; apply r_height; auto). subst x y. split; auto.
      assert (EA : n = length (members rt s4 R (cls rt s4 a))) by (eapply size_det; eauto; apply r_size; auto). assert (EB : n' = length (members rt s4 R (cls rt s4 b))) by (eapply size_det; eauto; apply r_size; auto). subst n n'.
      pose proof (SO (i - length O) (j - length O) a b ltac:(lia) Ha Hb). destruct (kd a b Ia Ib NC) as [(Q & S')|(Q & S')]; [unfold size_of in S'; lia|]. pose proof (Q a b (cn_refl _ a) (cn_refl _ b)). lia.
Qed.

(** separating gives such keys *)
Variable d4 : Z.
Hypothesis D4 : forall e, In e R -> below push (vz s4 e) d4.
Hypothesis D0 : (0 <= depth)%Z.
Hypothesis DO : forall e, In e O -> below push (vz s4 e) depth.
Lemma d4_depth : (depth <= d4)%Z.
Proof.
  destruct (r_pre _ _ _ _ _ _ _ _ _ _ _ _ RES) as (N & ER). assert (HP : exists p, In p S0) by (clear - SNE; destruct S0 as [|p l]; [congruence|exists p; left; auto]). destruct HP as (p & Hp). assert (IP : In p R) by (rewrite ER; apply in_app_iff; auto). pose proof (below_imp _ _ _ (D4 p IP)). pose proof (proj1 (r_range p IP)). lia.
Qed.
Lemma separate_round : exists s5 d5, (if 1 <? in_sets s4 then '(s, a) <- separate_sets bfuel (length O) s4 ;; Some (s, (d4 + a)%Z) else Some (s4, d4)) = Some (s5, d5) /\
  in_seeds s5 = in_seeds s4 /\ in_n s5 = in_n s4 /\ in_lab s5 = in_lab s4 /\ Vis ne (O ++ R) s5 /\ keyed (vz s5) /\ (0 <= d5)%Z /\ forall e, In e (O ++ R) -> below push (vz s5 e) d5.
Proof.
  pose proof (r_core _ _ _ _ _ _ _ _ _ _ _ _ RES) as CO. pose proof d4_depth as DD. assert (M0 : 0 < length S0) by (destruct S0; [congruence|cbn; lia]). destruct (Nat.ltb_spec 1 (in_sets s4)) as [MANY|ONE].
  - destruct (separate_ok ne O S0 C bfuel HSm rt R s4 K CO M0) as (D & off & add & t & E & H & ALL). rewrite E. cbn [obind]. exists t, (d4 + add)%Z. split; auto. destruct (sp_same _ _ _ _ _ _ _ _ _ H) as (T1 & T2 & _ & _ & _ & T6). split; auto. split; auto. split; auto.
    assert (VR : forall e, In e R -> vz t e = (vz s4 e + off (cls rt s4 e))%Z /\ (0 <= off (cls rt s4 e))%Z /\ (off (cls rt s4 e) + size_of rt s4 R (cls rt s4 e) <= add)%Z).
    { intros e I. pose proof (ALL _ (cls_root e I)) as ID. rewrite (sp_vz _ _ _ _ _ _ _ _ _ H e (r_lt e I)). destruct (in_dec Nat.eq_dec e R); [|contradiction]. destruct (in_dec Nat.eq_dec (cls rt s4 e) D); [|contradiction]. split; auto. apply (sp_off _ _ _ _ _ _ _ _ _ H); auto. }
    assert (VO : forall e, ~ In e R -> vz t e = vz s4 e).
    { intros e N. destruct (Nat.lt_ge_cases e ne) as [L|G].
      - rewrite (sp_vz _ _ _ _ _ _ _ _ _ H e L). destruct (in_dec Nat.eq_dec e R); [contradiction|lia].
      - unfold vz. assert (Q : forall a : arr Z, length a = ne -> aget a e = None). { intros a La. destruct (aget a e) eqn:Ea; auto. apply aget_lt in Ea. lia. } rewrite (Q (in_vis t)), (Q (in_vis s4)); auto; [apply CO|apply (sp_len _ _ _ _ _ _ _ _ _ H)]. }
    assert (PA : (0 <= add)%Z) by apply (sp_add _ _ _ _ _ _ _ _ _ H).
    split; [|split; [|split]].
    + split; [apply (sp_len _ _ _ _ _ _ _ _ _ H)|]. split; [apply (sp_def _ _ _ _ _ _ _ _ _ H)|]. destruct CO as (_ & _ & _ & V3 & V4). split.
      * intros e He. destruct (in_dec Nat.eq_dec e R) as [I|I]; [destruct (VR e I) as (-> & Q & _); pose proof (V3 e He); lia|]. rewrite VO; auto.
      * intros e He. rewrite VO; auto. intros I. apply He, in_app_iff. auto.
    + split.
      * intros a b Ia Ib Cab. destruct (VR a Ia) as (-> & _). destruct (VR b Ib) as (-> & _). apply same_cls in Cab; auto. rewrite Cab. lia.
      * intros a b Ia Ib NC. assert (NE : cls rt s4 a <> cls rt s4 b) by (intros Q; apply NC, same_cls; auto).
        assert (X : forall a x, In a R -> C a x -> (depth + off (cls rt s4 a) <= vz t x)%Z /\ (vz t x < depth + off (cls rt s4 a) + size_of rt s4 R (cls rt s4 a))%Z).
        { intros a' x Ia' Cx. assert (Ix : In x R) by (eapply r_cn; eauto). assert (EC : cls rt s4 a' = cls rt s4 x) by (apply same_cls; auto). rewrite EC. destruct (VR x Ix) as (-> & _). pose proof (r_range x Ix). lia. }
        destruct (sp_ord _ _ _ _ _ _ _ _ _ H _ _ (ALL _ (cls_root a Ia)) (ALL _ (cls_root b Ib)) NE) as [(P & Q)|(P & Q)]; [left|right]; (split; [|exact Q]); intros x y Cx Cy; pose proof (X a x Ia Cx); pose proof (X b y Ib Cy); lia.
    + lia.
    + intros e He. destruct (in_dec Nat.eq_dec e R) as [I|I].
      * apply below_any. destruct (VR e I) as (-> & _ & Q). pose proof (r_range e I). lia.
      * rewrite VO by auto. apply in_app_iff in He as [He|He]; [|contradiction]. eapply below_le; [apply DO; auto|lia].
  - exists s4, d4. split; auto. split; auto. split; auto. split; auto. split; [apply CO|]. split; [|split; [lia|]].
    + assert (ALLC : forall a b, In a R -> In b R -> C a b).
      { intros a b Ia Ib. apply same_cls; auto. pose proof (cls_root a Ia) as Ra. pose proof (cls_root b Ib) as Rb. rewrite (k_sets _ _ _ _ _ _ _ K) in ONE. destruct (roots S0 rt) as [|x [|y l]]; [destruct Ra| |cbn in ONE; lia]. destruct Ra as [<-|[]]. destruct Rb as [<-|[]]. auto. }
      split; [intros; lia|]. intros a b Ia Ib NC. exfalso. apply NC, ALLC; auto.
    + intros e He. apply in_app_iff in He as [He|He]; auto. eapply below_le; eauto.
Qed.
End Round.

Lemma layers_ok : forall fuel L2 s2 k depth, LV L2 s2 k depth -> length L1 <= length L2 + fuel ->
  exists s' L', layers push g bfuel fuel s1 s2 k depth = Some s' /\ Seeds ne L' s' /\ (forall e, In e L' <-> In e L1) /\ Order L'.
Proof.
  induction fuel as [|f IH]; intros L2 s2 k depth H LF.
  - destruct (lv_seeds _ _ _ _ H) as (A & B & G & ND & LT). destruct H1S as (A1 & B1 & G1 & ND1 & LT1). cbn [layers]. rewrite B, B1. destruct (Nat.ltb_spec (length L2) (length L1)); [lia|]. exists s2, L2. split; auto. split; [apply (lv_seeds _ _ _ _ H)|]. split; [|apply (lv_order _ _ _ _ H)].
    intros e. split; [apply (lv_in _ _ _ _ H)|]. apply (NoDup_length_incl ND); auto. apply (lv_in _ _ _ _ H).
  - cbn [layers]. destruct (lv_seeds _ _ _ _ H) as (A & B & G & ND & LT). destruct H1S as (A1 & B1 & G1 & ND1 & LT1). rewrite B, B1. destruct (Nat.ltb_spec (length L2) (length L1)) as [LL|LL].
    2:{ exists s2, L2. split; auto. split; [apply (lv_seeds _ _ _ _ H)|]. split; [|apply (lv_order _ _ _ _ H)]. intros e. split; [apply (lv_in _ _ _ _ H)|]. apply (NoDup_length_incl ND); auto. apply (lv_in _ _ _ _ H). }
    destruct (skip_ok L2 s2 depth k H) as (k1 & E1 & HL & NX). rewrite E1. cbn [obind]. clear E1 H. destruct k1 as [|i].
    { exists s2, L2. split; auto. split; [apply (lv_seeds _ _ _ _ HL)|]. split; [|apply (lv_order _ _ _ _ HL)]. intros e. split; [apply (lv_in _ _ _ _ HL)|]. intros I. apply In_nth_error in I as (j & Hj). apply (proj2 (lv_k _ _ _ _ HL) j); auto. lia. }
    destruct (NX i eq_refl) as (e & Ei & Ne). clear NX. destruct (l1_get i e Ei) as (Ge & Le & GV & I1). rewrite Ge. cbn [obind]. rewrite GV. cbn [obind].
    assert (CO : Core ne L2 s2) by (split; [apply (lv_seeds _ _ _ _ HL)|apply (lv_vis _ _ _ _ HL)]). destruct (lv_k _ _ _ _ HL) as (LK & VK). set (maxd := d1 e) in *.
    destruct (collect_ok L2 s2 maxd CO (lv_in _ _ _ _ HL) (S i) (in_seeds s2) (length L2) []) as (k2 & sd & S0 & E2 & K2 & LS & GS & NDS & IC & DC & STOP); auto; try (rewrite app_nil_r; auto; fail); try (intros x []; fail).
    rewrite E2. cbn [obind]. replace (length (L2 ++ S0) - length L2) with (length S0) by (rewrite app_length; lia).
    assert (K2i : k2 <= i). { destruct (Nat.eq_dec k2 (S i)) as [->|]; [|lia]. destruct (STOP i eq_refl) as (x & Hx & Dx). exfalso. apply Dx. unfold maxd. congruence. }
    assert (SI : forall x, In x S0 <-> In x L1 /\ ~ In x L2 /\ d1 x = maxd).
    { intros x. rewrite IC. split.
      - intros [[]|(N & j & Lj & Ej)]. split; [eapply nth_error_In; eauto|]. split; auto. apply (DC j); auto.
      - intros (Ix & N & D). right. split; auto. apply In_nth_error in Ix as (j & Ej). exists j. split; auto. split.
        + destruct (Nat.lt_ge_cases j k2) as [L|]; auto. exfalso. destruct k2 as [|k2]; [lia|]. destruct (STOP k2 eq_refl) as (y & Hy & Dy). pose proof (H1M j k2 x y ltac:(lia) Ej Hy). pose proof (H1M k2 i y e ltac:(lia) Hy Ei). fold maxd in H0. lia.
        + destruct (Nat.lt_ge_cases j (S i)) as [L|Gj]; auto. exfalso. apply N. apply (VK j); auto. }
    assert (MAX : forall x, In x L1 -> ~ In x L2 -> (d1 x <= maxd)%Z).
    { intros x Ix N. apply In_nth_error in Ix as (j & Ej). apply (H1M j i x e); auto. destruct (Nat.lt_ge_cases j (S i)) as [L|Gj]; [lia|]. exfalso. apply N. apply (VK j); auto. }
    assert (IE : In e S0) by (apply SI; auto). assert (SNE : S0 <> []) by (intros Q; rewrite Q in IE; destruct IE). assert (MS : length S0 <> 0) by (destruct S0; [congruence|cbn; lia]).
    destruct (Nat.eqb_spec (length S0) 0); [contradiction|].
    assert (BS : forall x, In x (L2 ++ S0) -> x < ne). { intros x Hx. apply LT1. apply in_app_iff in Hx as [Hx|Hx]; [apply (lv_in _ _ _ _ HL); auto|apply SI; auto]. }
    assert (LNE : length (L2 ++ S0) <= ne). { rewrite <- (seq_length ne 0). apply NoDup_incl_length; auto. intros x Hx. apply in_seq. apply BS in Hx. lia. }
    pose proof (proj1 (NoDup_app_iff _ _ _) NDS) as (_ & NS & DJ). destruct (lv_lab _ _ _ _ HL) as (LB & LBG & LBN).
    destruct (label_ok sd L2 S0 (in_lab s2) GS NS) as (lab & E3 & LB3 & LBI & LBO); [intros x Hx; apply BS, in_app_iff; auto|auto|]. rewrite E3. cbn [obind].
    set (s3 := mkIn sd (length (L2 ++ S0)) (in_vis s2) (length S0) (length S0) (ainit (seq 0 (length S0))) (ainit (repeat 1%Z (length S0))) lab).
    assert (HSm : length S0 + 1 <= bfuel) by (rewrite app_length in LNE; lia).
    assert (CT : contract ne nv pins il (distance_visit bfuel) (XS ne L2 S0 C) (JS S0) (fun e => In e L2)).
    { apply distance_contract; auto; [apply cn_refl|apply csym|apply cn_trans|apply cn_adj]. }
    assert (K3 : SOK ne L2 S0 C (fun k => k) S0 s3).
    { apply (sets_start ne L2 S0 C bfuel HSm (cn_refl _)); auto.
      - intros x Hx. apply SI; auto.
      - intros x Lx. cbn [in_lab s3]. destruct (in_dec Nat.eq_dec x S0) as [I|I]; [apply In_nth_error in I as (j & Hj); rewrite (LBI j x Hj); eauto|]. rewrite LBO by auto. auto.
      - intros x Nx Lx. rewrite in_app_iff in Nx. cbn [in_lab s3]. rewrite LBO by tauto. apply LBN; tauto. }
    destruct (HS (distance_visit bfuel) (XS ne L2 S0 C) (JS S0) L2 S0 depth s3 CT) as (R & s4 & d4 & E4 & RES & D4).
    { intros a b AB Na Nb. apply Na. eapply (lv_closed _ _ _ _ HL); [apply adj_sym; eauto|auto]. }
    { intros L s vs (R & rt & EL & [q1 q2 q3 q4 q5 q6 q7 q8 q9 q10]). exists R, rt. split; auto. split; auto. }
    { intros x Hx. apply (proj2 (lv_depth _ _ _ _ HL) x Hx). }
    { split; auto. }
    { apply (lv_vis _ _ _ _ HL). } { apply (lv_depth _ _ _ _ HL). } { exists S0, (fun k => k). auto. } { auto. }
    rewrite E4. cbn [obind]. destruct (r_X _ _ _ _ _ _ _ _ _ _ _ _ RES) as (R2 & rt & ER & K4). apply app_inv_head in ER. subst R2.
    assert (DO : forall x, In x L2 -> below push (vz s4 x) depth).
    { intros x Hx. rewrite (r_old _ _ _ _ _ _ _ _ _ _ _ _ RES x). - apply (proj2 (lv_depth _ _ _ _ HL) x Hx). - intros I. eapply (r_no L2 S0 R depth s3 s4 RES); eauto. }
    destruct (separate_round L2 S0 R maxd depth s3 s4 RES) with (rt := rt) (d4 := d4) as (s5 & d5 & E5 & T1 & T2 & T6 & V5 & KY & P5 & B5); auto; try (apply (lv_closed _ _ _ _ HL)); try (apply (lv_depth _ _ _ _ HL)).
    rewrite E5. cbn [obind]. destruct (r_core _ _ _ _ _ _ _ _ _ _ _ _ RES) as ((Q1 & Q2 & Q3 & Q4 & Q5) & _).
    assert (IRS : incl S0 R) by (intros x Hx; destruct (r_pre _ _ _ _ _ _ _ _ _ _ _ _ RES) as (N & ->); apply in_app_iff; auto). assert (RNE : R <> []) by (intros Q; apply IRS in IE; rewrite Q in IE; destruct IE).
    assert (LR : length (L2 ++ R) <= ne) by (rewrite <- (seq_length ne 0); apply NoDup_incl_length; auto; intros x Hx; apply in_seq; apply Q5 in Hx; lia).
    destruct (sort_stretch (in_vis s5) (in_seeds s5) L2 R bfuel RNE) as (sd' & R' & E6 & LS' & PR & GS' & SO).
    { rewrite T1. exact Q3. } { intros x Hx. apply V5. apply Q5, in_app_iff. auto. } { rewrite app_length in LR. lia. }
    rewrite T2, Q2. rewrite E6. cbn [obind].
    assert (IR : forall x, In x R' <-> In x R) by (intros x; split; apply Permutation_in; [apply Permutation_sym|]; auto). assert (PP : Permutation (L2 ++ R) (L2 ++ R')) by (apply Permutation_app_head; auto).
    assert (IPP : forall x, In x (L2 ++ R') <-> In x (L2 ++ R)) by (intros x; rewrite !in_app_iff, IR; tauto).
    assert (RI1 : forall x, In x R -> In x L1) by (apply (r_in L2 S0 R maxd depth s3 s4 RES SI)).
    match goal with |- exists s' L', layers _ _ _ _ _ ?s _ _ = _ /\ _ => set (s6 := s) end.
    destruct (IH (L2 ++ R') s6 k2 d5) as (s' & L' & EF & HF); [|rewrite app_length; rewrite <- (Permutation_length PR); assert (1 <= length R) by (destruct R; [congruence|cbn; lia]); lia|exists s', L'; auto].
    split.
    + split; [cbn [in_seeds s6]; rewrite LS', T1; auto|]. split; [cbn [in_n s6]; now rewrite (Permutation_length PP)|]. split; [exact GS'|]. split; [apply (Permutation_NoDup PP); auto|]. intros x Hx. apply IPP in Hx. auto.
    + destruct V5 as (V1 & V2 & V3 & V4). split; [exact V1|]. split; [exact V2|]. split; [intros x Hx; apply IPP in Hx; apply V3; auto|]. intros x Hx. apply V4. rewrite <- IPP. auto.
    + cbn [in_lab s6]. rewrite T6. destruct (k_lab _ _ _ _ _ _ _ K4) as (KL & KG). split; auto. split; auto. intros x Nx Lx. apply (k_new _ _ _ _ _ _ _ K4); auto. rewrite <- IPP. auto.
    + intros x Hx. apply in_app_iff in Hx as [Hx|Hx]; [apply (lv_in _ _ _ _ HL); auto|]. apply RI1, IR. auto.
    + intros a b AB Ia. apply in_app_iff in Ia as [Ia|Ia]; apply in_app_iff; [left; eapply (lv_closed _ _ _ _ HL); eauto|right]. apply IR. apply IR in Ia. eapply (r_cn L2 S0 R depth s3 s4 RES); [apply cn_adj; eauto|auto].
    + split; [lia|]. intros j x Lj Hj. assert (Ix : In x L1) by (eapply nth_error_In; eauto). destruct (Nat.lt_ge_cases j (S i)) as [L|Gj]; [|apply in_app_iff; left; apply (VK j); auto]. destruct (in_dec Nat.eq_dec x L2) as [I|I]; [apply in_app_iff; auto|]. apply in_app_iff; right. apply IR, IRS, SI. split; auto. split; auto. apply (DC j); auto.
    + split; auto. intros x Hx. apply IPP in Hx. apply B5. auto.
    + apply (round_order L2 S0 R maxd depth s3 s4 RES (lv_closed _ _ _ _ HL) SI MAX HSm rt K4 (vz s5) R' L2 KY PR); auto; [|apply (lv_order _ _ _ _ HL)|apply (lv_rest _ _ _ _ HL)].
      intros a b x y AB Hx Hy. assert (G5 : forall z j, nth_error R' j = Some z -> aget (in_vis s5) z = Some (vz s5 z)).
      { intros z j Hz. destruct V5 as (_ & V2 & _). destruct (V2 z) as (q & Eq); [apply Q5, in_app_iff; right; apply IR; eapply nth_error_In; eauto|]. unfold vz. rewrite Eq. auto. }
      apply (SO a b x y); eauto.
    + intros a b x Ia Ha Ib Nb. rewrite in_app_iff, IR in Nb. assert (NbL : ~ In b L2) by tauto. apply in_app_iff in Ia as [Ia|Ia]; [apply (lv_rest _ _ _ _ HL a b x); auto|]. apply IR in Ia.
      assert (x = maxd) by (eapply height_det; [eauto|apply (r_height L2 S0 R maxd depth s3 s4 RES SI MAX HSm a Ia)]). subst x.
      pose proof (MAX b Ib NbL). destruct (Z.eq_dec (d1 b) maxd) as [E|N]; [|lia]. exfalso. apply Nb. right. apply IRS, SI. auto.
Qed.
End Layers.
