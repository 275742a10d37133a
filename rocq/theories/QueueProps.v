(** C37 (the iteration queue) and C39 (bfsSort). *)
From Verif Require Import Base GraphModel GraphSpec GraphTop GraphTop2 AccessProofs TagModel QueueModel SortProofs GraphProps TagProps.

(** ** C37 *)
(** the elements waiting for the next iteration, in order *)
Definition waiting (q : sarr) (l : list nat) : Prop := sa_nsize q = length l /\ forall i, i < length l -> aget (sa_next q) i = nth_error l i.
Definition capacity (q : sarr) : nat := length (sa_next q).
Lemma sa_new_waiting n : waiting (sa_new n) [] /\ capacity (sa_new n) = n /\ length (sa_cur (sa_new n)) = n.
Proof. repeat split; cbn; try lia; apply anew_length. Qed.
Lemma sa_add_ok q l e : waiting q l -> length l < capacity q ->
  exists q', sa_add q e = Some q' /\ waiting q' (l ++ [e]) /\ capacity q' = capacity q /\ sa_cur q' = sa_cur q /\ sa_size q' = sa_size q.
Proof.
  intros (A & B) C. unfold sa_add. unfold capacity in C. rewrite A. rewrite (aset_some _ (sa_next q)) by auto. cbn [obind]. eexists. split; [reflexivity|].
  unfold waiting, capacity. cbn [sa_nsize sa_next sa_cur sa_size]. rewrite upd_length, app_length. cbn [length]. repeat split; auto.
  intros i Hi. destruct (Nat.eq_dec i (length l)) as [->|N].
  - rewrite aget_upd_eq by auto. rewrite nth_error_app2, Nat.sub_diag by lia. reflexivity.
  - rewrite aget_upd_neq by auto. rewrite nth_error_app1 by lia. apply B. lia.
Qed.

(** A sweep shows every waiting element once, in order; the elements put back are those the next sweep shows, in the same order. *)
Fixpoint sweep_spec {S} (body : S -> nat -> S * bool) (l : list nat) (s : S) : S * list nat :=
  match l with [] => (s, []) | e :: r => let '(s', keep) := body s e in let '(s2, k) := sweep_spec body r s' in (s2, if keep then e :: k else k) end.
Theorem C37_sweep : forall S (body : S -> nat -> S * bool) q l s, waiting q l -> length l <= length (sa_cur q) ->
  exists q', sa_sweep body q s = Some (q', fst (sweep_spec body l s)) /\ waiting q' (snd (sweep_spec body l s)) /\ capacity q' = length (sa_cur q) /\ length (sa_cur q') = capacity q.
Proof.
  intros S body q l s (A & B) C. unfold sa_sweep. cbn [sa_start sa_size]. rewrite A.
  assert (G : forall r l0 q1 s1 kept, l = l0 ++ r -> sa_cur q1 = sa_next q -> waiting q1 kept -> capacity q1 = length (sa_cur q) -> length kept <= length l0 ->
     exists q', foldM (fun '(q, s) i => e <- sa_get q i ;; let '(s', keep) := body s e in if keep then q' <- sa_add q e ;; Some (q', s') else Some (q, s')) (seq (length l0) (length r)) (q1, s1) = Some (q', fst (sweep_spec body r s1)) /\
       waiting q' (kept ++ snd (sweep_spec body r s1)) /\ capacity q' = length (sa_cur q) /\ sa_cur q' = sa_next q).
  { induction r as [|e r IH]; intros l0 q1 s1 kept El Ec W Cp Lk; cbn [length seq foldM sweep_spec].
    - exists q1. rewrite app_nil_r. auto.
    - assert (E : sa_get q1 (length l0) = Some e).
      { unfold sa_get. rewrite Ec, B, El by (rewrite El, app_length; cbn; lia). rewrite nth_error_app2, Nat.sub_diag by lia. reflexivity. }
      rewrite E. cbn [obind]. destruct (body s1 e) as [s' keep].
      assert (EL : l = (l0 ++ [e]) ++ r) by (rewrite <- app_assoc; auto). assert (LL : length (l0 ++ [e]) = Datatypes.S (length l0)) by (rewrite app_length; cbn; lia). destruct keep.
      + destruct (sa_add_ok q1 kept e W) as (q2 & E2 & W2 & C2 & D2 & _); [assert (length l = length l0 + Datatypes.S (length r)) by (rewrite El, app_length; reflexivity); lia|]. rewrite E2. cbn [obind].
        destruct (IH (l0 ++ [e]) q2 s' (kept ++ [e]) EL) as (q' & E' & W' & C' & D'); auto; try congruence; [rewrite !app_length; cbn; lia|].
        rewrite LL in E'. exists q'. rewrite E'. destruct (sweep_spec body r s') as [s2 k]. cbn [fst snd] in *. rewrite <- app_assoc in W'. auto.
      + cbn [obind]. destruct (IH (l0 ++ [e]) q1 s' kept EL) as (q' & E' & W' & C' & D'); auto; [rewrite app_length; cbn; lia|]. rewrite LL in E'. exists q'. rewrite E'. destruct (sweep_spec body r s') as [s2 k]. cbn [fst snd] in *. auto. }
  destruct (G l [] (sa_start q) s []) as (q' & E & W & Cp & Cc); auto; [split; [reflexivity|cbn; lia]|]. exists q'. cbn [length] in E. split; auto. split; auto. split; auto. rewrite Cc. reflexivity.
Qed.
Print Assumptions C37_sweep.

(** what the user sees as the cut edges: the edges of type 0 that have a pin owned by another part *)
Lemma shared_loop_of g n : forall it vs os, iter_n (pit_step g) n it = Some vs -> mapM (owner g) vs = Some os ->
  shared_loop g n it = Some (existsb (fun o => negb (Z.eqb o (self g))) os).
Proof.
  induction n as [|n IH]; intros it vs os H M; cbn [iter_n shared_loop] in *; [inversion H; subst; cbn in M; inversion M; reflexivity|].
  destruct (pit_step g it) as [[h it']|]; [|discriminate]. cbn [obind] in *. destruct (iter_n (pit_step g) n it') as [r|] eqn:E; [|discriminate]. cbn [obind] in H. inversion H; subst.
  cbn [mapM] in M. destruct (owner g h) as [o|]; [|discriminate]. cbn [obind] in *. destruct (mapM (owner g) r) as [os'|] eqn:E2; [|discriminate]. cbn [obind] in M. inversion M; subst. cbn [existsb].
  destruct (negb (Z.eqb o (self g))); [reflexivity|]. cbn [orb]. eapply IH; eauto.
Qed.
Lemma foreign_of_residence g e r : getResidence g e = Some r -> has_foreign_pin g e = Some (existsb (fun o => negb (Z.eqb o (self g))) r).
Proof.
  unfold getResidence, has_foreign_pin. destruct (pins_begin g e) as [it|]; [|discriminate]. cbn [obind]. destruct (edegree g e) as [d|]; [|discriminate]. cbn [obind].
  destruct (iter_n (pit_step g) d it) as [vs|] eqn:E; [|discriminate]. cbn [obind]. intros M. eapply shared_loop_of; eauto.
Qed.
(** The queue holds the edges of type 0 with a pin on another part, each once, in iteration order, and nothing else. *)
Theorem C37_queue : forall g fuel es rs, all_edges g 0 fuel = Some es -> mapM (getResidence g) es = Some rs ->
  exists q, createIterationQueue g fuel = Some q /\ length (sa_cur q) = capacity q /\
    waiting q (map fst (filter (fun x => existsb (fun o => negb (Z.eqb o (self g))) (snd x)) (combine es rs))).
Proof.
  intros g fuel es rs E M. unfold createIterationQueue. rewrite E. cbn [obind]. clear E. set (f := fun x : nat * list Z => existsb (fun o => negb (Z.eqb o (self g))) (snd x)).
  assert (CNT : forall es rs n, mapM (getResidence g) es = Some rs -> foldM (fun n e => b <- has_foreign_pin g e ;; Some (if b then n + 1 else n)) es n = Some (n + length (filter f (combine es rs)))).
  { clear. induction es as [|e es IH]; intros rs n H; cbn [mapM] in H; [inversion H; subst; cbn; f_equal; lia|]. destruct (getResidence g e) as [r|] eqn:Er; [|discriminate]. cbn [obind] in H.
    destruct (mapM (getResidence g) es) as [rs'|] eqn:Em; [|discriminate]. cbn [obind] in H. inversion H; subst. cbn [foldM combine filter]. rewrite (foreign_of_residence _ _ _ Er). cbn [obind].
    rewrite (IH rs' _ eq_refl). unfold f at 2. cbn [snd]. fold f. destruct (existsb (fun o => negb (Z.eqb o (self g))) r); cbn [length]; f_equal; lia. }
  rewrite (CNT es rs 0 M). cbn [obind Nat.add]. set (N := length (filter f (combine es rs))).
  assert (G : forall es rs q l, mapM (getResidence g) es = Some rs -> waiting q l -> length l + length (filter f (combine es rs)) <= capacity q ->
     exists q', foldM (fun q e => b <- has_foreign_pin g e ;; if b then sa_add q e else Some q) es q = Some q' /\ waiting q' (l ++ map fst (filter f (combine es rs))) /\ sa_cur q' = sa_cur q /\ capacity q' = capacity q).
  { clear. induction es as [|e es IH]; intros rs q l H W C; cbn [mapM] in H; [inversion H; subst; exists q; cbn; rewrite app_nil_r; auto|]. destruct (getResidence g e) as [r|] eqn:Er; [|discriminate]. cbn [obind] in H.
    destruct (mapM (getResidence g) es) as [rs'|] eqn:Em; [|discriminate]. cbn [obind] in H. inversion H; subst. cbn [combine filter] in C. cbn [foldM combine filter]. rewrite (foreign_of_residence _ _ _ Er). cbn [obind].
    unfold f at 1 in C. unfold f at 1. cbn [snd] in *. destruct (existsb (fun o => negb (Z.eqb o (self g))) r); cbn [length map fst] in *.
    - destruct (sa_add_ok q l e W) as (q2 & E2 & W2 & C2 & D2 & _); [lia|]. rewrite E2. cbn [obind]. destruct (IH rs' q2 (l ++ [e]) eq_refl W2) as (q' & E' & W' & D' & C'); [rewrite app_length; cbn; lia|].
      exists q'. rewrite <- app_assoc in W'. repeat split; try apply W'; auto; congruence.
    - apply IH; auto. }
  destruct (sa_new_waiting N) as (W & C & L). destruct (G es rs (sa_new N) [] M W) as (q & E & W' & D & C'); [cbn [length]; fold N; lia|].
  exists q. split; auto. split; [congruence|]. exact W'.
Qed.
Print Assumptions C37_queue.
Lemma combine_seq_filter (P : edge_input -> bool) nt k es (po : Z -> Z) (me : Z) (f : list Z -> bool) : (forall e, P e = f (map po (snd e))) ->
  map fst (filter (fun x => f (snd x)) (combine (map (fun i => getEdge nt i 0) (seq k (length es))) (map (fun e => map po (snd e)) es))) =
  map (fun x => getEdge nt (fst x) 0) (filter (fun x => P (snd x)) (combine (seq k (length es)) es)).
Proof.
  intros H. revert k. induction es as [|e es IH]; intros k; [reflexivity|]. cbn [length seq map combine filter snd]. rewrite <- H. destruct (P e); cbn [map fst]; rewrite IH; reflexivity.
Qed.
(** for a part of a hypergraph, in terms of the edges given to the construction *)
Definition crosses (me : Z) (verts : list Z) (owns : zmap Z) (e : edge_input) : bool := existsb (fun v => negb (Z.eqb (part_of me verts owns v) me)) (snd e).
Theorem C37_hypergraph : forall me verts vws tys owns g es ws fuel,
  valid_input true verts vws tys -> build_part me true verts vws tys owns = Some g -> nth_error tys 0 = Some (es, ws) -> length es < fuel ->
  exists q, createIterationQueue g fuel = Some q /\ length (sa_cur q) = capacity q /\
    waiting q (map (fun x => getEdge (ntypes g) (fst x) 0) (filter (fun x => crosses me verts owns (snd x)) (combine (seq 0 (length es)) es))).
Proof.
  intros me verts vws tys owns g es ws fuel HV HB Ht HF. pose proof (p_constructed _ _ _ _ _ _ _ HV HB) as HC.
  assert (SM : self g = me) by (eapply p_self; eauto).
  destruct (C37_queue g fuel _ (map (fun e => map (part_of me verts owns) (snd e)) es) (w_iter_edges _ _ _ _ _ _ HC 0 es ws fuel Ht HF)) as (q & E & C & W).
  { assert (G : forall r k, (forall i e, nth_error r i = Some e -> nth_error es (k + i) = Some e) -> mapM (getResidence g) (map (fun i => getEdge (ntypes g) i 0) (seq k (length r))) = Some (map (fun e => map (part_of me verts owns) (snd e)) r)).
    { induction r as [|e r IH]; intros k H; [reflexivity|]. cbn [length seq map mapM]. pose proof (H 0 e eq_refl) as H0. rewrite Nat.add_0_r in H0. destruct e as [gid ps].
      rewrite (p_residence _ _ _ _ _ _ _ HV HB eq_refl 0 es ws k gid ps Ht H0). cbn [obind]. rewrite IH; [reflexivity|]. intros i e Hi. rewrite Nat.add_succ_l, <- Nat.add_succ_r. apply H. exact Hi. }
    apply (G es 0). auto. }
  exists q. split; auto. split; auto. rewrite SM in W.
  refine (eq_ind _ (waiting q) W _ _). apply (combine_seq_filter (crosses me verts owns) (ntypes g) 0 es (part_of me verts owns) me (fun os => existsb (fun o => negb (Z.eqb o me)) os)).
  intros e. unfold crosses. induction (snd e) as [|v l IH]; [reflexivity|]. cbn [existsb map]. now rewrite IH.
Qed.
Print Assumptions C37_hypergraph.
Example C37_example : exists g, build_part 1 true ex_verts ex_vws ex_tys ex_owns = Some g /\ valid_input true ex_verts ex_vws ex_tys /\
  option_map (fun q => (firstn (sa_nsize q) (sa_next q), capacity q)) (createIterationQueue g 20) = Some ([Some (getEdge 2 0 0); Some (getEdge 2 2 0)], 2) /\
  option_map (fun qs => firstn (sa_nsize (fst qs)) (sa_next (fst qs))) (q <- createIterationQueue g 20 ;; sa_sweep (fun (s : nat) e => (s + 1, e =? getEdge 2 2 0)) q 0) = Some [Some (getEdge 2 2 0)].
Proof. destruct (build_part 1 true ex_verts ex_vws ex_tys ex_owns) as [g|] eqn:E; [|vm_compute in E; discriminate]. exists g. vm_compute in E. inversion E; subst g. split; [reflexivity|]. split; [apply ex_valid|]. split; vm_compute; reflexivity. Qed.

(** ** C39 *)
(** bfsSort permutes the cells left..right so that their keys are in order, and changes nothing else. *)
Theorem C39_sorts : forall values a left right fuel, left <= right ->
  (forall k, left <= k <= right -> exists x v, aget a k = Some x /\ aget values x = Some v) -> 2 * (right - left) + 4 <= fuel ->
  exists a', bfsSort fuel values a (Z.of_nat left) (Z.of_nat right) = Some a' /\ Permutation a a' /\
    (forall k, k < left \/ right < k -> aget a' k = aget a k) /\
    (forall k1 k2 x1 x2 v1 v2, left <= k1 <= k2 -> k2 <= right -> aget a' k1 = Some x1 -> aget a' k2 = Some x2 -> aget values x1 = Some v1 -> aget values x2 = Some v2 -> (v1 <= v2)%Z).
Proof.
  intros values a left right fuel LR D F. assert (ZG : forall (a : arr nat) k, zget a (Z.of_nat k) = aget a k) by (intros b k; unfold zget; destruct (Z.leb_spec 0 (Z.of_nat k)); [now rewrite Nat2Z.id|lia]).
  destruct (SortProofs.bfsSort_ok values fuel a (Z.of_nat left) (Z.of_nat right)) as (a' & E & S & O); [lia| |lia|].
  { intros k K. destruct (D (Z.to_nat k) ltac:(lia)) as (x & v & A & B). exists v. unfold key_at. rewrite <- (Z2Nat.id k) by lia. rewrite ZG, A. exact B. }
  exists a'. split; auto. split; [eapply SortProofs.swaps_perm; eauto|]. split.
  - intros k K. rewrite <- !ZG. eapply SortProofs.swaps_out; eauto. lia.
  - intros k1 k2 x1 x2 v1 v2 K1 K2 A1 A2 V1 V2. apply (O (Z.of_nat k1) (Z.of_nat k2)); try lia; unfold key_at; rewrite ZG; [rewrite A1|rewrite A2]; assumption.
Qed.
Print Assumptions C39_sorts.
Lemma nth_error_firstn' A n (l : list A) k : k < n -> nth_error (firstn n l) k = nth_error l k.
Proof. revert l k. induction n as [|n IH]; intros [|x l] [|k] H; cbn; auto; try lia. apply IH. lia. Qed.
Lemma nth_error_skipn' A n (l : list A) k : nth_error (skipn n l) k = nth_error l (n + k).
Proof. revert l. induction n as [|n IH]; intros [|x l]; cbn; auto. destruct k; reflexivity. Qed.
Lemma skipn_add A n m (l : list A) : skipn m (skipn n l) = skipn (n + m) l.
Proof. revert l. induction n as [|n IH]; intros [|x l]; cbn; auto. apply skipn_nil. Qed.
(** with keys for every entry: the segment is rearranged among its own cells *)
Theorem C39_segment : forall values pre seg post fuel, seg <> [] -> (forall x, In x seg -> exists v, aget values x = Some v) -> 2 * length seg + 4 <= fuel ->
  exists seg', bfsSort fuel values (ainit (pre ++ seg ++ post)) (Z.of_nat (length pre)) (Z.of_nat (length pre + length seg) - 1)%Z = Some (ainit (pre ++ seg' ++ post)) /\ Permutation seg seg' /\
    forall i j x y v w, i <= j -> nth_error seg' i = Some x -> nth_error seg' j = Some y -> aget values x = Some v -> aget values y = Some w -> (v <= w)%Z.
Proof.
  intros values pre seg post fuel NE HV HF. set (l := pre ++ seg ++ post). assert (LS : 0 < length seg) by (destruct seg; [congruence|cbn; lia]).
  destruct (C39_sorts values (ainit l) (length pre) (length pre + length seg - 1) fuel) as (a' & E & P & OUT & ORD); [lia| |lia|].
  { intros k K. rewrite aget_ainit. unfold l. rewrite nth_error_app2, nth_error_app1 by lia. destruct (nth_error seg (k - length pre)) as [x|] eqn:Ex; [|apply nth_error_None in Ex; lia].
    destruct (HV x (nth_error_In _ _ Ex)) as (v & Ev). eauto. }
  replace (Z.of_nat (length pre + length seg) - 1)%Z with (Z.of_nat (length pre + length seg - 1)) by lia. rewrite E.
  assert (AI : exists l', a' = ainit l' /\ Permutation l l').
  { assert (Q : exists l', a' = map Some l' /\ Permutation l l') by (apply Permutation_sym, Permutation_map_inv in P; exact P). exact Q. }
  destruct AI as (l' & -> & PL). assert (LL : length l' = length l) by (symmetry; now apply Permutation_length).
  assert (LEN : length l = length pre + length seg + length post) by (unfold l; rewrite !app_length; lia).
  assert (EP : firstn (length pre) l' = pre).
  { apply nth_error_ext. intros k. destruct (Nat.lt_ge_cases k (length pre)) as [L|L].
    - rewrite nth_error_firstn' by auto. specialize (OUT k (or_introl L)). rewrite !aget_ainit in OUT. rewrite OUT. unfold l. now rewrite nth_error_app1 by auto.
    - rewrite (proj2 (nth_error_None pre k)) by auto. apply nth_error_None. rewrite firstn_length. lia. }
  assert (ES : skipn (length pre + length seg) l' = post).
  { apply nth_error_ext. intros k. rewrite nth_error_skipn'. specialize (OUT (length pre + length seg + k) ltac:(right; lia)). rewrite !aget_ainit in OUT. rewrite OUT. unfold l.
    rewrite nth_error_app2 by lia. rewrite nth_error_app2 by lia. f_equal. lia. }
  set (seg' := firstn (length seg) (skipn (length pre) l')).
  assert (ED : l' = pre ++ seg' ++ post).
  { rewrite <- (firstn_skipn (length pre) l') at 1. rewrite EP. f_equal. unfold seg'. rewrite <- (firstn_skipn (length seg) (skipn (length pre) l')) at 1. f_equal. rewrite <- ES. rewrite skipn_add. reflexivity. }
  assert (L' : length seg' = length seg). { assert (length l' = length pre + length seg' + length post) by (rewrite ED, !app_length; lia). lia. }
  exists seg'. split; [rewrite ED; reflexivity|]. split.
  - rewrite ED in PL. unfold l in PL. apply Permutation_app_inv_l in PL. apply Permutation_app_inv_r in PL. exact PL.
  - intros i j x y v w IJ Hi Hj Hv Hw. assert (Lj : j < length seg') by (apply nth_error_Some; congruence).
    assert (GET : forall i x, nth_error seg' i = Some x -> aget (ainit l') (length pre + i) = Some x).
    { intros k z Hk. rewrite aget_ainit, ED, nth_error_app2 by lia. replace (length pre + k - length pre) with k by lia. rewrite nth_error_app1; auto. apply nth_error_Some. congruence. }
    apply (ORD (length pre + i) (length pre + j) x y); auto; lia.
Qed.
Print Assumptions C39_segment.
Example C39_example : bfsSort 20 (ainit [5; 3; 9; 3; 1]%Z) (ainit [0; 1; 2; 3; 4; 2]) 1 4 = Some (ainit [0; 4; 3; 1; 2; 2]) /\
  (forall x, In x [1; 2; 3; 4] -> exists v, aget (ainit [5; 3; 9; 3; 1]%Z) x = Some v).
Proof. split; [vm_compute; reflexivity|]. intros x Hx. cbn in Hx. repeat destruct Hx as [<-|Hx]; try destruct Hx; vm_compute; eauto. Qed.
