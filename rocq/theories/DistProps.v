(** C40: the distance queue. *)
From Verif Require Import Base GraphModel GraphSpec CsrProofs ConstructProofs AccessProofs AccessProofs2 GraphTop GraphTop2 GraphProps TagModel QueueModel QueueProps BfsProofs BfsPush BfsPull SearchView BfsProps DistSets DistLayers GraphIOProps.

(** ** Specification *)
(** the edges of the part with a pin that is not one of its vertices *)
Definition border (verts : list Z) (es : list edge_input) : list nat :=
  filter (fun i => existsb (fun v => if in_dec Z.eq_dec v verts then false else true) (ends_of es i)) (seq 0 (length es)).
(** the edges whose pins live on more than one part *)
Definition spread (me : Z) (verts : list Z) (owns : zmap Z) (es : list edge_input) : list nat :=
  filter (fun i => 1 <? length (nodup Z.eq_dec (map (part_of me verts owns) (ends_of es i)))) (seq 0 (length es)).
Section Wanted.
Variables (next : nat -> nat -> Prop) (bd : list nat).
Definition connected (a b : nat) : Prop := reachable next [a] b.
(** p is in the core of its component: no edge of the component is farther from the border *)
Definition core (p : nat) : Prop := reachable next bd p /\ forall b dp db, connected p b -> distance next bd dp p -> distance next bd db b -> db <= dp.
(** e is n steps from the core of its component *)
Definition from_core (n e : nat) : Prop := (exists p, core p /\ hops next [p] n e) /\ forall p k, core p -> hops next [p] k e -> n <= k.
(** the distance between the core and the border *)
Definition core_depth (d e : nat) : Prop := exists p, core p /\ connected p e /\ distance next bd d p.
Definition component_size (n e : nat) : Prop := exists l, NoDup l /\ (forall x, In x l <-> connected e x) /\ length l = n.
(** The order of the queue: components in one piece, shallow and small ones first, and in each component the edges far from the core first. *)
Record well_ordered (q : list nat) : Prop := {
  w_all : forall e, In e q -> (exists n, from_core n e) /\ (exists d, core_depth d e) /\ exists n, component_size n e;
  w_far_first : forall i j a b x y, i <= j -> nth_error q i = Some a -> nth_error q j = Some b -> connected a b -> from_core x a -> from_core y b -> y <= x;
  w_one_piece : forall i j k a b c, i <= j -> j <= k -> nth_error q i = Some a -> nth_error q j = Some b -> nth_error q k = Some c -> connected a c -> connected a b;
  w_shallow_first : forall i j a b x y n m, i <= j -> nth_error q i = Some a -> nth_error q j = Some b -> ~ connected a b -> core_depth x a -> core_depth y b -> component_size n a -> component_size m b -> x < y \/ (x = y /\ n <= m) }.
End Wanted.

Lemma rev_pos {A} (l : list A) i j x y : i <= j -> nth_error (rev l) i = Some x -> nth_error (rev l) j = Some y -> exists i' j', j' <= i' /\ nth_error l i' = Some x /\ nth_error l j' = Some y.
Proof.
  intros IJ Hi Hj. assert (Lj : j < length l) by (rewrite <- rev_length; apply nth_error_Some; congruence).
  assert (G : forall i, i < length l -> nth_error (rev l) i = nth_error l (length l - 1 - i)).
  { intros k Lk. destruct l as [|d l0]; [cbn in Lk; lia|]. rewrite (nth_error_nth' (rev (d :: l0)) d) by (rewrite rev_length; auto). rewrite rev_nth by auto. rewrite (nth_error_nth' (d :: l0) d) by lia. do 2 f_equal. lia. }
  rewrite G in Hi, Hj by lia. exists (length l - 1 - i), (length l - 1 - j). split; [lia|auto].
Qed.
Lemma filter_pos {A} (f : A -> bool) : forall (l : list A) i j x y, i <= j -> nth_error (filter f l) i = Some x -> nth_error (filter f l) j = Some y -> exists i' j', i' <= j' /\ nth_error l i' = Some x /\ nth_error l j' = Some y.
Proof.
  induction l as [|a l IH]; intros i j x y IJ Hi Hj; [destruct i; discriminate|]. cbn [filter] in Hi, Hj. destruct (f a) eqn:Fa.
  - destruct i as [|i]; destruct j as [|j]; try lia; cbn [nth_error] in Hi, Hj.
    + exists 0, 0. auto.
    + assert (I : In y (filter f l)) by (eapply nth_error_In; eauto). apply filter_In in I as (I & _). apply In_nth_error in I as (j' & Hj'). exists 0, (S j'). split; [lia|]. auto.
    + destruct (IH i j x y ltac:(lia) Hi Hj) as (i' & j' & A1 & A2 & A3). exists (S i'), (S j'). split; [lia|auto].
  - destruct (IH i j x y IJ Hi Hj) as (i' & j' & A1 & A2 & A3). exists (S i'), (S j'). split; [lia|auto].
Qed.
Lemma filter_pos3 {A} (f : A -> bool) : forall (l : list A) i j k x y z, i <= j -> j <= k -> nth_error (filter f l) i = Some x -> nth_error (filter f l) j = Some y -> nth_error (filter f l) k = Some z -> exists i' j' k', i' <= j' /\ j' <= k' /\ nth_error l i' = Some x /\ nth_error l j' = Some y /\ nth_error l k' = Some z.
Proof.
  induction l as [|a l IH]; intros i j k x y z IJ JK Hi Hj Hk; [destruct i; discriminate|]. pose proof (filter_pos f (a :: l) j k y z JK Hj Hk) as (j0 & k0 & JK0 & Hj0 & Hk0). cbn [filter] in Hi, Hj, Hk. destruct (f a) eqn:Fa.
  - destruct i as [|i]; [exists 0, j0, k0; repeat split; auto; lia|]. destruct j as [|j]; [lia|]. destruct k as [|k]; [lia|]. cbn [nth_error] in Hi, Hj, Hk. destruct (IH i j k x y z ltac:(lia) ltac:(lia) Hi Hj Hk) as (i' & j' & k' & A1 & A2 & A3 & A4 & A5). exists (S i'), (S j'), (S k'). repeat split; auto; lia.
  - destruct (IH i j k x y z IJ JK Hi Hj Hk) as (i' & j' & k' & A1 & A2 & A3 & A4 & A5). exists (S i'), (S j'), (S k'). repeat split; auto; lia.
Qed.
Lemma rev_pos3 {A} (l : list A) i j k x y z : i <= j -> j <= k -> nth_error (rev l) i = Some x -> nth_error (rev l) j = Some y -> nth_error (rev l) k = Some z -> exists i' j' k', k' <= j' /\ j' <= i' /\ nth_error l i' = Some x /\ nth_error l j' = Some y /\ nth_error l k' = Some z.
Proof.
  intros IJ JK Hi Hj Hk. assert (Lk : k < length l) by (rewrite <- rev_length; apply nth_error_Some; congruence).
  assert (G : forall i, i < length l -> nth_error (rev l) i = nth_error l (length l - 1 - i)).
  { intros q Lq. destruct l as [|d l0]; [cbn in Lq; lia|]. rewrite (nth_error_nth' (rev (d :: l0)) d) by (rewrite rev_length; auto). rewrite rev_nth by auto. rewrite (nth_error_nth' (d :: l0) d) by lia. do 2 f_equal. lia. }
  rewrite G in Hi, Hj, Hk by lia. exists (length l - 1 - i), (length l - 1 - j), (length l - 1 - k). repeat split; auto; lia.
Qed.

Lemma wo_filter next bd f l : well_ordered next bd l -> well_ordered next bd (filter f l).
Proof.
  intros [a b c d]. split.
  - intros e He. apply filter_In in He as (He & _). auto.
  - intros i j x y p q IJ Hx Hy. destruct (filter_pos f l i j x y IJ Hx Hy) as (i' & j' & IJ' & Hx' & Hy'). eauto.
  - intros i j k x y z IJ JK Hx Hy Hz. destruct (filter_pos3 f l i j k x y z IJ JK Hx Hy Hz) as (i' & j' & k' & IJ' & JK' & Hx' & Hy' & Hz'). eauto.
  - intros i j x y p q n m IJ Hx Hy. destruct (filter_pos f l i j x y IJ Hx Hy) as (i' & j' & IJ' & Hx' & Hy'). eauto.
Qed.
Lemma wo_nil next bd : well_ordered next bd [].
Proof. split; [intros e []| | |]; intros; destruct i; discriminate. Qed.
Lemma map_last_seq {A} (f : nat -> option A) (L : list A) : (forall i, i < length L -> f i = nth_error L i) -> Forall2 (fun i x => f i = Some x) (rev (seq 0 (length L))) (rev L).
Proof.
  induction L as [|x L IH] using rev_ind; intros H; [constructor|].
  rewrite app_length, Nat.add_1_r, seq_S, !rev_app_distr. cbn [rev app Nat.add]. constructor.
  - rewrite H by (rewrite app_length; cbn; lia). rewrite nth_error_app2, Nat.sub_diag by lia. reflexivity.
  - apply IH. intros i Li. rewrite H by (rewrite app_length; lia). now rewrite nth_error_app1.
Qed.

Section Part.
Variables (me : Z) (verts vws : list Z) (tys : list type_input) (owns : zmap Z) (g : graph) (es : list edge_input) (ws : list Z).
Hypothesis HV : valid_input true verts vws tys.
Hypothesis HB : build_part me true verts vws tys owns = Some g.
Hypothesis Ht : nth_error tys 0 = Some (es, ws).
Hypothesis HO : ghosts_elsewhere me verts tys owns.
Notation ne := (length es). Notation nv := (length verts).
Notation vp := (vpins verts tys es). Notation vi := (vil verts es).
Notation all := (verts ++ ghosts_of verts tys).
Notation ge := (fun e => getEdge (ntypes g) e 0).

Lemma works push fuel : enough verts es fuel -> search_works push g ne nv fuel vp vi.
Proof.
  intros F visit X J O S0 depth s CT OC HX LOW SD VS D0 XS NE. unfold search, below in *. destruct push.
  - apply (bfs_push_ok g ne nv fuel vp vi) with (s0 := s); auto.
    + intros e Le. eapply v_pins; eauto. + intros v Lv. eapply v_local; eauto. + intros e v Le Hv Gv. eapply (v_ghost me); eauto. + intros v Lv. eapply v_edges; eauto.
    + intros e Le. eapply v_lid; eauto. + intros v b Lv Hb. eapply v_il; eauto. + eapply v_nlv; eauto. + eapply v_verts; eauto. + unfold enough in F. lia.
  - destruct (v_row _ _ _ _ _ _ _ _ HV HB Ht) as (ed & ED & _ & ROW). apply (bfs_pull_ok ed ne nv vp vi ROW) with (s0 := s); auto.
    + intros v b Lv Hb. eapply v_il; eauto. + intros v a Lv La. eapply v_sym; eauto. + eapply v_nlv; eauto. + unfold enough in F. lia.
Qed.

Lemma shared_pin v : In v all -> (length verts <=? idx all v) = if in_dec Z.eq_dec v verts then false else true.
Proof.
  intros H. destruct (in_dec Z.eq_dec v verts) as [I|N].
  - rewrite idx_app by auto. pose proof (idx_lt _ _ I). apply Nat.leb_gt. auto.
  - apply Nat.leb_le. destruct (Nat.le_gt_cases (length verts) (idx all v)); auto. exfalso. apply N. pose proof (idx_nth _ _ H) as K. rewrite nth_error_app1 in K by auto. eapply nth_error_In; eauto.
Qed.
Lemma is_shared_ok ed i : gtype g 0 = Some ed -> i < ne -> is_shared g ed i = Some (existsb (fun v => if in_dec Z.eq_dec v verts then false else true) (ends_of es i)).
Proof.
  intros ED Li. pose proof (proj1 (part_rep _ _ _ _ _ _ _ HV HB)) as HR. destruct (gtype_ok _ _ _ _ _ HR 0 _ _ (nth_eff _ _ _ _ Ht)) as (ed' & E & HE & _). assert (ed' = ed) by congruence. subst ed'.
  unfold is_shared, ends_of. rewrite (v_hyper _ _ _ _ _ _ HV HB). rewrite (er_pdeg _ _ _ _ _ _ HE i (Nat.lt_le_incl _ _ Li)). cbn [obind]. rewrite (er_pdeg _ _ _ _ _ _ HE (i + 1)) by (change (i + 1 <= ne); lia). cbn [obind]. destruct (nth_error es i) as [[gid ps]|] eqn:Ei; [|apply nth_error_None in Ei; lia]. cbn [snd].
  assert (EP : nth_error (epins_of es) i = Some ps) by (unfold epins_of; rewrite nth_error_map; change (option_map snd (nth_error es i) = Some ps); now rewrite Ei).
  rewrite Nat.add_1_r, (nsum_firstn_S _ i (length ps)) by (rewrite nth_error_map, EP; reflexivity). set (p := nsum (firstn i (map (@length Z) (epins_of es)))). replace (p + length ps - p) with (length ps) by lia.
  rewrite (v_nlv _ _ _ _ _ _ HV HB).
  assert (G : forall r D b, ps = D ++ r -> foldM (fun sh j => v <- aget (e_pins ed) j ;; Some (sh || (length verts <=? v))) (seq (p + length D) (length r)) b = Some (b || existsb (fun v => if in_dec Z.eq_dec v verts then false else true) r)).
  { induction r as [|v r IH]; intros D b EQ; cbn [length seq foldM existsb]; [now rewrite orb_false_r|].
    rewrite (er_pins _ _ _ _ _ _ HE), aget_ainit, nth_error_map. unfold p. rewrite (nth_error_concat _ (epins_of es) i ps (length D) v); auto; [|rewrite EQ, nth_error_app2, Nat.sub_diag by lia; reflexivity]. cbn [option_map obind]. fold p.
    rewrite shared_pin by (apply (v_in_all me verts vws tys owns g es ws HV HB Ht i); unfold pin_ids; rewrite Ei, EQ; apply in_app_iff; right; left; auto).
    specialize (IH (D ++ [v]) (b || (if in_dec Z.eq_dec v verts then false else true))). rewrite app_length in IH. cbn [length] in IH. replace (p + (length D + 1)) with (S (p + length D)) in IH by lia.
    rewrite (er_pins _ _ _ _ _ _ HE) in IH. rewrite IH by (rewrite <- app_assoc; auto). now rewrite orb_assoc. }
  specialize (G ps [] false eq_refl). cbn [length] in G. rewrite Nat.add_0_r in G. exact G.
Qed.

Lemma seeds_ok ed : gtype g 0 = Some ed -> ghosts_of verts tys <> [] -> exists sd, first_seeds g ed = Some (sd, length (border verts es)) /\ length sd = ne /\ forall i, i < length (border verts es) -> aget sd i = nth_error (border verts es) i.
Proof.
  intros ED NG. pose proof (proj1 (part_rep _ _ _ _ _ _ _ HV HB)) as HR. destruct (gtype_ok _ _ _ _ _ HR 0 _ _ (nth_eff _ _ _ _ Ht)) as (ed' & E & HE & _). assert (ed' = ed) by congruence. subst ed'.
  unfold first_seeds. rewrite (rp_ngv _ _ _ _ _ HR), (er_num _ _ _ _ _ _ HE). destruct (Nat.eqb_spec (length (ghosts_of verts tys)) 0) as [Z0|_]; [destruct (ghosts_of verts tys); [congruence|discriminate]|].
  unfold border. set (f := fun i => existsb _ _).
  assert (G : forall r k sd n, k + r = ne -> length sd = ne -> n = length (filter f (seq 0 k)) -> (forall i, i < n -> aget sd i = nth_error (filter f (seq 0 k)) i) ->
     exists sd', foldM (fun '(sd, n) i => b <- is_shared g ed i ;; if b then sd' <- aset sd n i ;; Some (sd', n + 1) else Some (sd, n)) (seq k r) (sd, n) = Some (sd', length (filter f (seq 0 ne))) /\ length sd' = ne /\ forall i, i < length (filter f (seq 0 ne)) -> aget sd' i = nth_error (filter f (seq 0 ne)) i).
  { induction r as [|r IH]; intros k sd n EK LS EN GN; cbn [seq foldM].
    - rewrite Nat.add_0_r in EK. subst k. exists sd. subst n. auto.
    - rewrite is_shared_ok by (auto; lia). cbn [obind]. fold (f k). assert (FS : filter f (seq 0 (S k)) = filter f (seq 0 k) ++ if f k then [k] else []). { rewrite seq_S, filter_app. cbn [filter Nat.add]. destruct (f k); auto. }
      assert (LN : n <= k). { subst n. etransitivity; [apply filter_length_le|rewrite seq_length; auto]. }
      destruct (f k) eqn:Fk.
      + rewrite aset_some by lia. cbn [obind]. apply IH; auto; [lia|now rewrite upd_length|rewrite FS, app_length; cbn; lia|]. intros i Li. rewrite FS. destruct (Nat.eq_dec i n) as [->|N].
        * rewrite aget_upd_eq by lia. rewrite nth_error_app2 by lia. rewrite EN, Nat.sub_diag. reflexivity.
        * rewrite aget_upd_neq by auto. rewrite nth_error_app1 by lia. apply GN. lia.
      + apply IH; auto; [lia|rewrite FS, app_nil_r; auto|]. intros i Li. rewrite FS, app_nil_r. auto. }
  apply (G ne 0 (anew ne) 0); auto; [apply anew_length|lia].
Qed.

(** the traversals, from any seeds *)
Lemma traversals push fuel bd sd (q0 : sarr) : enough verts es fuel -> 2 * ne + 4 <= fuel -> NoDup bd -> bd <> [] -> (forall e, In e bd -> e < ne) -> length sd = ne -> (forall i, i < length bd -> aget sd i = nth_error bd i) ->
  exists s1 d s2 L, search push g 0 0%Z depth_visit fuel (mkIn sd (length bd) (ainit (repeat (-1)%Z ne)) 0 0 [] [] []) = Some (s1, d) /\
    layers push g fuel fuel s1 (mkIn (anew ne) 0 (ainit (repeat (-1)%Z ne)) 0 0 [] [] (ainit (repeat (-1)%Z ne))) (in_n s1) 0%Z = Some s2 /\
    Seeds ne L s2 /\ (forall e, In e L <-> reachable (touching verts es) bd e) /\ well_ordered (touching verts es) bd (rev L).
Proof.
  intros F F2 ND NE SB LS GS. set (s0 := mkIn sd (length bd) (ainit (repeat (-1)%Z ne)) 0 0 [] [] []).
  destruct (fresh_ok ne bd s0) as (A & B & VZ); auto; [split; [exact LS|]; split; [reflexivity|]; split; [exact GS|reflexivity]|].
  assert (WH : forall S n e, walk (adj nv vp vi) S n e <-> hops (touching verts es) S n e) by (intros; eapply walk_hops; eauto).
  assert (HS : search_works push g ne nv fuel vp vi) by (apply works; auto).
  destruct (HS depth_visit (fun _ _ => True) (fun _ _ _ => True) [] bd 0%Z s0) as (L1 & s1 & d & E1 & RES & _); auto; [apply depth_contract|intros e []|lia|].
  pose proof (r_core _ _ _ _ _ _ _ _ _ _ _ _ RES) as (S1 & V1). cbn [app] in S1, V1.
  assert (RR : forall e, In e L1 <-> reachable (touching verts es) bd e).
  { intros e. split; [intros H; destruct (r_dist _ _ _ _ _ _ _ _ _ _ _ _ RES e H) as (n & _ & W & _); exists n; now apply WH|]. intros (n & W). apply WH in W. eapply (r_all _ _ _ _ _ _ _ _ _ _ _ _ RES); eauto. }
  assert (D1 : forall e, In e L1 -> exists n, vz s1 e = Z.of_nat n /\ distance (touching verts es) bd n e).
  { intros e H. destruct (r_dist _ _ _ _ _ _ _ _ _ _ _ _ RES e H) as (n & En & W & M). exists n. split; [lia|]. split; [now apply WH|]. intros k Wk. apply M, WH; auto. }
  assert (DD : forall e n k, distance (touching verts es) bd n e -> distance (touching verts es) bd k e -> n = k) by (intros e n k (P & Q) (P' & Q'); pose proof (Q k P'); pose proof (Q' n P); lia).
  assert (CL : forall a b, adj nv vp vi a b -> In a L1 -> In b L1) by (intros a b AB Ia; apply RR in Ia as (n & W); apply RR; exists (S n); econstructor; eauto; eapply adj_touching; eauto).
  assert (SYM : forall v a, v < nv -> In v (vp a) <-> In a (vi v)) by (intros v a Lv; eapply v_sym; eauto).
  set (s20 := mkIn (anew ne) 0 (ainit (repeat (-1)%Z ne)) 0 0 [] [] (ainit (repeat (-1)%Z ne))).
  assert (UN : forall e, e < ne -> aget (ainit (repeat (-1)%Z ne)) e = Some (-1)%Z) by (intros e Le; rewrite aget_ainit; now apply nth_error_repeat_lt).
  assert (LU : length (ainit (repeat (-1)%Z ne)) = ne) by (unfold ainit; now rewrite map_length, repeat_length).
  destruct (layers_ok push g ne nv fuel vp vi SYM F2 HS s1 L1 S1 V1 CL (r_mono _ _ _ _ _ _ _ _ _ _ _ _ RES) fuel [] s20 (in_n s1) 0%Z) as (s2 & L & E2 & S2 & I2 & OR).
  { split.
    - split; [apply anew_length|]. split; [reflexivity|]. split; [cbn; lia|]. split; [constructor|intros e []].
    - split; [exact LU|]. split; [intros e Le; exists (-1)%Z; apply UN; auto|]. split; [intros e []|]. intros e _. unfold vz. cbn [in_vis s20]. destruct (aget (ainit (repeat (-1)%Z ne)) e) eqn:Eg; auto. apply aget_lt in Eg as Lg. rewrite LU in Lg. rewrite UN in Eg by auto. congruence.
    - split; [exact LU|]. split; [intros e Le; exists (-1)%Z; apply UN; auto|]. intros e _ Le. apply UN; auto.
    - intros e []. - intros a b _ [].
    - destruct S1 as (_ & EN & _). rewrite EN. split; auto. intros i e Li Hi. assert (i < length L1) by (apply nth_error_Some; congruence). lia.
    - split; [lia|intros e []].
    - split; [intros e []| | |]; intros; destruct i; discriminate.
    - intros a b x []. }
  { cbn [length Nat.add]. pose proof (seeds_le ne L1 s1 S1). lia. }
  exists s1, d, s2, L. split; [exact E1|]. split; [exact E2|]. split; [exact S2|]. assert (IL : forall e, In e L <-> reachable (touching verts es) bd e) by (intros e; rewrite I2; apply RR). split; [exact IL|].
  (* the two vocabularies agree *)
  assert (CC : forall a b, Cn (adj nv vp vi) a b <-> connected (touching verts es) a b) by (intros a b; split; intros (n & W); exists n; apply WH; auto).
  assert (PK : forall p, Peak nv vp vi s1 L1 p <-> core (touching verts es) bd p).
  { intros p. split.
    - intros (Ip & M). split; [now apply RR|]. intros b dp db Cb Dp Db. destruct (D1 p Ip) as (n & En & Dn). assert (Ib : In b L1) by (apply RR; destruct Db as (W & _); exists db; auto). destruct (D1 b Ib) as (m & Em & Dm). assert (n = dp) by eauto. assert (m = db) by eauto. subst. pose proof (M b (proj2 (CC p b) Cb)). lia.
    - intros (Ip & M). apply RR in Ip. split; auto. intros b Cb. assert (Ib : In b L1) by (eapply (cn_closed (adj nv vp vi) (fun e => In e L1)); eauto). destruct (D1 p Ip) as (n & En & Dn). destruct (D1 b Ib) as (m & Em & Dm). pose proof (M b n m (proj1 (CC p b) Cb) Dn Dm). lia. }
  assert (FF : forall e n, Far nv vp vi s1 L1 e n <-> from_core (touching verts es) bd n e).
  { intros e n. split; intros ((p & P & W) & M); (split; [exists p; split; [now apply PK|now apply WH]|]); intros q k Q Wk; apply (M q k); [now apply PK|now apply WH|now apply PK|now apply WH]. }
  assert (HH : forall e d, core_depth (touching verts es) bd d e <-> Height nv vp vi s1 L1 e (Z.of_nat d)).
  { intros e x. split.
    - intros (p & P & Cp & Dp). exists p. split; [now apply PK|]. split; [now apply CC|]. assert (Ip : In p L1) by (apply PK; auto). destruct (D1 p Ip) as (n & -> & Dn). f_equal. eauto.
    - intros (p & P & Cp & Ep). exists p. split; [now apply PK|]. split; [now apply CC|]. assert (Ip : In p L1) by apply P. destruct (D1 p Ip) as (n & En & Dn). assert (x = n) by lia. subst x. auto. }
  assert (SZ : forall e n, component_size (touching verts es) n e <-> Size nv vp vi e n).
  { intros e n. split; intros (l & N & I & Ln); exists l; split; auto; split; auto; intros x; rewrite I; [symmetry; apply CC|apply CC]. }
  destruct OR as [oa os or od]. split.
  - intros e He. apply in_rev in He. destruct (oa e He) as ((n & Fn) & (z & Hz) & (k & Sk)). split; [exists n; now apply FF|]. split; [|exists k; now apply SZ]. destruct Hz as (p & P & Cp & ->). assert (Ip : In p L1) by apply P. destruct (D1 p Ip) as (m & Em & Dm). exists m. exists p. split; [now apply PK|]. split; [now apply CC|auto].
  - intros i j a b x y IJ Ha Hb Cab Fa Fb. destruct (rev_pos L i j a b IJ Ha Hb) as (i' & j' & JI & Ha' & Hb'). apply (os j' i' b a); auto; [apply cn_sym; [intros u w; apply adj_sym; auto|now apply CC]|now apply FF|now apply FF].
  - intros i j k a b c IJ JK Ha Hb Hc Cac. destruct (rev_pos3 L i j k a b c IJ JK Ha Hb Hc) as (i' & j' & k' & KJ & JI & Ha' & Hb' & Hc'). apply CC in Cac. assert (SY := cn_sym (adj nv vp vi) (fun u w => adj_sym nv vp vi SYM u w)). apply CC. apply (cn_trans _ a c b); auto. apply (or k' j' i' c b a); auto.
  - intros i j a b x y n m IJ Ha Hb NC Hx Hy Sn Sm. destruct (rev_pos L i j a b IJ Ha Hb) as (i' & j' & JI & Ha' & Hb'). apply HH in Hx, Hy. apply SZ in Sn, Sm.
    destruct (od j' i' b a (Z.of_nat y) (Z.of_nat x) m n JI Hb' Ha') as [K|(K & K2)]; auto; [|left; lia|right; split; [lia|auto]]. intros Q. apply NC, CC. apply cn_sym; auto. intros u w; apply adj_sym; auto.
Qed.

Definition spread_test (i : nat) : bool := 1 <? length (nodup Z.eq_dec (map (part_of me verts owns) (ends_of es i))).
Lemma spread_border i : i < ne -> spread_test i = true -> In i (border verts es).
Proof.
  intros Li T. apply filter_In. split; [apply in_seq; lia|]. destruct (existsb _ _) eqn:Ex; auto. exfalso.
  assert (A : forall p, In p (map (part_of me verts owns) (ends_of es i)) -> p = me).
  { intros p Hp. apply in_map_iff in Hp as (v & <- & Hv). unfold part_of. destruct (in_dec Z.eq_dec v verts) as [I|N]; auto. exfalso. enough (false = true) by discriminate. rewrite <- Ex. apply existsb_exists. exists v. split; auto. destruct (in_dec Z.eq_dec v verts); auto. }
  unfold spread_test in T. apply Nat.ltb_lt in T. assert (ND := NoDup_nodup Z.eq_dec (map (part_of me verts owns) (ends_of es i))). assert (B : forall p, In p (nodup Z.eq_dec (map (part_of me verts owns) (ends_of es i))) -> p = me) by (intros p Hp; apply A; now apply nodup_In in Hp).
  destruct (nodup Z.eq_dec (map (part_of me verts owns) (ends_of es i))) as [|x [|y l]]; cbn in T; try lia. inversion ND as [|? ? NI _]. apply NI. left. rewrite (B x), (B y); cbn; auto.
Qed.
Lemma fill_ok s2 L n : Seeds ne L s2 -> length (filter spread_test (rev L)) <= n -> exists q, fill_queue g s2 (sa_new n) = Some q /\ waiting q (map ge (filter spread_test (rev L))).
Proof.
  intros (_ & EN & GS & ND & LT) CAP. unfold fill_queue. rewrite EN. pose proof (map_last_seq (aget (in_seeds s2)) L GS) as F2.
  destruct (sa_new_waiting n) as (W0 & C0 & _).
  assert (G : forall is r, Forall2 (fun i x => aget (in_seeds s2) i = Some x) is r -> (forall e, In e r -> e < ne) -> forall q D, waiting q (map ge D) -> capacity q = n -> length D + length (filter spread_test r) <= n ->
     exists q', foldM (fun q i => l <- aget (in_seeds s2) i ;; let e := getEdge (ntypes g) l 0 in r <- getResidence g e ;; if 1 <? length (nodup Z.eq_dec r) then sa_add q e else Some q) is q = Some q' /\ waiting q' (map ge (D ++ filter spread_test r))).
  { induction 1 as [|i e is r Hi Hr IH]; intros LTr q D W C LE; cbn [foldM filter]; [exists q; rewrite app_nil_r; auto|].
    rewrite Hi. cbn [obind]. assert (Le : e < ne) by (apply LTr; left; auto). destruct (nth_error es e) as [[gid ps]|] eqn:Ee; [|apply nth_error_None in Ee; lia].
    rewrite (p_residence _ _ _ _ _ _ _ HV HB eq_refl 0 es ws e gid ps Ht Ee). cbn [obind]. assert (ST : spread_test e = (1 <? length (nodup Z.eq_dec (map (part_of me verts owns) ps)))) by (unfold spread_test, ends_of; now rewrite Ee).
    rewrite <- ST. cbn [filter] in LE. destruct (spread_test e).
    - cbn [length] in LE. destruct (sa_add_ok q (map ge D) (ge e) W) as (q' & -> & W' & C' & _); [rewrite map_length; lia|]. replace (map ge D ++ [ge e]) with (map ge (D ++ [e])) in W' by now rewrite map_app. destruct (IH ltac:(intros; apply LTr; right; auto) q' (D ++ [e]) W' ltac:(lia)) as (q'' & E & W''); [rewrite app_length; cbn [length]; lia|]. exists q''. split; [exact E|]. now rewrite <- app_assoc in W''.
    - apply IH; auto. intros; apply LTr; right; auto. }
  destruct (G _ _ F2 ltac:(intros e He; apply LT; now apply in_rev) (sa_new n) [] W0 C0 ltac:(cbn; lia)) as (q & E & W). eauto.
Qed.
Lemma queue_ok push fuel : ghosts_of verts tys <> [] -> enough verts es fuel -> 2 * ne + 4 <= fuel ->
  exists q l, createDistanceQueue push g fuel = Some q /\ waiting q (map ge l) /\ Permutation l (spread me verts owns es) /\ well_ordered (touching verts es) (border verts es) l.
Proof.
  intros NG F F2. unfold createDistanceQueue. rewrite (num_seen _ _ _ _ _ _ _ HV HB 0 es ws Ht). cbn [obind].
  assert (SN : border verts es = [] -> spread me verts owns es = []).
  { intros B0. destruct (spread me verts owns es) as [|x l] eqn:Es; auto. exfalso. assert (I : In x (spread me verts owns es)) by (rewrite Es; left; auto). apply filter_In in I as (I & T). apply in_seq in I. assert (In x (border verts es)) by (apply spread_border; [lia|exact T]). rewrite B0 in H. destruct H. }
  destruct (Nat.eqb_spec ne 0) as [Z0|NZ].
  { exists (sa_new 0), []. split; auto. split; [apply sa_new_waiting|]. split; [|apply wo_nil]. unfold spread. rewrite Z0. constructor. }
  pose proof (proj1 (part_rep _ _ _ _ _ _ _ HV HB)) as HR. destruct (gtype_ok _ _ _ _ _ HR 0 _ _ (nth_eff _ _ _ _ Ht)) as (ed & E & HE & _). rewrite E. cbn [obind].
  destruct (seeds_ok ed E NG) as (sd & ES & LS & GS). rewrite ES. cbn [obind]. destruct (Nat.eqb_spec (length (border verts es)) 0) as [Z1|NZ1].
  { assert (B0 : border verts es = []) by (destruct (border verts es); auto; discriminate). exists (sa_new (length (border verts es))), []. split; auto. split; [apply sa_new_waiting|]. split; [rewrite SN by auto; constructor|apply wo_nil]. }
  pose proof (er_num _ _ _ _ _ _ HE) as EN. change (length _) with ne in EN. rewrite EN.
  destruct (traversals push fuel (border verts es) sd (sa_new 0)) as (s1 & d & s2 & L & E1 & E2 & S2 & IL & WO); auto.
  { apply NoDup_filter, seq_NoDup. } { intros B0. apply NZ1. now rewrite B0. } { intros e He. apply filter_In in He as (He & _). apply in_seq in He. lia. }
  rewrite E1. cbn [obind]. rewrite E2. cbn [obind].
  assert (PM : Permutation (filter spread_test (rev L)) (spread me verts owns es)).
  { destruct S2 as (_ & _ & _ & ND & LT). apply NoDup_Permutation; [apply NoDup_filter, NoDup_rev; auto|apply NoDup_filter, seq_NoDup|]. intros e. unfold spread. rewrite !filter_In. fold spread_test. split; intros (I & T); split; auto.
    - apply in_seq. apply in_rev in I. specialize (LT e I). lia.
    - apply -> in_rev. apply IL. exists 0. constructor. apply spread_border; auto. apply in_seq in I. lia. }
  destruct (fill_ok s2 L (length (border verts es)) S2) as (q & EQ & W).
  { rewrite (Permutation_length PM). apply NoDup_incl_length; [apply NoDup_filter, seq_NoDup|]. intros e He. apply filter_In in He as (I & T). apply in_seq in I. apply spread_border; auto. lia. }
  exists q, (filter spread_test (rev L)). split; auto. split; auto. split; auto. apply wo_filter, WO.
Qed.

(** without ghosts the search starts at edge 2 *)
Lemma no_ghosts_local : ghosts_of verts tys = [] -> forall i v, In v (ends_of es i) -> In v verts.
Proof.
  intros NG i v Hv. assert (I : In v all). { apply (v_in_all me verts vws tys owns g es ws HV HB Ht i). unfold pin_ids. unfold ends_of in Hv. destruct (nth_error es i) as [[gid ps]|]; auto. }
  rewrite NG, app_nil_r in I. auto.
Qed.
Lemma serial_ok push fuel : ghosts_of verts tys = [] -> ne = 0 \/ 3 <= ne -> enough verts es fuel -> 2 * ne + 4 <= fuel ->
  exists q, createDistanceQueue push g fuel = Some q /\ waiting q [].
Proof.
  intros NG L3 F F2. unfold createDistanceQueue. rewrite (num_seen _ _ _ _ _ _ _ HV HB 0 es ws Ht). cbn [obind].
  destruct (Nat.eqb_spec ne 0) as [Z0|NZ]; [exists (sa_new 0); split; auto; apply sa_new_waiting|].
  pose proof (proj1 (part_rep _ _ _ _ _ _ _ HV HB)) as HR. destruct (gtype_ok _ _ _ _ _ HR 0 _ _ (nth_eff _ _ _ _ Ht)) as (ed & E & HE & _). rewrite E. cbn [obind].
  pose proof (er_num _ _ _ _ _ _ HE) as EN. change (length _) with ne in EN.
  unfold first_seeds. rewrite (rp_ngv _ _ _ _ _ HR), NG, EN. cbn [length Nat.eqb]. rewrite aset_some by (rewrite anew_length; lia). cbn [obind Nat.eqb]. rewrite ?EN.
  destruct (traversals push fuel [2] (upd (anew ne) 0 (Some 2)) (sa_new 0)) as (s1 & d & s2 & L & E1 & E2 & S2 & IL & WO); auto.
  { repeat constructor; auto. } { discriminate. } { intros e [<-|[]]; lia. } { rewrite upd_length; apply anew_length. } { intros i Li. cbn in Li. assert (i = 0) by lia. subst i. rewrite aget_upd_eq by (rewrite anew_length; lia). reflexivity. }
  cbn [length] in E1. rewrite E1. cbn [obind]. rewrite E2. cbn [obind].
  assert (NS : filter spread_test (rev L) = []).
  { destruct (filter spread_test (rev L)) as [|x l] eqn:Es; auto. exfalso. assert (I : In x (filter spread_test (rev L))) by (rewrite Es; left; auto). apply filter_In in I as (I & T). apply in_rev in I. destruct S2 as (_ & _ & _ & _ & LT). specialize (LT x I).
    pose proof (spread_border x LT T) as B. apply filter_In in B as (_ & B). apply existsb_exists in B as (v & Hv & B). pose proof (no_ghosts_local NG x v Hv). destruct (in_dec Z.eq_dec v verts); [discriminate|contradiction]. }
  destruct (fill_ok s2 L 1 S2) as (q & EQ & W); [rewrite NS; cbn; lia|]. rewrite NS in W. eauto.
Qed.
Lemma tiny_bad push fuel : ghosts_of verts tys = [] -> 1 <= ne <= 2 -> createDistanceQueue push g fuel = None.
Proof.
  intros NG L3. unfold createDistanceQueue. rewrite (num_seen _ _ _ _ _ _ _ HV HB 0 es ws Ht). cbn [obind].
  destruct (Nat.eqb_spec ne 0) as [Z0|NZ]; [lia|].
  pose proof (proj1 (part_rep _ _ _ _ _ _ _ HV HB)) as HR. destruct (gtype_ok _ _ _ _ _ HR 0 _ _ (nth_eff _ _ _ _ Ht)) as (ed & E & HE & _). rewrite E. cbn [obind].
  pose proof (er_num _ _ _ _ _ _ HE) as EN. change (length _) with ne in EN.
  unfold first_seeds. rewrite (rp_ngv _ _ _ _ _ HR), NG, EN. cbn [length Nat.eqb]. rewrite aset_some by (rewrite anew_length; lia). cbn [obind Nat.eqb]. rewrite ?EN.
  assert (SS : start_seeds (mkIn (upd (anew ne) 0 (Some 2)) 1 (ainit (repeat (-1)%Z ne)) 0 0 [] [] []) 0 0%Z = None).
  { unfold start_seeds. cbn [in_n in_seeds in_vis Nat.sub seq foldM]. rewrite aget_upd_eq by (rewrite anew_length; lia). cbn [obind]. unfold aset. destruct (Nat.ltb_spec 2 (length (ainit (repeat (-1)%Z ne)))) as [K|K]; [|reflexivity]. unfold ainit in K. rewrite map_length, repeat_length in K. lia. }
  unfold search, bfs_push, bfs_pull. rewrite E. cbn [obind]. destruct push; rewrite SS; [|reflexivity]. destruct (create_tag g None); [|reflexivity]. cbn [obind]. destruct (all_verts g fuel); [|reflexivity]. cbn [obind]. destruct (foldM _ _ _); reflexivity.
Qed.
End Part.

(** C40.  The queue of a part with ghosts holds every edge whose pins are spread over parts, once each, and nothing else; components (edges joined by chains of shared local vertices) come in one piece, shallow ones and then small ones first, and in each the edges far from its core first. *)
Theorem C40_queue push me verts vws tys owns g es ws fuel :
  valid_input true verts vws tys -> build_part me true verts vws tys owns = Some g -> nth_error tys 0 = Some (es, ws) ->
  ghosts_elsewhere me verts tys owns -> ghosts_of verts tys <> [] -> enough verts es fuel -> 2 * length es + 4 <= fuel ->
  exists q l, createDistanceQueue push g fuel = Some q /\ waiting q (map (fun i => getEdge (ntypes g) i 0) l) /\
    Permutation l (spread me verts owns es) /\ well_ordered (touching verts es) (border verts es) l.
Proof. intros. eapply queue_ok; eauto. Qed.
Print Assumptions C40_queue.
(** a part with no ghosts has an empty queue, if it has no edge or at least three *)
Theorem C40_serial push me verts vws tys owns g es ws fuel :
  valid_input true verts vws tys -> build_part me true verts vws tys owns = Some g -> nth_error tys 0 = Some (es, ws) ->
  ghosts_of verts tys = [] -> length es = 0 \/ 3 <= length es -> enough verts es fuel -> 2 * length es + 4 <= fuel ->
  exists q, createDistanceQueue push g fuel = Some q /\ waiting q [].
Proof. intros HV HB Ht NG. intros. eapply serial_ok; eauto. intros v Hv. rewrite NG in Hv. destruct Hv. Qed.
Print Assumptions C40_serial.
(** and with one or two edges it writes the depth of edge 2, which does not exist *)
Theorem C40_tiny_refuted push me verts vws tys owns g es ws fuel :
  valid_input true verts vws tys -> build_part me true verts vws tys owns = Some g -> nth_error tys 0 = Some (es, ws) ->
  ghosts_of verts tys = [] -> 1 <= length es <= 2 -> createDistanceQueue push g fuel = None.
Proof. intros. eapply tiny_bad; eauto. Qed.
Print Assumptions C40_tiny_refuted.

(** The chain 1 - 2 - 3 of BfsProps has the border {1, 3}, the component {4} apart; edge 2 is the core of the first. *)
Example chain_queue : (g <- build_part 1 true chain_verts [] chain_tys chain_owns ;; q1 <- createDistanceQueue true g 50 ;; q2 <- createDistanceQueue false g 50 ;; Some (sa_next q1, sa_next q2))
  = Some ([Some 4; Some 1; Some 3], [Some 4; Some 1; Some 3]).
Proof. vm_compute. reflexivity. Qed.
Example chain_queue_hyps : ghosts_of chain_verts chain_tys <> [] /\ 2 * 4 + 4 <= 50.
Proof. split; [vm_compute; discriminate|lia]. Qed.
(** two components of different depth: 1-2-3-4-5 with the ghost 20 at one end, and 6-7 with the ghost 21 *)
Definition two_verts : list Z := [10; 11; 12; 13; 14; 15]%Z.
Definition two_tys : list type_input := [([(1, [20; 10]); (2, [10; 11]); (3, [11; 12]); (4, [12; 13]); (6, [21; 14]); (7, [14; 15]); (8, [15; 21])], [])]%Z.
Definition two_owns : zmap Z := [(20, 0); (21, 2)]%Z.
Example two_queue : (g <- build_part 1 true two_verts [] two_tys two_owns ;; q1 <- createDistanceQueue true g 80 ;; q2 <- createDistanceQueue false g 80 ;; Some (sa_next q1, sa_next q2))
  = Some ([Some 5; Some 7; Some 1], [Some 5; Some 7; Some 1]) /\ border two_verts (fst (nth 0 two_tys ([], []))) = [0; 4; 6] /\ spread 1 two_verts two_owns (fst (nth 0 two_tys ([], []))) = [0; 4; 6].
Proof. vm_compute. auto. Qed.
(** a serial part with four edges, and one with two *)
Definition serial_tys : list type_input := [([(1, [10; 11]); (2, [11; 12]); (3, [12; 13]); (4, [13; 14; 15])], [])]%Z.
Definition tiny_tys : list type_input := [([(1, [10; 11]); (2, [11; 12])], [])]%Z.
Example serial_runs : ghosts_of two_verts serial_tys = [] /\ ghosts_of two_verts tiny_tys = [] /\
  (g <- build_part 0 true two_verts [] serial_tys [] ;; q <- createDistanceQueue true g 80 ;; Some (sa_nsize q)) = Some 0 /\
  (g <- build_part 0 true two_verts [] tiny_tys [] ;; Some (createDistanceQueue true g 80)) = Some None.
Proof. vm_compute. auto. Qed.

(** In a traditional graph whose edges go one way the call reads outside its arrays: a search from a later layer meets the label of an earlier one and looks it up among the sets of the current layer. *)
Definition way_verts : list Z := [10; 11; 12; 13]%Z.
Definition way_tys : list type_input := [([(1, [10; 20]); (2, [10; 11]); (3, [11; 12]); (4, [11; 13])], [])]%Z.
Theorem C40_traditional_refuted : exists verts tys owns g es, valid_input false verts [] tys /\ build_part 1 false verts [] tys owns = Some g /\ nth_error tys 0 = Some (es, []) /\ ghosts_elsewhere 1 verts tys owns /\
  (forall e, In e es -> exists u w, snd e = [u; w] /\ In u verts) /\ forall push, createDistanceQueue push g 80 = None.
Proof.
  destruct (build_part 1 false way_verts [] way_tys [(20, 0)]%Z) as [g|] eqn:Eg; [|vm_compute in Eg; discriminate].
  exists way_verts, way_tys, [(20, 0)]%Z, g. eexists. split.
  { split; [repeat constructor; cbn; intuition lia|]. split; [cbn; lia|]. split; [cbn; lia|]. intros es ws [E|[]]. injection E as <- <-. split; auto. intros _ e He. repeat destruct He as [<-|He]; try reflexivity. destruct He. }
  split; [exact Eg|]. split; [reflexivity|]. split; [|split].
  - intros v Hv. change (ghosts_of way_verts way_tys) with [20]%Z in Hv. destruct Hv as [<-|[]]. vm_compute. discriminate.
  - intros e He. repeat destruct He as [<-|He]; try (eexists; eexists; split; [reflexivity|cbn; auto]). destruct He.
  - intros push. vm_compute in Eg. injection Eg as <-. destruct push; vm_compute; reflexivity.
Qed.
Print Assumptions C40_traditional_refuted.
