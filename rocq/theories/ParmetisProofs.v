(** Lemmas behind ParmetisProps.v: the two passes on one part. *)
From Verif Require Import Base GraphModel CsrProofs ConstructProofs Comm TagModel MigrateModel ParmetisModel ParmetisSpec.

Lemma aset_next A (l : list A) x k : aset (ainit l ++ anew (S k)) (length l) x = Some (ainit (l ++ [x]) ++ anew k).
Proof. rewrite aset_some; [now rewrite snoc_upd|]. rewrite app_length, ainit_length, anew_length. lia. Qed.

Lemma aset_at A (l : list A) x k n : n = length l -> aset (ainit l ++ anew (S k)) n x = Some (ainit (l ++ [x]) ++ anew k).
Proof. intros ->. apply aset_next. Qed.

(** the loop over the local vertices, the i-th with handle i+1 *)
Lemma verts_loop (St : Type) (f : St -> nat * nat -> option St) (P : list Z -> St -> Prop) (V : list Z) s0 :
  P [] s0 ->
  (forall pre v post s, V = pre ++ v :: post -> P pre s -> exists s', f s (length pre, S (length pre)) = Some s' /\ P (pre ++ [v]) s') ->
  exists s', foldM f (combine (seq 0 (length (map S (seq 0 (length V))))) (map S (seq 0 (length V)))) s0 = Some s' /\ P V s'.
Proof.
  intros H0 Hs. rewrite map_length, seq_length.
  assert (G : forall post pre s, V = pre ++ post -> P pre s ->
    exists s', foldM f (combine (seq (length pre) (length post)) (map S (seq (length pre) (length post)))) s = Some s' /\ P V s').
  { induction post as [|v post IH]; intros pre s E HP.
    - cbn. exists s. rewrite app_nil_r in E. subst. auto.
    - cbn [length seq map combine foldM]. destruct (Hs pre v post s E HP) as (s1 & E1 & P1). rewrite E1. cbn [obind].
      specialize (IH (pre ++ [v]) s1). rewrite app_length in IH. cbn [length] in IH. rewrite Nat.add_1_r in IH. apply IH; auto. now rewrite <- app_assoc. }
  apply (G V [] s0); auto.
Qed.

Lemma ins_key_in l h x : In x (ins_key l h) <-> In x l \/ x = h.
Proof.
  unfold ins_key. destruct (existsb (Nat.eqb h) l) eqn:E.
  - apply existsb_exists in E as (y & Hy & E). apply Nat.eqb_eq in E. subst y. split; [auto|]. intros [H| ->]; auto.
  - rewrite in_app_iff. cbn. intuition congruence.
Qed.
Lemma ins_key_nodup l h : NoDup l -> NoDup (ins_key l h).
Proof.
  intros ND. unfold ins_key. destruct (existsb (Nat.eqb h) l) eqn:E; auto. apply NoDup_app_iff. split; auto. split; [repeat constructor; auto|].
  intros x Hx [<-|[]]. assert (existsb (Nat.eqb h) l = true); [|congruence]. apply existsb_exists. exists h. split; auto. apply Nat.eqb_refl.
Qed.
Lemma ins_part_in l h x : In x (ins_part l h) <-> In x l \/ x = h.
Proof.
  unfold ins_part. destruct (existsb (Z.eqb h) l) eqn:E.
  - apply existsb_exists in E as (y & Hy & E). apply Z.eqb_eq in E. subst y. split; [auto|]. intros [H| ->]; auto.
  - rewrite in_app_iff. cbn. intuition congruence.
Qed.

(** the pin loop of the first pass *)
Lemma around_spec g isL me h xs : (forall x, In x xs -> x <> h -> exists o, owner g x = Some o) -> forall nb res, NoDup nb ->
  exists nb' res', foldM (around1 g isL me h) xs (nb, res) = Some (nb', res') /\ NoDup nb' /\
  (forall x, In x nb' <-> In x nb \/ (In x xs /\ x <> h /\ (isL = false \/ owner g x = Some me))) /\
  (forall o, In o res' <-> In o res \/ (isL = false /\ exists x, In x xs /\ x <> h /\ owner g x = Some o)).
Proof.
  induction xs as [|x xs IH]; intros Ho nb res ND; cbn [foldM].
  - exists nb, res. split; auto. split; auto. split; intros y; (split; [auto|]); [intros [H|([] & _)]; auto|intros [H|(_ & z & [] & _)]; auto].
  - unfold around1 at 1. destruct (Nat.eqb_spec x h) as [->|N]; cbn [obind].
    + destruct (IH (fun y Hy => Ho y (or_intror Hy)) nb res ND) as (nb' & res' & E & ND' & I1 & I2). exists nb', res'. split; auto. split; auto. split; intros y.
      * rewrite I1. cbn [In]. intuition congruence.
      * rewrite I2. split; (intros [H|(HL & z & Hz & Q)]; [auto|right; split; auto; exists z; split; [cbn in *|auto]]); [auto|]. destruct Hz as [<-|Hz]; [exfalso; tauto|auto].
    + destruct (Ho x (or_introl eq_refl) N) as (o & Eo). rewrite Eo. cbn [obind fst snd].
      set (nb1 := if negb isL || Z.eqb o me then ins_key nb x else nb). set (res1 := if negb isL then ins_part res o else res).
      assert (ND1 : NoDup nb1) by (unfold nb1; destruct (_ || _); auto using ins_key_nodup).
      destruct (IH (fun y Hy => Ho y (or_intror Hy)) nb1 res1 ND1) as (nb' & res' & E & ND' & I1 & I2). exists nb', res'. split; auto. split; auto.
      assert (B : negb isL || Z.eqb o me = true <-> (isL = false \/ owner g x = Some me)).
      { rewrite orb_true_iff, negb_true_iff, Z.eqb_eq, Eo. intuition congruence. }
      split; intros y.
      * rewrite I1. unfold nb1. destruct (negb isL || Z.eqb o me); [rewrite ins_key_in|]; cbn [In].
        -- split.
           ++ intros [[H| ->]|H]; [auto| |right; tauto]. right. split; auto. split; auto. apply B. reflexivity.
           ++ intros [H|([<-|H] & Q)]; auto.
        -- split; [intros [H|H]; [auto|right; tauto]|]. intros [H|([<-|H] & Q)]; auto. exfalso. destruct Q as (_ & Q). apply B in Q. discriminate.
      * rewrite I2. unfold res1. destruct isL; cbn [negb]; [|rewrite ins_part_in]; cbn [In].
        -- intuition discriminate.
        -- split.
           ++ intros [[H| ->]|(_ & z & Hz & Q)]; [auto| |right; split; eauto]. right. split; auto. exists x. auto.
           ++ intros [H|(_ & z & [<-|Hz] & Q)]; [auto| |right; split; eauto]. left. right. destruct Q as (_ & Q). congruence.
Qed.

(** accumulation of weights *)
Definition wsum (h : nat) (ps : list (nat * Z)) : Z := zsum (map snd (filter (fun p => fst p =? h) ps)).
Lemma add_weight_keys m h w : (forall k, In k (map fst (add_weight m h w)) <-> In k (map fst m) \/ k = h) /\ (NoDup (map fst m) -> NoDup (map fst (add_weight m h w))).
Proof.
  induction m as [|[k x] m (IH1 & IH2)]; cbn [add_weight map fst].
  - split; [intros k; cbn; intuition|]. intros _. repeat constructor; auto.
  - destruct (Nat.eqb_spec k h) as [->|N]; cbn [map fst].
    + split; auto. intros k. cbn [In]. intuition.
    + split. * intros k0. cbn [In]. rewrite IH1. intuition.
      * intros ND. inversion ND; subst. constructor; auto. rewrite IH1. intros [H|H]; [contradiction|congruence].
Qed.
Lemma add_weight_in m h w k x : NoDup (map fst m) -> In (k, x) (add_weight m h w) ->
  (k <> h /\ In (k, x) m) \/ (k = h /\ ((~ In h (map fst m) /\ x = w) \/ exists y, In (h, y) m /\ x = (y + w)%Z)).
Proof.
  induction m as [|[k0 x0] m IH]; intros ND H; cbn [add_weight] in H.
  - destruct H as [H|[]]. inversion H; subst. right. split; auto.
  - inversion ND; subst. destruct (Nat.eqb_spec k0 h) as [->|N].
    + destruct H as [H|H].
      * inversion H; subst. right. split; auto. right. exists x0. split; [left|]; auto.
      * left. split; [|right; auto]. intros ->. apply H2. apply in_map_iff. exists (h, x). auto.
    + destruct H as [H|H].
      * inversion H; subst. left. split; auto. left; auto.
      * destruct (IH H3 H) as [(A & B)|(A & [(B & C)|(y & B & C)])].
        -- left. split; auto. right; auto.
        -- right. split; auto. left. split; auto. cbn [map fst]. intros [X|X]; [congruence|contradiction].
        -- right. split; auto. right. exists y. split; auto. right; auto.
Qed.
Lemma wsum_snoc h ps p : wsum h (ps ++ [p]) = (wsum h ps + (if (fst p =? h)%nat then snd p else 0))%Z.
Proof.
  unfold wsum. rewrite filter_app, map_app, zsum_app. cbn [filter]. destruct (fst p =? h); cbn [map zsum fold_right]; lia.
Qed.
Lemma wsum_none h ps : ~ In h (map fst ps) -> wsum h ps = 0%Z.
Proof.
  induction ps as [|p ps IH]; intros H; [reflexivity|]. cbn [map In] in H. unfold wsum in *. cbn [filter]. destruct (Nat.eqb_spec (fst p) h); [tauto|]. apply IH. tauto.
Qed.
Definition add_all (ps : list (nat * Z)) (m : list (nat * Z)) : list (nat * Z) := fold_left (fun m p => add_weight m (fst p) (snd p)) ps m.
Lemma add_all_snoc ps p m : add_all (ps ++ [p]) m = add_weight (add_all ps m) (fst p) (snd p).
Proof. unfold add_all. now rewrite fold_left_app. Qed.
Lemma add_all_spec ps : NoDup (map fst (add_all ps [])) /\ (forall k, In k (map fst (add_all ps [])) <-> In k (map fst ps)) /\
  forall k x, In (k, x) (add_all ps []) -> x = wsum k ps.
Proof.
  induction ps as [|p ps IH] using rev_ind; [cbn; split; [constructor|]; split; [tauto|intros k x []]|].
  destruct IH as (I1 & I2 & I3). rewrite add_all_snoc. destruct (add_weight_keys (add_all ps []) (fst p) (snd p)) as (K1 & K2).
  split; auto. split.
  - intros k. rewrite K1, I2, map_app, in_app_iff. cbn. intuition.
  - intros k x H. rewrite wsum_snoc. apply add_weight_in in H; auto. destruct H as [(N & H)|(-> & [(N & ->)|(y & H & ->)])].
    + apply I3 in H. destruct (Nat.eqb_spec (fst p) k); [congruence|lia].
    + rewrite Nat.eqb_refl. rewrite I2 in N. rewrite (wsum_none _ _ N). lia.
    + apply I3 in H. rewrite Nat.eqb_refl. lia.
Qed.

(** the numbers received for the ghosts *)
Lemma ghost_numbers_find arrived w x : (exists p, In (p, (w, x)) arrived) -> (forall p y, In (p, (w, y)) arrived -> y = x) -> zfind (ghost_numbers arrived) w = Some x.
Proof.
  unfold ghost_numbers.
  assert (G : forall l m, (forall p y, In (p, (w, y)) l -> y = x) -> ((exists p, In (p, (w, x)) l) \/ zfind m w = Some x) -> zfind (fold_left (fun (m : zmap Z) (r : Z * (Z * Z)) => zset m (fst (snd r)) (snd (snd r))) l m) w = Some x).
  { induction l as [|[p [k y]] l IH]; intros m Hu He; cbn [fold_left].
    - destruct He as [(p & [])|He]; auto.
    - apply IH; [intros; eapply Hu; right; eauto|]. cbn [fst snd]. destruct (Z.eq_dec k w) as [->|N].
      + right. rewrite zfind_zset_eq. f_equal. apply (Hu p). left; auto.
      + rewrite zfind_zset_neq by auto. destruct He as [(q & [X|X])|X]; [inversion X; congruence|left; eauto|auto]. }
  intros He Hu. apply G; auto.
Qed.

(** ** One part *)
(** [nb v]: the pins met around v (other than v) with the weight of the edge, by global id; [hd w]: the handle of w here;
    [ow w]: what owner() answers for it *)
Record view (t fuel : nat) (g : graph) (me : Z) (V vws : list Z) (nb : Z -> list (Z * Z)) (hd : Z -> nat) (ow : Z -> Z) : Prop := {
  v_self : self g = me;
  v_n : nlv g = length V;
  v_nd : NoDup V;
  v_verts : all_verts g fuel = Some (map S (seq 0 (length V)));
  v_own : forall v i, nth_error V i = Some v -> vgid g (S i) = Some v /\ hd v = S i;
  v_wt : forall v i, nth_error V i = Some v -> exists w, nth_error vws i = Some w /\ vweight g (S i) = Some w;
  v_wl : length vws = length V;
  v_nb : forall v w x, In v V -> In (w, x) (nb v) -> w <> v /\ vgid g (hd w) = Some w /\ hd w <> 0 /\ owner g (hd w) = Some (ow w);
  v_p1 : forall v i, nth_error V i = Some v -> exists hs, pins_around g t fuel (S i) = Some hs /\
     forall h, (In h hs /\ h <> S i) <-> exists w, In w (map fst (nb v)) /\ h = hd w;
  v_p2 : forall v i, nth_error V i = Some v -> exists it, adj_begin g (S i) t = Some it /\
     forall m, weigh g (S i) fuel it m = Some (add_all (map (fun p => (hd (fst p), snd p)) (nb v)) m)
}.

Section One.
Variables (t fuel : nat) (g : graph) (me : Z) (V vws : list Z) (nb : Z -> list (Z * Z)) (hd : Z -> nat) (ow : Z -> Z).
Hypothesis HV : view t fuel g me V vws nb hd ow.
Variables (isL : bool) (iself : Z) (dist : list Z) (base : Z).
Hypothesis Hme : (0 <= me)%Z.
Hypothesis Hbase : nth_error dist (Z.to_nat me) = Some base.
Notation s := (mkPM g iself).

(** the neighbours that are kept, without repetition *)
Definition kept (w : Z) : bool := negb isL || Z.eqb (ow w) iself.
Definition nbs (v : Z) : list Z := nodup Z.eq_dec (filter kept (map fst (nb v))).
Definition wgt (v w : Z) : Z := zsum (map snd (filter (fun p => Z.eqb (fst p) w) (nb v))).

Lemma in_nbs v w : In w (nbs v) <-> In w (map fst (nb v)) /\ (isL = false \/ ow w = iself).
Proof. unfold nbs, kept. rewrite nodup_In, filter_In, orb_true_iff, negb_true_iff, Z.eqb_eq. reflexivity. Qed.
Lemma nb_in v w : In v V -> In w (map fst (nb v)) -> w <> v /\ vgid g (hd w) = Some w /\ hd w <> 0 /\ owner g (hd w) = Some (ow w).
Proof. intros Hv Hw. apply in_map_iff in Hw as ([w' x] & <- & Hw). apply (v_nb _ _ _ _ _ _ _ _ _ HV v w' x Hv Hw). Qed.
Lemma hd_inj v w w' : In v V -> In w (map fst (nb v)) -> In w' (map fst (nb v)) -> hd w = hd w' -> w = w'.
Proof. intros Hv H H' E. destruct (nb_in v w Hv H) as (_ & A & _). destruct (nb_in v w' Hv H') as (_ & B & _). congruence. Qed.
Lemma map_hd_nodup v l : In v V -> NoDup l -> (forall w, In w l -> In w (map fst (nb v))) -> NoDup (map hd l).
Proof.
  intros Hv. induction l as [|w l IH]; intros ND H; [constructor|]. inversion ND; subst. cbn [map]. constructor.
  - intros X. apply in_map_iff in X as (w' & E & Hw'). apply H2. assert (w' = w); [|now subst]. eapply hd_inj; eauto. apply H; right; auto. apply H; left; auto.
  - apply IH; auto. intros; apply H; right; auto.
Qed.

(** the records the part packs *)
Definition announces (m : Z * (Z * Z)) : Prop :=
  isL = false /\ exists i v w, nth_error V i = Some v /\ snd m = (v, (base + Z.of_nat i)%Z) /\ In w (map fst (nb v)) /\ ow w = fst m /\ fst m <> me.
Lemma pass1_ok : exists p, run_pass1 isL t fuel dist s = Some p /\
  p1_gids p = ainit (map (fun i => (base + Z.of_nat i)%Z) (seq 0 (length V))) /\
  p1_degs p = nsum (map (fun v => length (nbs v)) V) /\
  forall m, In m (p1_msgs p) <-> announces m.
Proof.
  unfold run_pass1. cbn [pm_g]. rewrite (v_verts _ _ _ _ _ _ _ _ _ HV). cbn [obind].
  destruct (verts_loop _ (pass1_vtx isL t fuel dist s) (fun pre p =>
     p1_gids p = ainit (map (fun i => (base + Z.of_nat i)%Z) (seq 0 (length pre))) ++ anew (length V - length pre) /\
     p1_degs p = nsum (map (fun v => length (nbs v)) pre) /\
     forall m, In m (p1_msgs p) <-> (isL = false /\ exists i v w, nth_error pre i = Some v /\ snd m = (v, (base + Z.of_nat i)%Z) /\ In w (map fst (nb v)) /\ ow w = fst m /\ fst m <> me))
     V (mkP1 (anew (nlv g)) 0 [])) as (p & E & P1 & P2 & P3).
  - cbn [p1_gids p1_degs p1_msgs length]. rewrite (v_n _ _ _ _ _ _ _ _ _ HV), Nat.sub_0_r. split; [reflexivity|]. split; [reflexivity|].
    intros m. split; [intros []|]. intros (_ & i & v & w & Hi & _). destruct i; discriminate.
  - intros pre v post [gd dg ms] EV (I1 & I2 & I3). cbn [p1_gids p1_degs p1_msgs] in *.
    assert (Hv : nth_error V (length pre) = Some v) by (rewrite EV, nth_error_app2, Nat.sub_diag by lia; reflexivity).
    assert (HIn : In v V) by (eapply nth_error_In; eauto).
    unfold pass1_vtx. cbn [pm_g pm_self]. rewrite (v_self _ _ _ _ _ _ _ _ _ HV). destruct (Z.ltb_spec me 0); [lia|]. rewrite Hbase. cbn [obind p1_gids].
    assert (EL : length V - length pre = S (length post)) by (rewrite EV, app_length; cbn [length]; lia).
    rewrite I1, EL.
    rewrite aset_at by now rewrite map_length, seq_length. cbn [obind]. destruct (v_p1 _ _ _ _ _ _ _ _ _ HV v (length pre) Hv) as (hs & Eh & Hh). rewrite Eh. cbn [obind].
    destruct (around_spec g isL iself (S (length pre)) hs) with (nb := @nil nat) (res := @nil Z) as (nb' & res' & Ef & ND & N1 & N2).
    { intros x Hx Nx. destruct (proj1 (Hh x) (conj Hx Nx)) as (w & Hw & ->). destruct (nb_in v w HIn Hw) as (_ & _ & _ & O). eauto. } { constructor. }
    rewrite Ef. cbn [obind]. rewrite (proj1 (v_own _ _ _ _ _ _ _ _ _ HV v _ Hv)). cbn [obind]. eexists. split; [reflexivity|]. cbn [p1_gids p1_degs p1_msgs].
    split; [|split].
    + rewrite app_length. cbn [length]. rewrite Nat.add_1_r, seq_S, map_app. cbn [map Nat.add]. f_equal. f_equal. lia.
    + rewrite map_app, nsum_app. cbn [map nsum fold_right]. rewrite I2, Nat.add_0_r. f_equal.
      assert (PM : Permutation nb' (map hd (nbs v))).
      { apply NoDup_Permutation; auto.
        - apply (map_hd_nodup v); auto. apply NoDup_nodup. intros w Hw. apply in_nbs in Hw. tauto.
        - intros x. rewrite N1, in_map_iff. split.
          + intros [[]|(Hx & Nx & Q)]. destruct (proj1 (Hh x) (conj Hx Nx)) as (w & Hw & ->). exists w. split; auto. apply in_nbs. split; auto.
            destruct (nb_in v w HIn Hw) as (_ & _ & _ & O). destruct Q as [Q|Q]; [auto|right; congruence].
          + intros (w & <- & Hw). apply in_nbs in Hw as (Hw & Q). right. destruct (proj2 (Hh (hd w)) (ex_intro _ w (conj Hw eq_refl))) as (A & B). split; auto. split; auto.
            destruct (nb_in v w HIn Hw) as (_ & _ & _ & O). destruct Q as [Q|Q]; [auto|right; congruence]. }
      rewrite (Permutation_length PM). apply map_length.
    + intros m. rewrite in_app_iff, I3, in_map_iff. split.
      * intros [(HL & i & v0 & w & A & B)|(q & <- & Hq)].
        -- split; auto. exists i, v0, w. split; auto. rewrite nth_error_app1; auto. apply nth_error_Some. congruence.
        -- apply filter_In in Hq as (Hq & Nq). apply negb_true_iff, Z.eqb_neq in Nq. apply N2 in Hq as [[]|(HL & x & Hx & Nx & O)]. split; auto.
           destruct (proj1 (Hh x) (conj Hx Nx)) as (w & Hw & ->). exists (length pre), v, w. cbn [fst snd]. split; [rewrite nth_error_app2, Nat.sub_diag by lia; reflexivity|].
           split; auto. split; auto. split; auto. destruct (nb_in v w HIn Hw) as (_ & _ & _ & O'). congruence.
      * intros (HL & i & v0 & w & A & B & C & D & F). destruct (Nat.lt_ge_cases i (length pre)) as [L|L].
        -- left. split; auto. exists i, v0, w. rewrite nth_error_app1 in A by auto. auto.
        -- right. assert (i = length pre). { assert (i < length (pre ++ [v])) by (apply nth_error_Some; congruence). rewrite app_length in H0. cbn in H0. lia. }
           subst i. rewrite nth_error_app2, Nat.sub_diag in A by lia. cbn in A. inversion A; subst v0. exists (fst m). destruct m as [q r]. cbn [fst snd] in *. subst r. split; auto.
           apply filter_In. split; [|apply negb_true_iff, Z.eqb_neq; auto]. apply N2. right. split; auto. exists (hd w).
           destruct (proj2 (Hh (hd w)) (ex_intro _ w (conj C eq_refl))) as (A1 & A2). split; auto. split; auto. destruct (nb_in v w HIn C) as (_ & _ & _ & O'). congruence.
  - exists p. split; [exact E|]. rewrite Nat.sub_diag in P1. unfold anew in P1. cbn [repeat] in P1. rewrite app_nil_r in P1. split; auto.
Qed.

(** ** second pass *)
Variable num : Z -> Z.
Variable gh : zmap Z.
Hypothesis Hnum : forall i v, nth_error V i = Some v -> num v = (base + Z.of_nat i)%Z.
Hypothesis Hloc : forall v w, In v V -> In w (map fst (nb v)) -> ow w = iself -> In w V.
Hypothesis Hgh : forall v w, In v V -> In w (map fst (nb v)) -> isL = false -> ow w <> iself -> zfind gh w = Some (num w).
Variable ord : list (nat * Z) -> list (nat * Z).
Hypothesis Hord : forall l, Permutation (ord l) l.
Notation gids := (ainit (map (fun i => (base + Z.of_nat i)%Z) (seq 0 (length V)))).

Definition row_ok (v : Z) (row : list (Z * Z)) : Prop :=
  exists l, Permutation l (nbs v) /\ row = map (fun w => (num w, wgt v w)) l.

Lemma wsum_hd v w : In v V -> In w (map fst (nb v)) -> wsum (hd w) (map (fun p => (hd (fst p), snd p)) (nb v)) = wgt v w.
Proof.
  intros Hv Hw. unfold wsum, wgt.
  assert (G : forall l, (forall p, In p l -> In p (nb v)) -> map snd (filter (fun p : nat * Z => fst p =? hd w) (map (fun p => (hd (fst p), snd p)) l)) = map snd (filter (fun p => Z.eqb (fst p) w) l)).
  { induction l as [|p l IH]; intros Hl; auto. cbn [map filter fst]. destruct (Nat.eqb_spec (hd (fst p)) (hd w)) as [E|E].
    - assert (fst p = w). { eapply hd_inj; eauto. apply in_map. apply Hl. left; auto. } rewrite H, Z.eqb_refl. cbn [map snd]. f_equal. apply IH. intros; apply Hl; right; auto.
    - destruct (Z.eqb_spec (fst p) w); [subst; congruence|]. apply IH. intros; apply Hl; right; auto. }
  rewrite G; auto.
Qed.

(** the neighbour loop writes the kept neighbours *)
Lemma put_loop v : In v V -> forall L, (forall h x, In (h, x) L -> exists w, In w (map fst (nb v)) /\ h = hd w /\ x = wgt v w) ->
  forall A B k, length A = length B -> length (filter (fun p => match owner g (fst p) with Some o => negb isL || Z.eqb o iself | None => false end) L) <= k ->
  exists l, Permutation (map hd l) (map fst (filter (fun p => match owner g (fst p) with Some o => negb isL || Z.eqb o iself | None => false end) L)) /\
    (forall w, In w l -> In w (nbs v)) /\
    foldM (put_nb g isL iself gids gh) L (length A, ainit A ++ anew k, ainit B ++ anew k) =
      Some (length A + length l, ainit (A ++ map num l) ++ anew (k - length l), ainit (B ++ map (wgt v) l) ++ anew (k - length l)).
Proof.
  intros Hv. induction L as [|[h x] L IH]; intros HL A B k LAB Hk.
  - exists []. cbn [filter map length foldM]. split; auto. split; [intros w []|]. rewrite Nat.add_0_r, Nat.sub_0_r, !app_nil_r. auto.
  - destruct (HL h x (or_introl eq_refl)) as (w & Hw & -> & ->). destruct (nb_in v w Hv Hw) as (Nw & Gw & N0 & Ow).
    cbn [foldM]. unfold put_nb at 1. cbn [fst snd]. rewrite Ow. cbn [obind]. cbn [filter fst] in Hk |- *. rewrite Ow in Hk |- *.
    destruct (Z.eqb_spec (ow w) iself) as [E|E].
    + rewrite orb_true_r in Hk |- *. cbn [length map] in Hk |- *.
      assert (HwV : In w V) by (eapply Hloc; eauto). destruct (In_nth_error _ _ HwV) as (i & Hi). destruct (v_own _ _ _ _ _ _ _ _ _ HV w i Hi) as (_ & Eh). rewrite Eh. cbn [vlid obind].
      assert (Li : i < length V) by (apply nth_error_Some; congruence).
      rewrite aget_ainit, nth_error_map, nth_error_seq by auto. cbn [option_map obind Nat.add]. rewrite <- (Hnum i w Hi).
      destruct k as [|k]; [lia|]. rewrite aset_next. cbn [obind]. rewrite (aset_at _ B) by exact LAB. cbn [obind].
      destruct (IH (fun h' x' H' => HL h' x' (or_intror H')) (A ++ [num w]) (B ++ [wgt v w]) k) as (l & PM & Hl & EF).
      { rewrite !app_length. cbn [length]. lia. } { lia. }
      exists (w :: l). cbn [map length]. rewrite Eh. split; [constructor; exact PM|]. split; [intros w' [<-|H']; [apply in_nbs; auto|auto]|].
      rewrite app_length in EF. cbn [length] in EF. etransitivity; [exact EF|]. rewrite <- !app_assoc. cbn [app Nat.sub]. do 2 f_equal. f_equal. lia.
    + destruct isL eqn:EL; cbn [negb orb] in Hk |- *.
      * destruct (IH (fun h' x' H' => HL h' x' (or_intror H')) A B k LAB Hk) as (l & PM & Hl & EF). exists l. split; auto.
      * rewrite Gw. cbn [obind]. rewrite (Hgh v w Hv Hw eq_refl E). destruct k as [|k]; [cbn in Hk; lia|]. rewrite aset_next. cbn [obind]. rewrite (aset_at _ B) by exact LAB. cbn [obind].
        destruct (IH (fun h' x' H' => HL h' x' (or_intror H')) (A ++ [num w]) (B ++ [wgt v w]) k) as (l & PM & Hl & EF).
        { rewrite !app_length. cbn [length]. lia. } { exact (le_S_n _ _ Hk). }
        exists (w :: l). cbn [map length]. split; [constructor; exact PM|]. split; [intros w' [<-|H']; [apply in_nbs; auto|auto]|].
        rewrite app_length in EF. cbn [length] in EF. etransitivity; [exact EF|]. rewrite <- !app_assoc. cbn [app Nat.sub]. do 2 f_equal. f_equal. lia.
Qed.

Lemma row_starts_snoc rows row : row_starts (rows ++ [row]) = row_starts rows ++ [Z.of_nat (length (concat (rows ++ [row])))].
Proof.
  unfold row_starts. rewrite app_length. cbn [length]. rewrite Nat.add_1_r with (n := length rows + 1), seq_S, map_app. f_equal.
  - apply map_ext_in. intros k Hk. apply in_seq in Hk. rewrite firstn_app. replace (k - length rows) with 0 by lia. cbn [firstn]. now rewrite app_nil_r.
  - cbn [map Nat.add]. f_equal. rewrite firstn_all2 by (rewrite app_length; cbn; lia). reflexivity.
Qed.
Lemma row_len v row : row_ok v row -> length row = length (nbs v).
Proof. intros (l & P & ->). rewrite map_length. apply (Permutation_length P). Qed.

Lemma pass2_ok p1 arrived : p1_gids p1 = gids -> p1_degs p1 = nsum (map (fun v => length (nbs v)) V) -> ghost_numbers arrived = gh ->
  exists c rows, run_pass2 isL t fuel ord s p1 arrived = Some c /\ is_csr rows c /\ Forall2 row_ok V rows /\ c_vwgts c = ainit vws.
Proof.
  intros E1 E2 E3. unfold run_pass2. cbn [pm_g]. rewrite (v_verts _ _ _ _ _ _ _ _ _ HV). cbn [obind].
  rewrite (v_n _ _ _ _ _ _ _ _ _ HV). rewrite E1, E2, E3. set (D := nsum (map (fun v => length (nbs v)) V)).
  assert (X0 : aset (anew (length V + 1)) 0 0%Z = Some (ainit [0%Z] ++ anew (length V))).
  { rewrite Nat.add_1_r. apply (aset_next _ (@nil Z) 0%Z (length V)). }
  rewrite X0. cbn [obind].
  destruct (verts_loop _ (pass2_vtx isL t fuel ord s gids gh) (fun pre a => exists rows, Forall2 row_ok pre rows /\ fst a = length (concat rows) /\
      c_xadj (snd a) = ainit (row_starts rows) ++ anew (length V - length pre) /\
      c_adjncy (snd a) = ainit (map fst (concat rows)) ++ anew (D - length (concat rows)) /\
      c_ewgts (snd a) = ainit (map snd (concat rows)) ++ anew (D - length (concat rows)) /\
      c_vwgts (snd a) = ainit (firstn (length pre) vws) ++ anew (length V - length pre)) V (0, mkCsr (ainit [0%Z] ++ anew (length V)) (anew D) (anew (length V)) (anew D)))
    as ((d & c) & E & rows & R1 & R2 & R3 & R4 & R5 & R6).
  - exists []. split; [constructor|]. cbn [fst snd c_xadj c_adjncy c_ewgts c_vwgts length concat map firstn]. rewrite !Nat.sub_0_r. auto.
  - intros pre v post [d c] EV (rows & R1 & R2 & R3 & R4 & R5 & R6). cbn [fst snd] in *. subst d.
    assert (Hv : nth_error V (length pre) = Some v) by (rewrite EV, nth_error_app2, Nat.sub_diag by lia; reflexivity).
    assert (HIn : In v V) by (eapply nth_error_In; eauto).
    assert (EL : length V - length pre = S (length post)) by (rewrite EV, app_length; cbn [length]; lia).
    assert (EL2 : length V - length (pre ++ [v]) = length post) by (rewrite EV, !app_length; cbn [length]; lia).
    assert (LR : length rows = length pre) by (symmetry; eapply Forall2_len; eauto).
    unfold pass2_vtx. cbn [pm_g pm_self]. destruct (v_wt _ _ _ _ _ _ _ _ _ HV v _ Hv) as (w & Ew & Eww). rewrite Eww. cbn [obind].
    assert (Lw : length (firstn (length pre) vws) = length pre).
    { rewrite firstn_length. assert (length pre < length vws) by (apply nth_error_Some; congruence). lia. }
    rewrite R6, EL. rewrite aset_at by now rewrite Lw. cbn [obind].
    destruct (v_p2 _ _ _ _ _ _ _ _ _ HV v _ Hv) as (it & Eit & Hw). rewrite Eit. cbn [obind]. rewrite Hw. cbn [obind].
    set (M := add_all (map (fun p => (hd (fst p), snd p)) (nb v)) []).
    destruct (add_all_spec (map (fun p => (hd (fst p), snd p)) (nb v))) as (M1 & M2 & M3). fold M in M1, M2, M3.
    assert (MH : forall h x, In (h, x) M -> exists w, In w (map fst (nb v)) /\ h = hd w /\ x = wgt v w).
    { intros h x HM. assert (In h (map fst M)) as Hh by (apply in_map_iff; exists (h, x); auto). apply M2 in Hh. rewrite map_map in Hh. cbn [fst] in Hh.
      apply in_map_iff in Hh as (p & <- & Hp). exists (fst p). assert (In (fst p) (map fst (nb v))) by (now apply in_map). split; auto. split; auto.
      rewrite (M3 _ _ HM). apply wsum_hd; auto. }
    set (F := fun p : nat * Z => match owner g (fst p) with Some o => negb isL || Z.eqb o iself | None => false end).
    assert (PF : Permutation (map fst (filter F (ord M))) (map hd (nbs v))).
    { apply NoDup_Permutation.
      - assert (NM : NoDup (map fst (ord M))) by (eapply Permutation_NoDup; [apply Permutation_map, Permutation_sym, Hord|exact M1]).
        clear - NM. induction (ord M) as [|p l IH]; [constructor|]. cbn [map filter] in *. inversion NM; subst. destruct (F p); auto. cbn [map]. constructor; auto.
        intros X. apply H1. apply in_map_iff in X as (q & <- & Hq). apply filter_In in Hq. apply in_map. tauto.
      - apply (map_hd_nodup v); auto. apply NoDup_nodup. intros u Hu. apply in_nbs in Hu. tauto.
      - intros h. rewrite !in_map_iff. split.
        + intros ([h' x] & <- & Hp). apply filter_In in Hp as (Hp & HF). apply (Permutation_in _ (Hord M)) in Hp. destruct (MH _ _ Hp) as (u & Hu & -> & _). exists u. split; auto.
          apply in_nbs. split; auto. destruct (nb_in v u HIn Hu) as (_ & _ & _ & Ou). unfold F in HF. cbn [fst] in HF. rewrite Ou in HF. apply orb_true_iff in HF. rewrite negb_true_iff, Z.eqb_eq in HF. exact HF.
        + intros (u & <- & Hu). apply in_nbs in Hu as (Hu & Q). assert (In (hd u) (map fst M)) as HM. { apply M2. rewrite map_map. cbn [fst]. apply in_map_iff in Hu as (p & <- & Hp). apply in_map_iff. exists p. auto. }
          apply in_map_iff in HM as ([h x] & Eh & HM). cbn [fst] in Eh. subst h. exists (hd u, x). split; auto. apply filter_In. split; [eapply Permutation_in; [apply Permutation_sym, Hord|exact HM]|].
          destruct (nb_in v u HIn Hu) as (_ & _ & _ & Ou). unfold F. cbn [fst]. rewrite Ou. apply orb_true_iff. rewrite negb_true_iff, Z.eqb_eq. exact Q. }
    assert (Cap : length (concat rows) + length (nbs v) <= D).
    { assert (LC : length (concat rows) = nsum (map (fun v => length (nbs v)) pre)).
      { clear - R1. induction R1; auto. cbn [concat map nsum fold_right]. rewrite app_length, IHR1. f_equal. eapply row_len; eauto. }
      rewrite LC. unfold D. rewrite EV, map_app, nsum_app. cbn [map nsum fold_right]. lia. }
    assert (LF : length (filter F (ord M)) = length (nbs v)) by (rewrite <- (map_length fst), (Permutation_length PF), map_length; auto).
    destruct (put_loop v HIn (ord M)) with (A := map fst (concat rows)) (B := map snd (concat rows)) (k := D - length (concat rows)) as (l & PL & HL & EF).
    { intros h x Hx. apply MH. eapply Permutation_in; [apply Hord|exact Hx]. } { now rewrite !map_length. } { fold F. rewrite LF. lia. }
    fold F in PL. rewrite map_length in EF. rewrite R4, R5. match type of EF with _ = ?R => match goal with |- context [foldM (put_nb g isL iself gids gh) ?L ?x] => replace (foldM (put_nb g isL iself gids gh) L x) with R by (symmetry; exact EF) end end. cbn [obind].
    assert (PN : Permutation l (nbs v)).
    { apply NoDup_Permutation_bis.
      - eapply NoDup_map_inv. eapply Permutation_NoDup; [apply Permutation_sym, PL|]. eapply Permutation_NoDup; [apply Permutation_sym, PF|].
        apply (map_hd_nodup v); auto. apply NoDup_nodup. intros u Hu. apply in_nbs in Hu. tauto.
      - rewrite <- (map_length hd l), (Permutation_length PL), map_length, LF. lia.
      - exact HL. }
    rewrite R3, EL. set (row := map (fun w => (num w, wgt v w)) l).
    assert (LS : length (row_starts rows) = length pre + 1) by (unfold row_starts; rewrite map_length, seq_length, LR; auto).
    rewrite aset_at by now rewrite LS. cbn [obind]. eexists. split; [reflexivity|]. exists (rows ++ [row]). cbn [fst snd c_xadj c_adjncy c_ewgts c_vwgts].
    assert (CR : concat (rows ++ [row]) = concat rows ++ row) by (rewrite concat_app; cbn [concat]; now rewrite app_nil_r).
    assert (Lrow : length row = length l) by apply map_length.
    split; [apply Forall2_app; auto; constructor; [|constructor]; exists l; auto|]. split; [rewrite CR, app_length; lia|].
    split; [rewrite row_starts_snoc, EL2, CR, app_length, Lrow; reflexivity|].
    split; [rewrite CR, map_app, app_length, Lrow; unfold row; rewrite map_map; cbn [fst]; f_equal; f_equal; lia|].
    split; [rewrite CR, map_app, app_length, Lrow; unfold row; rewrite map_map; cbn [snd]; f_equal; f_equal; lia|].
    rewrite EL2, app_length. cbn [length]. rewrite Nat.add_1_r. f_equal. f_equal.
    clear - Ew. revert vws Ew. generalize (length pre). induction n as [|n IH]; intros [|a l] E; cbn in E; try discriminate; cbn [firstn app]; [inversion E; auto|f_equal; apply (IH l E)].
  - rewrite E. cbn [obind snd fst] in *. exists c, rows. split; auto.
    assert (LC : length (concat rows) = D).
    { clear - R1. unfold D. induction R1; auto. cbn [concat map nsum fold_right]. rewrite app_length, IHR1. f_equal. eapply row_len; eauto. }
    rewrite LC, !Nat.sub_diag in *. unfold anew in *. cbn [repeat] in *. rewrite !app_nil_r in *. split; [split; auto|]. split; auto.
    rewrite R6. f_equal. apply firstn_all2. rewrite (v_wl _ _ _ _ _ _ _ _ _ HV). lia.
Qed.
End One.
