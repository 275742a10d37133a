(** Lemmas behind SidesProps.v. *)
From Verif Require Import Base GraphModel GraphSpec GraphTop GraphTop2 AccessProofs Comm TagModel ConnModel MetricsModel MetricsProofs MigrateSpec.
From Coq Require Import Lqa.
Local Open Scope nat_scope.

(** ** maps with one entry per key *)
Lemma zfind_zput A (m : zmap A) k x k' : zfind (zput m k x) k' = if Z.eqb k k' then Some x else zfind m k'.
Proof.
  induction m as [|[a y] m IH]; cbn [zput zfind].
  - rewrite (Z.eqb_sym k'). reflexivity.
  - destruct (Z.eqb_spec a k) as [->|N]; cbn [zfind].
    + rewrite (Z.eqb_sym k'). destruct (Z.eqb k k'); reflexivity.
    + rewrite IH. destruct (Z.eqb_spec k' a) as [->|]; auto. destruct (Z.eqb_spec k a); auto. congruence.
Qed.
Lemma zfind_key A (m : zmap A) k : In k (map fst m) <-> zfind m k <> None.
Proof.
  induction m as [|[a y] m IH]; cbn [map fst In zfind]; [tauto|]. destruct (Z.eqb_spec k a) as [->|N]; [split; [discriminate|auto]|].
  rewrite <- IH. split; [intros [H|H]; [congruence|auto]|auto].
Qed.
Lemma zput_nodup A (m : zmap A) k x : NoDup (map fst m) -> NoDup (map fst (zput m k x)).
Proof.
  induction m as [|[a y] m IH]; intros N; cbn [zput map fst].
  - constructor; [intros []|constructor].
  - inversion N; subst. destruct (Z.eqb_spec a k) as [->|E]; cbn [map fst]; [constructor; auto|]. constructor; auto.
    rewrite zfind_key, zfind_zput. destruct (Z.eqb_spec k a); [congruence|]. now rewrite <- zfind_key.
Qed.
Lemma zfind_in A (m : zmap A) k x : NoDup (map fst m) -> In (k, x) m -> zfind m k = Some x.
Proof.
  induction m as [|[a y] m IH]; intros N H; [destruct H|]. inversion N; subst. cbn [zfind]. destruct H as [E|H].
  - inversion E; subst. now rewrite Z.eqb_refl.
  - destruct (Z.eqb_spec k a) as [->|]; auto. exfalso. apply H2. apply (in_map fst) in H. exact H.
Qed.
Lemma zfind_in2 A (m : zmap A) k x : zfind m k = Some x -> In (k, x) m.
Proof.
  induction m as [|[a y] m IH]; cbn [zfind]; [discriminate|]. destruct (Z.eqb_spec k a) as [->|]; [intros E; inversion E; left; auto|right; auto].
Qed.

(** ** truncation *)
Lemma trunc_whole q k : (q == inject_Z k)%Q -> trunc q = k.
Proof. unfold trunc, Qeq, inject_Z. cbn. intros H. rewrite Z.mul_1_r in H. rewrite H. apply Z.quot_mul. lia. Qed.
Lemma int_add_whole a w k : (w == inject_Z k)%Q -> int_add a w = (a + k)%Z.
Proof. intros H. apply trunc_whole. rewrite H, inject_Z_plus. reflexivity. Qed.
Lemma trunc_nonneg q : (0 <= q)%Q -> (0 <= trunc q)%Z.
Proof. unfold trunc, Qle. cbn. intros H. apply Z.quot_pos; lia. Qed.
Lemma int_add_nonneg a w : (0 <= a)%Z -> (0 <= w)%Q -> int_add a w = (a + trunc w)%Z.
Proof.
  intros Ha Hw. unfold int_add, trunc, inject_Z, Qplus. cbn [Qnum Qden]. unfold Qle in Hw. cbn in Hw. rewrite Z.mul_1_r, Pos.mul_1_l.
  destruct w as [n d]. cbn [Qnum Qden] in *. rewrite !Z.quot_div_nonneg by lia. rewrite Z.div_add_l by lia. reflexivity.
Qed.

(** ** what makeSides computes, from what the API shows of the edges *)
(** the edges of a type as the API shows them: their residence and their weight *)
Definition observed (g : graph) (t fuel : nat) (l : list (list Z * Z)) : Prop :=
  exists es, all_edges g t fuel = Some es /\ Forall2 (fun e x => getResidence g e = Some (fst x) /\ eweight g e = Some (snd x)) es l.
(** the edge is shared by two parts or more *)
Definition cutb (res : list Z) : bool := match res with [] => false | p :: r => existsb (fun q => negb (Z.eqb q p)) r end.
Definition withb (p : Z) (res : list Z) : bool := existsb (Z.eqb p) res.
Lemma cutb_iff res : cutb res = true <-> exists p q, In p res /\ In q res /\ p <> q.
Proof.
  destruct res as [|a r]; cbn [cutb]; [split; [discriminate|intros (p & q & [] & _)]|]. rewrite existsb_exists. split.
  - intros (q & Hq & N). apply negb_true_iff, Z.eqb_neq in N. exists q, a. repeat split; auto; [right|left]; auto.
  - intros (p & q & Hp & Hq & N). destruct (Z.eq_dec p a) as [->|Na].
    + exists q. destruct Hq as [->|Hq]; [congruence|]. split; auto. apply negb_true_iff, Z.eqb_neq. auto.
    + exists p. destruct Hp as [->|Hp]; [congruence|]. split; auto. apply negb_true_iff, Z.eqb_neq. auto.
Qed.
Lemma withb_iff p res : withb p res = true <-> In p res.
Proof. unfold withb. rewrite existsb_exists. split; [intros (q & H & E); apply Z.eqb_eq in E; now subst|intros H; exists p; split; auto; apply Z.eqb_refl]. Qed.
Lemma nodup_cut res : (1 <? length (nodup Z.eq_dec res)) = cutb res.
Proof.
  assert (G : 1 < length (nodup Z.eq_dec res) <-> cutb res = true).
  { rewrite cutb_iff. split.
    - intros L. pose proof (NoDup_nodup Z.eq_dec res) as N. pose proof (fun x => nodup_In Z.eq_dec res x) as I.
      destruct (nodup Z.eq_dec res) as [|p [|q r]]; cbn in L; try lia. exists p, q. rewrite <- !I. repeat split; [left; auto|right; left; auto|].
      inversion N; subst. intros ->. apply H1. left; auto.
    - intros (p & q & Hp & Hq & Npq). rewrite <- (nodup_In Z.eq_dec) in Hp, Hq. destruct (nodup Z.eq_dec res) as [|a [|b r]]; cbn in *; try lia; destruct Hp; destruct Hq; try tauto; congruence. }
  destruct (Nat.ltb_spec 1 (length (nodup Z.eq_dec res))); destruct (cutb res); auto; [symmetry; apply G; auto|]. exfalso. assert (1 < length (nodup Z.eq_dec res)) by (now apply G). lia.
Qed.

Section S.
Variables (val : Z -> Q) (f : Z -> Z) (P : Z -> Prop) (g : graph).
Hypothesis P0 : P 0%Z.
Hypothesis PS : forall a w, P a -> P (a + f w)%Z.
(** the weight w adds f w to an int that satisfies P *)
Definition adds (w : Z) : Prop := forall a, P a -> int_add a (val w) = (a + f w)%Z.

Definition inner (w : Z) (res : list Z) (d : zmap Z) : zmap Z :=
  fold_left (fun d p => if Z.eqb p (self g) then d else zput d p (int_add (match zfind d p with Some a => a | None => 0%Z end) (val w))) res d.
Lemma inner_cons w q res d : inner w (q :: res) d = inner w res (if Z.eqb q (self g) then d else zput d q (int_add (match zfind d q with Some a => a | None => 0%Z end) (val w))).
Proof. reflexivity. Qed.
Lemma inner_fold w : adds w -> forall res d, NoDup res -> NoDup (map fst d) -> (forall p a, zfind d p = Some a -> P a) ->
  NoDup (map fst (inner w res d)) /\ (forall p a, zfind (inner w res d) p = Some a -> P a) /\
  forall p, zfind (inner w res d) p = if withb p res && negb (Z.eqb p (self g)) then Some ((match zfind d p with Some a => a | None => 0%Z end) + f w)%Z else zfind d p.
Proof.
  intros Ha. induction res as [|q res IH]; intros d Nr Nd HP; [cbn; auto|]. inversion Nr; subst. rewrite inner_cons.
  destruct (Z.eqb_spec q (self g)) as [->|Nq].
  - destruct (IH d H2 Nd HP) as (A & B & C). repeat split; auto. intros p. rewrite C. cbn [withb existsb]. fold (withb p res).
    destruct (Z.eqb_spec p (self g)) as [->|]; [now rewrite !andb_false_r|reflexivity].
  - set (a0 := match zfind d q with Some a => a | None => 0%Z end) in *.
    assert (Pa : P a0). { unfold a0. destruct (zfind d q) eqn:E; eauto. }
    rewrite (Ha a0 Pa). destruct (IH (zput d q (a0 + f w)%Z) H2) as (A & B & C); [now apply zput_nodup|..].
    { intros p a. rewrite zfind_zput. destruct (Z.eqb q p); [intros E; inversion E; subst; auto|apply HP]. }
    repeat split; auto. intros p. rewrite C, zfind_zput. cbn [withb existsb]. fold (withb p res).
    destruct (Z.eqb_spec q p) as [->|N].
    + assert (W : withb p res = false). { destruct (withb p res) eqn:E; auto. apply withb_iff in E. contradiction. }
      rewrite W. cbn [andb orb]. rewrite Z.eqb_refl. cbn [orb andb]. destruct (Z.eqb_spec p (self g)); [congruence|]. cbn. fold a0. reflexivity.
    + destruct (Z.eqb_spec p q); [congruence|]. cbn [orb]. reflexivity.
Qed.

(** the state of the loop after a list of edges *)
Definition shares (p : Z) (x : list Z * Z) : bool := cutb (fst x) && withb p (fst x).
Definition SInv (l : list (list Z * Z)) (s : cont Z) : Prop :=
  NoDup (map fst (c_d s)) /\ (forall p a, zfind (c_d s) p = Some a -> P a) /\ P (c_total s) /\
  c_total s = zsum (map (fun x => f (snd x)) (filter (fun x => cutb (fst x)) l)) /\
  forall p, zfind (c_d s) p = if existsb (shares p) l && negb (Z.eqb p (self g)) then Some (zsum (map (fun x => f (snd x)) (filter (shares p) l))) else None.
Lemma sides_step l s e x : SInv l s -> adds (snd x) -> getResidence g e = Some (fst x) -> eweight g e = Some (snd x) ->
  exists s', side_edge val g s e = Some s' /\ SInv (l ++ [x]) s'.
Proof.
  intros (Nd & HP & Pt & T & F) Ha ER EW. unfold side_edge. rewrite ER. cbn [obind]. rewrite nodup_cut.
  assert (FX : forall (q : list Z * Z -> bool), filter q (l ++ [x]) = filter q l ++ if q x then [x] else []) by (intros q; rewrite filter_app; cbn; destruct (q x); reflexivity).
  destruct (cutb (fst x)) eqn:EC.
  - rewrite EW. cbn [obind]. destruct (inner_fold (snd x) Ha (nodup Z.eq_dec (fst x)) (c_d s) (NoDup_nodup _ _) Nd HP) as (A & B & C).
    eexists. split; [reflexivity|]. cbn [c_d c_total]. repeat split; auto.
    + rewrite Ha by auto. now apply PS.
    + cbn [c_total]. rewrite Ha by auto. rewrite FX, EC, map_app, zsum_app, T. cbn. lia.
    + intros p. cbn [c_d]. rewrite C. assert (W : withb p (nodup Z.eq_dec (fst x)) = withb p (fst x)).
      { destruct (withb p (nodup Z.eq_dec (fst x))) eqn:E1; destruct (withb p (fst x)) eqn:E2; auto.
        - apply withb_iff, nodup_In, withb_iff in E1. congruence. - apply withb_iff in E2. rewrite <- (nodup_In Z.eq_dec) in E2. apply withb_iff in E2. congruence. }
      rewrite W, F, existsb_app, FX. cbn [existsb]. rewrite orb_false_r. assert (SX : shares p x = withb p (fst x)) by (unfold shares; rewrite EC; reflexivity). rewrite SX.
      destruct (withb p (fst x)) eqn:EWp; cbn [andb orb].
      * rewrite orb_true_r. cbn [andb]. destruct (Z.eqb p (self g)); cbn [negb]; [now rewrite andb_false_r|]. rewrite andb_true_r. f_equal. rewrite map_app, zsum_app. cbn.
        destruct (existsb (shares p) l) eqn:EX; [lia|]. assert (FE : filter (shares p) l = []).
        { clear - EX. induction l as [|y l IH]; [reflexivity|]. cbn in *. apply orb_false_iff in EX as (-> & EX). auto. }
        rewrite FE. cbn. lia.
      * rewrite orb_false_r, app_nil_r. reflexivity.
  - exists s. split; [reflexivity|]. assert (NX : forall p, shares p x = false) by (intros p; unfold shares; rewrite EC; reflexivity). repeat split; auto.
    + rewrite FX, EC, app_nil_r. auto.
    + intros p. rewrite F, existsb_app, FX. cbn [existsb]. rewrite NX, !orb_false_r, app_nil_r. reflexivity.
Qed.
Lemma sides_loop es : forall l0 l s, SInv l0 s -> (forall x, In x l -> adds (snd x)) -> Forall2 (fun e x => getResidence g e = Some (fst x) /\ eweight g e = Some (snd x)) es l ->
  exists s', foldM (side_edge val g) es s = Some s' /\ SInv (l0 ++ l) s'.
Proof.
  induction es as [|e es IH]; intros l0 l s HI Ha HF; inversion HF; subst; [exists s; rewrite app_nil_r; auto|]. destruct H1 as (A & B).
  destruct (sides_step l0 s e y HI (Ha y (or_introl eq_refl)) A B) as (s1 & E1 & I1). cbn [foldM]. rewrite E1. cbn [obind].
  destruct (IH (l0 ++ [y]) l' s1 I1) as (s' & E & I); auto; [intros x Hx; apply Ha; right; auto|]. exists s'. split; auto. rewrite <- app_assoc in I. exact I.
Qed.
Lemma sides_of t fuel l : observed g t fuel l -> (forall x, In x l -> adds (snd x)) -> exists s, makeSides val g t fuel = Some s /\ SInv l s.
Proof.
  intros (es & E & F) Ha. unfold makeSides. rewrite E. cbn [obind]. apply (sides_loop es [] l (mkC [] 0%Z)); auto. repeat split; auto.
  - constructor. - intros p a H. discriminate.
Qed.
End S.
