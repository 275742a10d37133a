(** C41 for traditional graphs: sides of a part from the arcs that start at its vertices. *)
From Verif Require Import Base GraphModel CsrProofs ConstructProofs GraphSpec AccessProofs AccessProofs2 CountProofs GraphTop GraphTop2 Comm TagModel ConnModel MetricsModel MetricsProofs MigrateModel MigrateSpec TradSpec TradProps SidesProofs GraphProps TagProps GraphIOProps SidesProps.
From Coq Require Import Lqa Qround.
Local Open Scope nat_scope.

Section R.
Variables (me : Z) (verts vws : list Z) (tys : list type_input) (owns : zmap Z) (g : graph).
Hypothesis HV : valid_input false verts vws tys.
Hypothesis HB : build_part me false verts vws tys owns = Some g.
Notation all := (verts ++ ghosts_of verts tys).
Notation HR := (proj1 (part_rep _ _ _ _ _ _ _ HV HB)).
Notation HO := (proj1 (proj2 (part_rep _ _ _ _ _ _ _ HV HB))).
Notation po := (part_of me verts owns).
Variables (t : nat) (es : list edge_input) (ws : list Z).
Hypothesis Ht : nth_error tys t = Some (es, ws).
Notation HT := (nth_eff _ _ _ _ Ht).
Notation tot := (occ_of g verts (ghosts_of verts tys) es).

Lemma edegree_trad h : edegree g h = Some 2.
Proof. unfold edegree. rewrite (p_hyper _ _ _ _ _ _ _ HV HB). reflexivity. Qed.

(** the residence of the stored edge v -> w: this part, then the home of w *)
Lemma residence_trad l v m w : nth_error verts l = Some v -> nth_error (out_dests v es) m = Some w ->
  getResidence g (getEdge (ntypes g) (off tot l + m) t) = Some [me; po w].
Proof.
  intros Hl Hw. destruct (tr_row me false verts vws tys owns g HV HB eq_refl t es ws Ht l v m w Hl Hw) as (Hm & L & Hin & El & Hinv).
  pose proof (edge_pins_trad _ _ _ _ _ t es (eff_wgts ws (length es)) l m (idx all w) 3 HR ltac:(rewrite (p_hyper _ _ _ _ _ _ _ HV HB); auto) HT L Hm ltac:(lia)) as Hp.
  unfold edge_pins in Hp. unfold getResidence. rewrite edegree_trad. destruct (pins_begin g (getEdge (ntypes g) (off tot l + m) t)) as [it|]; [|discriminate].
  cbn [obind] in *.
  assert (Hov : owner g (S l) = Some me).
  { rewrite El. rewrite (owner_ok _ _ _ _ _ _ HR HO v Hinv), (owner_spec_part _ _ _ _ _ _ _ HV HB). unfold part_of. destruct (in_dec Z.eq_dec v verts); auto.
    exfalso. apply n. eapply nth_error_In; eauto. }
  assert (How : owner g (S (idx all w)) = Some (po w)).
  { rewrite (owner_ok _ _ _ _ _ _ HR HO w Hin), (owner_spec_part _ _ _ _ _ _ _ HV HB). auto. }
  assert (D1 : forall f it l, drain (pit_step g) f it = Some l -> exists f', f = S f' /\ match l with [] => exists it', pit_step g it = Some (0, it')
      | h :: r => h <> 0 /\ exists it', pit_step g it = Some (h, it') /\ drain (pit_step g) f' it' = Some r end).
  { intros [|f] it0 l0 D; [discriminate|]. exists f. split; auto. cbn [drain] in D. destruct (pit_step g it0) as [[h it']|]; [|discriminate].
    cbn [obind] in D. destruct (Nat.eqb_spec h 0) as [->|N]. - inversion D; eauto.
    - destruct (drain (pit_step g) f it') eqn:D'; [|discriminate]. inversion D; subst. eauto. }
  destruct (Nat.eqb_spec l (idx all w)) as [E|E].
  - apply D1 in Hp as (f1 & _ & _ & it1 & S1 & Hp). apply D1 in Hp as (f2 & _ & it2 & S2).
    cbn [iter_n]. rewrite S1. cbn [obind]. rewrite S2. cbn [obind mapM]. rewrite Hov. cbn [obind].
    assert (po w = me). { assert (v = w) by (eapply idx_inj; eauto; congruence). subst w. rewrite <- E in How. congruence. }
    rewrite H. unfold owner at 1. cbn [vlid]. rewrite (p_self _ _ _ _ _ _ _ HV HB). reflexivity.
  - apply D1 in Hp as (f1 & _ & _ & it1 & S1 & Hp). apply D1 in Hp as (f2 & _ & _ & it2 & S2 & Hp).
    cbn [iter_n]. rewrite S1. cbn [obind]. rewrite S2. cbn [obind mapM]. rewrite Hov. cbn [obind]. rewrite How. reflexivity.
Qed.

(** what the API shows of the edges: the arcs in stored order, each with the weight of its position *)
Lemma observed_trad fuel : local_sources verts es -> length es < fuel ->
  observed g t fuel (map (fun x => ([me; po (snd (fst x))], snd x)) (combine (csr_order verts es) (eweights (es, ws)))).
Proof.
  intros HS HF. pose proof (p_constructed _ _ _ _ _ _ _ HV HB) as HC. eexists. split; [apply (w_iter_edges _ _ _ _ _ _ HC t es ws fuel Ht HF)|].
  pose proof (eweights_length _ _ _ _ _ _ HV (nth_error_In _ _ Ht)) as LW. pose proof (stored_len _ _ _ _ _ HC t es ws Ht HS) as LS.
  apply Forall2_nths. { rewrite !map_length, seq_length, combine_length. lia. }
  intros i h x Hh Hx. rewrite nth_error_map in Hh, Hx.
  assert (Li : i < length es). { destruct (nth_error (seq 0 (length es)) i) eqn:E; [|discriminate]. rewrite <- (seq_length (length es) 0). apply nth_error_Some. congruence. }
  rewrite nth_error_seq in Hh by auto. cbn in Hh. injection Hh as <-.
  destruct (row_at _ _ _ _ _ HC t es ws Ht HS i Li) as (l & v & m & w & Hl & Hm & Ei & Hc).
  destruct (nth_error (eweights (es, ws)) i) as [wt|] eqn:Ew. 2:{ apply nth_error_None in Ew. lia. }
  assert (XC : nth_error (combine (csr_order verts es) (eweights (es, ws))) i = Some ((v, w), wt)).
  { revert Hc Ew. generalize (csr_order verts es) (eweights (es, ws)). clear. induction i as [|i IH]; intros [|a l1] [|b l2] H1 H2; cbn in *; try discriminate; [congruence|auto]. }
  rewrite XC in Hx. cbn in Hx. injection Hx as <-. cbn [fst snd]. split.
  - rewrite Ei. now apply residence_trad with (v := v).
  - destruct (nth_error es i) as [e|] eqn:Ee; [|apply nth_error_None in Ee; lia]. rewrite (w_edge _ _ _ _ _ _ HC t es ws i _ Ht Ee).
    unfold eweights in Ew. cbn [fst snd] in Ew. destruct ws; [apply nth_error_In, repeat_spec in Ew; now subst|exact Ew].
Qed.
End R.

(** the arcs of a part with their weights, in stored order: a weight belongs to a position of that order (C07) *)
Definition stored_arcs (verts : list Z) (ty : type_input) : list (arc * Z) := combine (csr_order verts (fst ty)) (eweights ty).
(** The side of a part toward q is the weight of its stored arcs that end on q; the total is the weight of those that leave the part. *)
Theorem C41_traditional_partial : forall val f me verts vws tys owns g t ty fuel,
  valid_input false verts vws tys -> build_part me false verts vws tys owns = Some g -> nth_error tys t = Some ty -> local_sources verts (fst ty) -> length (fst ty) < fuel ->
  (forall w, In w (eweights ty) -> val w == inject_Z (f w))%Q ->
  exists s, makeSides val g t fuel = Some s /\
    (forall q, q <> me -> cget 0%Z s q = zsum (map (fun x => f (snd x)) (filter (fun x => Z.eqb (part_of me verts owns (snd (fst x))) q) (stored_arcs verts ty)))) /\
    (forall q, chas s q = true <-> q <> me /\ exists x, In x (stored_arcs verts ty) /\ part_of me verts owns (snd (fst x)) = q) /\
    c_total s = zsum (map (fun x => f (snd x)) (filter (fun x => negb (Z.eqb (part_of me verts owns (snd (fst x))) me)) (stored_arcs verts ty))) /\ NoDup (map fst (c_d s)).
Proof.
  intros val f me verts vws tys owns g t [es ws] fuel HV HB Ht HS HF HW. cbn [fst] in *.
  pose proof (observed_trad me verts vws tys owns g HV HB t es ws Ht fuel HS HF) as OB. set (L := stored_arcs verts (es, ws)). change (combine (csr_order verts es) (eweights (es, ws))) with L in OB.
  destruct (sides_of val f (fun _ => True) g I (fun _ _ _ => I) t fuel _ OB) as (s & E & Nd & _ & _ & T & F).
  { intros x Hx. apply in_map_iff in Hx as (a & <- & Ha). cbn. intros b _. apply int_add_whole. apply HW. unfold L, stored_arcs in Ha. destruct a as [a w]. apply in_combine_r in Ha. exact Ha. }
  rewrite (p_self _ _ _ _ _ _ _ HV HB) in *. set (po := part_of me verts owns) in *. exists s. split; auto.
  assert (FM : forall (b : list Z * Z -> bool) (c : arc * Z -> bool), (forall x, b ([me; po (snd (fst x))], snd x) = c x) ->
    map (fun x => f (snd x)) (filter b (map (fun x => ([me; po (snd (fst x))], snd x)) L)) = map (fun x => f (snd x)) (filter c L)).
  { intros b c H. clearbody L po. clear - H. induction L as [|e l IH]; [reflexivity|]. cbn [map filter]. rewrite H. destruct (c e); [|exact IH]. cbn [map]. rewrite IH. reflexivity. }
  assert (SB : forall q (x : arc * Z), q <> me -> shares q ([me; po (snd (fst x))], snd x) = Z.eqb (po (snd (fst x))) q).
  { intros q x N. unfold shares, cutb, withb. cbn. rewrite !orb_false_r. destruct (Z.eqb_spec q me); [contradiction|]. cbn [orb]. rewrite (Z.eqb_sym q).
    destruct (Z.eqb_spec (po (snd (fst x))) q) as [->|]; [|now rewrite andb_false_r]. destruct (Z.eqb_spec q me); [contradiction|reflexivity]. }
  assert (EX : forall q, q <> me -> existsb (shares q) (map (fun x => ([me; po (snd (fst x))], snd x)) L) = true <-> exists x, In x L /\ po (snd (fst x)) = q).
  { intros q N. rewrite existsb_exists. split.
    - intros (x & Hx & S). apply in_map_iff in Hx as (a & <- & Ha). rewrite SB in S by auto. apply Z.eqb_eq in S. eauto.
    - intros (a & Ha & S). eexists. split; [apply in_map_iff; exists a; split; [reflexivity|auto]|]. rewrite SB by auto. now apply Z.eqb_eq. }
  split; [|split; [|split; auto]].
  - intros q N. unfold cget. rewrite F. destruct (Z.eqb_spec q me); [contradiction|]. rewrite andb_true_r. rewrite (FM (shares q) (fun x => Z.eqb (po (snd (fst x))) q)) by (intros; now apply SB).
    destruct (existsb _ _) eqn:EE; [reflexivity|]. assert (FE : filter (fun x : arc * Z => Z.eqb (po (snd (fst x))) q) L = []); [|symmetry; exact (f_equal (fun l => zsum (map (fun x : arc * Z => f (snd x)) l)) FE)].
    destruct (filter (fun x : arc * Z => Z.eqb (po (snd (fst x))) q) L) as [|x l] eqn:EF; auto. exfalso. assert (X : In x (filter (fun x : arc * Z => Z.eqb (po (snd (fst x))) q) L)) by (rewrite EF; left; auto). apply filter_In in X as (X1 & X2).
    apply Z.eqb_eq in X2. assert (existsb (shares q) (map (fun x => ([me; po (snd (fst x))], snd x)) L) = true) by (apply EX; eauto). congruence.
  - intros q. unfold chas. rewrite F. destruct (Z.eqb_spec q me) as [->|N].
    + rewrite andb_false_r. split; [discriminate|]. intros (X & _). congruence.
    + rewrite andb_true_r. rewrite <- (EX q N). destruct (existsb _ _); split; auto; try discriminate. intros (_ & X); discriminate.
  - rewrite T. f_equal. apply FM. intros x. cbn. rewrite orb_false_r. reflexivity.
Qed.
Print Assumptions C41_traditional_partial.

(** the arcs of the whole graph that lead from part r to part q *)
Definition from_to (own : Z -> nat) (r q : nat) (A : list arc) : list arc := filter (fun a => Nat.eqb (own (fst a)) r && Nat.eqb (own (snd a)) q) A.
Definition leaving (own : Z -> nat) (r : nat) (A : list arc) : list arc := filter (fun a => Nat.eqb (own (fst a)) r && negb (Nat.eqb (own (snd a)) r)) A.
Lemma pin2_inj (l l' : list arc) : Permutation (map pin2 l) (map pin2 l') -> Permutation l l'.
Proof.
  intros H. apply (Permutation_map (fun p => (nth 0 p 0%Z, nth 1 p 0%Z))) in H. rewrite !map_map in H. unfold pin2 in H. cbn in H.
  rewrite (map_ext _ (fun x => x)) in H by (intros [? ?]; reflexivity). rewrite map_id in H. rewrite (map_ext _ (fun x => x)) in H by (intros [? ?]; reflexivity). now rewrite map_id in H.
Qed.
Lemma filter_filter A (b c : A -> bool) l : filter b (filter c l) = filter (fun x => c x && b x) l.
Proof. induction l as [|x l IH]; [reflexivity|]. cbn. destruct (c x); cbn; [destruct (b x)|]; congruence. Qed.
Lemma perm_filter A (b : A -> bool) l l' : Permutation l l' -> Permutation (filter b l) (filter b l').
Proof. induction 1; cbn; repeat match goal with |- context [if ?c then _ else _] => destruct c end; eauto using Permutation. Qed.
Lemma tdist_part own V A w0 ps r p g : tdistributed own V A w0 ps -> nth_error ps r = Some p -> build_part (Z.of_nat r) false (pd_verts p) (pd_vws p) (pd_tys p) (pd_owns p) = Some g ->
  exists es ws, pd_tys p = [(es, ws)] /\ valid_input false (pd_verts p) (pd_vws p) (pd_tys p) /\ local_sources (pd_verts p) es /\
    length es <= length A /\ Forall (eq w0) (eweights (es, ws)) /\ Permutation (map snd es) (map pin2 (filter (fun a => Nat.eqb (own (fst a)) r) A)) /\
    (forall a, In a A -> own (fst a) = r -> part_of (Z.of_nat r) (pd_verts p) (pd_owns p) (snd a) = Z.of_nat (own (snd a))).
Proof.
  intros ((WF & OW & HP) & HG) Hr HB. destruct (HP r p Hr) as (HV & Lo & PV & es & ws & ET & PE & W0). exists es, ws. split; auto. split; auto.
  assert (VI : forall v, In v (pd_verts p) <-> In v (map fst V) /\ own v = r).
  { intros v. assert (X : map fst (vrecs p) = pd_verts p). { destruct HV as (_ & Lw & _). unfold vrecs, vweights. apply fst_combine. rewrite combine_length, app_length, repeat_length. lia. }
    rewrite <- X. rewrite !in_map_iff. split.
    - intros (x & <- & Hx). apply (Permutation_in _ PV) in Hx. apply filter_In in Hx as (Hx & B). apply Nat.eqb_eq in B. eauto.
    - intros ((x & <- & Hx) & B). exists x. split; auto. apply (Permutation_in _ (Permutation_sym PV)), filter_In. split; auto. now apply Nat.eqb_eq. }
  assert (PI : forall a, In a A -> own (fst a) = r -> In (pin2 a) (map snd es)).
  { intros a Ha Hr'. apply (Permutation_in _ (Permutation_sym PE)). apply in_map, filter_In. split; auto. now apply Nat.eqb_eq. }
  split; [|split; [|split; auto; split; auto]].
  - intros e u w He Hs. assert (X : In (snd e) (map snd es)) by (apply in_map; auto). apply (Permutation_in _ PE) in X. apply in_map_iff in X as (a & Pa & Ha). apply filter_In in Ha as (Ha & B). apply Nat.eqb_eq in B.
    rewrite Hs in Pa. unfold pin2 in Pa. injection Pa as E1 _. subst u. apply VI. split; auto. now apply WF.
  - pose proof (Permutation_length PE) as X. rewrite !map_length in X. etransitivity; [apply Nat.eq_le_incl; exact X|]. clear. induction A as [|a A IH]; cbn; [lia|]. destruct (own (fst a) =? r); cbn; lia.
  - intros a Ha Er. unfold part_of. destruct (in_dec Z.eq_dec (snd a) (pd_verts p)) as [I|I]; [apply VI in I as (_ & ->); reflexivity|].
    assert (G : In (snd a) (ghosts_of (pd_verts p) (pd_tys p))).
    { specialize (PI a Ha Er). apply in_map_iff in PI as (e & Pe & He). apply (pin_ghost _ _ _ _ _ _ _ HV HB); auto. exists es, ws, e. rewrite ET. split; [left; auto|]. split; auto. rewrite Pe. cbn; auto. }
    rewrite (HG p (nth_error_In _ _ Hr) (snd a) G). reflexivity.
Qed.
(** In a traditional graph distributed over the parts, whose arcs all have the weight w0, the side of part r toward part q is that weight times the number of arcs from r to q. *)
Theorem C41_traditional_distributed_partial : forall val f own V A w0 ps r p g fuel,
  tdistributed own V A w0 ps -> nth_error ps r = Some p -> build_part (Z.of_nat r) false (pd_verts p) (pd_vws p) (pd_tys p) (pd_owns p) = Some g ->
  length A < fuel -> (val w0 == inject_Z (f w0))%Q ->
  exists s, makeSides val g 0 fuel = Some s /\
    (forall q, q <> r -> cget 0%Z s (Z.of_nat q) = (f w0 * Z.of_nat (length (from_to own r q A)))%Z) /\
    (forall q, chas s q = true <-> exists n, q = Z.of_nat n /\ n <> r /\ from_to own r n A <> []) /\
    c_total s = (f w0 * Z.of_nat (length (leaving own r A)))%Z /\ NoDup (map fst (c_d s)).
Proof.
  intros val f own V A w0 ps r p g fuel HD Hr HB HF HW. destruct (tdist_part own V A w0 ps r p g HD Hr HB) as (es & ws & ET & HV & LS & LA & W0 & PE & PO).
  pose proof (p_constructed _ _ _ _ _ _ _ HV HB) as HC. assert (Ht : nth_error (pd_tys p) 0 = Some (es, ws)) by (rewrite ET; reflexivity).
  destruct (C41_traditional_partial val f (Z.of_nat r) (pd_verts p) (pd_vws p) (pd_tys p) (pd_owns p) g 0 (es, ws) fuel HV HB Ht LS) as (s & ES & GG & HH & TT & ND).
  { cbn. lia. } { intros w Hw. rewrite Forall_forall in W0. rewrite <- (W0 w Hw). auto. }
  pose proof (stored_perm _ _ _ _ _ HC 0 es ws Ht LS) as SP. pose proof (stored_len _ _ _ _ _ HC 0 es ws Ht LS) as SL. pose proof (eweights_length _ _ _ _ _ _ HV (nth_error_In _ _ Ht)) as LW.
  assert (PC : Permutation (csr_order (pd_verts p) es) (filter (fun a => Nat.eqb (own (fst a)) r) A)).
  { apply pin2_inj. etransitivity; [|exact PE]. exact SP. }
  assert (SUM : forall b : arc * Z -> bool, forall c : arc -> bool, (forall x, In x (stored_arcs (pd_verts p) (es, ws)) -> b x = c (fst x)) ->
     zsum (map (fun x => f (snd x)) (filter b (stored_arcs (pd_verts p) (es, ws)))) = (f w0 * Z.of_nat (length (filter (fun a => Nat.eqb (own (fst a)) r && c a) A)))%Z).
  { intros b c Hb. replace (length (filter (fun a => Nat.eqb (own (fst a)) r && c a) A)) with (length (filter c (csr_order (pd_verts p) es))) by (etransitivity; [exact (Permutation_length (perm_filter _ c _ _ PC))|exact (f_equal (@length arc) (filter_filter arc c (fun a => Nat.eqb (own (fst a)) r) A))]). unfold stored_arcs in *. cbn [fst] in *.
    assert (LL : length (eweights (es, ws)) = length (csr_order (pd_verts p) es)) by lia. revert LL W0 Hb. clear. generalize (csr_order (pd_verts p) es) (eweights (es, ws)).
    induction l as [|a l IH]; intros [|w l0] LL W0 Hb; try discriminate; [cbn; lia|]. cbn [combine filter]. rewrite (Hb (a, w)) by (cbn; auto). cbn [fst].
    inversion W0; subst. assert (IH' := IH l0 ltac:(cbn in LL; lia) H2 ltac:(intros x Hx; apply Hb; cbn; auto)). destruct (c a); auto. cbn [map snd]. unfold zsum in *. cbn [fold_right length]. rewrite IH'. rewrite Nat2Z.inj_succ. lia. }
  assert (HI : forall x, In x (stored_arcs (pd_verts p) (es, ws)) -> In (fst x) A /\ own (fst (fst x)) = r /\ part_of (Z.of_nat r) (pd_verts p) (pd_owns p) (snd (fst x)) = Z.of_nat (own (snd (fst x)))).
  { intros [a w] Hx. unfold stored_arcs in Hx. apply in_combine_l in Hx. apply (Permutation_in _ PC), filter_In in Hx as (Ha & B). apply Nat.eqb_eq in B. cbn [fst]. auto. }
  exists s. split; auto. split; [|split; [|split; auto]].
  - intros q N. rewrite GG by lia. unfold from_to. apply (SUM _ (fun a => Nat.eqb (own (snd a)) q)). intros x Hx. destruct (HI x Hx) as (_ & _ & Q). etransitivity; [exact (f_equal (fun z => Z.eqb z (Z.of_nat q)) Q)|]. destruct (Nat.eqb_spec (own (snd (fst x))) q) as [->|X]; [apply Z.eqb_refl|apply Z.eqb_neq; lia].
  - intros q. rewrite HH. split.
    + intros (N & x & Hx & X). destruct (HI x Hx) as (I1 & I2 & I3). rewrite I3 in X. exists (own (snd (fst x))). split; auto. split; [lia|]. intros Y. assert (Z : In (fst x) (from_to own r (own (snd (fst x))) A)); [|rewrite Y in Z; destruct Z].
      apply filter_In. split; auto. rewrite I2, !Nat.eqb_refl. reflexivity.
    + intros (n & -> & Nn & NE). split; [lia|]. destruct (from_to own r n A) as [|a l] eqn:O; [congruence|]. assert (I : In a (from_to own r n A)) by (rewrite O; left; auto). apply filter_In in I as (Ia & B). apply andb_true_iff in B as (B1 & B2). apply Nat.eqb_eq in B1, B2.
      assert (IC : In a (csr_order (pd_verts p) es)) by (apply (Permutation_in _ (Permutation_sym PC)), filter_In; split; auto; now apply Nat.eqb_eq). apply In_nth_error in IC as (i & Hi).
      destruct (nth_error (eweights (es, ws)) i) as [w|] eqn:Ew. 2:{ apply nth_error_None in Ew. assert (i < length (csr_order (pd_verts p) es)) by (apply nth_error_Some; intros X; pose proof (eq_trans (eq_sym X) Hi); discriminate). lia. }
      exists (a, w). split; [|cbn [fst]; rewrite (PO a Ia B1); congruence]. unfold stored_arcs. cbn [fst]. revert Hi Ew. generalize (csr_order (pd_verts p) es) (eweights (es, ws)). clear.
      induction i as [|i IH]; intros [|x l1] [|y l2] H1 H2; cbn in *; try discriminate; [left; injection H1 as ->; injection H2 as ->; reflexivity|right; auto].
  - rewrite TT. unfold leaving. apply (SUM _ (fun a => negb (Nat.eqb (own (snd a)) r))). intros x Hx. destruct (HI x Hx) as (_ & _ & Q). f_equal. etransitivity; [exact (f_equal (fun z => Z.eqb z (Z.of_nat r)) Q)|]. destruct (Nat.eqb_spec (own (snd (fst x))) r) as [->|X]; [apply Z.eqb_refl|apply Z.eqb_neq; lia].
Qed.
Print Assumptions C41_traditional_distributed_partial.

(** When every arc has its reverse, both parts of a pair see the same side. *)
Definition swap (a : arc) : arc := (snd a, fst a).
Theorem C41_traditional_symmetric_partial : forall val f own V A w0 ps r1 r2 p1 p2 g1 g2 fuel s1 s2,
  tdistributed own V A w0 ps -> Permutation A (map swap A) -> nth_error ps r1 = Some p1 -> nth_error ps r2 = Some p2 -> r1 <> r2 ->
  build_part (Z.of_nat r1) false (pd_verts p1) (pd_vws p1) (pd_tys p1) (pd_owns p1) = Some g1 -> build_part (Z.of_nat r2) false (pd_verts p2) (pd_vws p2) (pd_tys p2) (pd_owns p2) = Some g2 ->
  length A < fuel -> (val w0 == inject_Z (f w0))%Q -> makeSides val g1 0 fuel = Some s1 -> makeSides val g2 0 fuel = Some s2 ->
  cget 0%Z s1 (Z.of_nat r2) = cget 0%Z s2 (Z.of_nat r1) /\ chas s1 (Z.of_nat r2) = chas s2 (Z.of_nat r1).
Proof.
  intros val f own V A w0 ps r1 r2 p1 p2 g1 g2 fuel s1 s2 HD SY H1 H2 N B1 B2 HF HW S1 S2.
  destruct (C41_traditional_distributed_partial val f own V A w0 ps r1 p1 g1 fuel HD H1 B1 HF HW) as (s1' & X1 & G1 & K1 & _). rewrite S1 in X1. injection X1 as <-.
  destruct (C41_traditional_distributed_partial val f own V A w0 ps r2 p2 g2 fuel HD H2 B2 HF HW) as (s2' & X2 & G2 & K2 & _). rewrite S2 in X2. injection X2 as <-.
  assert (LN : length (from_to own r1 r2 A) = length (from_to own r2 r1 A)).
  { unfold from_to. rewrite (Permutation_length (perm_filter _ _ _ _ SY)). clear. induction A as [|a A IH]; [reflexivity|]. cbn [map filter]. cbn [swap fst snd]. rewrite andb_comm. destruct ((own (fst a) =? r2) && (own (snd a) =? r1)); cbn; congruence. }
  split; [rewrite G1, G2 by auto; rewrite LN; reflexivity|].
  assert (EM : forall l : list arc, l <> [] <-> length l <> 0) by (intros [|x l]; cbn; split; congruence).
  assert (I : chas s1 (Z.of_nat r2) = true <-> chas s2 (Z.of_nat r1) = true).
  { rewrite K1, K2. split; intros (n & E & B & C); apply Nat2Z.inj in E; subst n; eexists; (split; [reflexivity|]); split; auto; apply EM; apply EM in C; congruence. }
  destruct (chas s1 (Z.of_nat r2)); destruct (chas s2 (Z.of_nat r1)); auto; destruct I as (I1 & I2); [discriminate (I1 eq_refl)|discriminate (I2 eq_refl)].
Qed.
Print Assumptions C41_traditional_symmetric_partial.

(** With an arc in one direction only, the part of its source has a side that the part of its destination does not see. *)
Definition tdir_V : list (Z * (Z * Z)) := [(1, (1, 0)); (2, (1, 1))]%Z.
Definition tdir_A : list arc := [(1, 2)]%Z.
Definition tdir_own (v : Z) : nat := if Z.eqb v 1 then 0 else 1.
Definition tdir_ps : list pdesc := [mkPD [1]%Z [1]%Z [([(100, [1; 2])], [])]%Z [(2, 1)]%Z [0]%Z; mkPD [2]%Z [1]%Z [([], [])] [] [1]%Z].
Theorem C41_directed_refuted : exists g1 g2 s1 s2, tdistributed tdir_own tdir_V tdir_A 1 tdir_ps /\
  (p <- nth_error tdir_ps 0 ;; build_part 0 false (pd_verts p) (pd_vws p) (pd_tys p) (pd_owns p)) = Some g1 /\
  (p <- nth_error tdir_ps 1 ;; build_part 1 false (pd_verts p) (pd_vws p) (pd_tys p) (pd_owns p)) = Some g2 /\
  makeSides inject_Z g1 0 5 = Some s1 /\ makeSides inject_Z g2 0 5 = Some s2 /\
  cget 0%Z s1 1%Z = 1%Z /\ chas s1 1%Z = true /\ cget 0%Z s2 0%Z = 0%Z /\ chas s2 0%Z = false.
Proof.
  destruct (p <- nth_error tdir_ps 0 ;; build_part 0 false (pd_verts p) (pd_vws p) (pd_tys p) (pd_owns p)) as [g1|] eqn:E1; [|vm_compute in E1; discriminate].
  destruct (p <- nth_error tdir_ps 1 ;; build_part 1 false (pd_verts p) (pd_vws p) (pd_tys p) (pd_owns p)) as [g2|] eqn:E2; [|vm_compute in E2; discriminate].
  exists g1, g2. vm_compute in E1, E2. injection E1 as <-. injection E2 as <-. eexists. eexists. split; [apply tdistributedb_ok; vm_compute; reflexivity|]. repeat (split; [vm_compute; reflexivity|]). vm_compute; reflexivity.
Qed.
Print Assumptions C41_directed_refuted.
(** the hypotheses are met: the path 1 - 2 - 3 - 4 on parts {1, 2} {3, 4} {} *)
Example C41_traditional_hypotheses_met : exists g1 g2 s1 s2, tdistributed tex_own tex_V tex_A 1 tex_ps /\ Permutation tex_A (map swap tex_A) /\
  (p <- nth_error tex_ps 0 ;; build_part 0 false (pd_verts p) (pd_vws p) (pd_tys p) (pd_owns p)) = Some g1 /\
  (p <- nth_error tex_ps 1 ;; build_part 1 false (pd_verts p) (pd_vws p) (pd_tys p) (pd_owns p)) = Some g2 /\
  makeSides inject_Z g1 0 9 = Some s1 /\ makeSides inject_Z g2 0 9 = Some s2 /\ c_d s1 = [(1, 1)]%Z /\ c_d s2 = [(0, 1)]%Z /\ from_to tex_own 0 1 tex_A = [(2, 3)]%Z.
Proof.
  destruct (p <- nth_error tex_ps 0 ;; build_part 0 false (pd_verts p) (pd_vws p) (pd_tys p) (pd_owns p)) as [g1|] eqn:E1; [|vm_compute in E1; discriminate].
  destruct (p <- nth_error tex_ps 1 ;; build_part 1 false (pd_verts p) (pd_vws p) (pd_tys p) (pd_owns p)) as [g2|] eqn:E2; [|vm_compute in E2; discriminate].
  exists g1, g2. vm_compute in E1, E2. injection E1 as <-. injection E2 as <-. eexists. eexists. split; [apply tdistributedb_ok; vm_compute; reflexivity|]. split.
  - assert (N : forall l : list arc, nodup (fun a b : arc => ltac:(repeat decide equality)) l = l -> NoDup l) by (intros l H; rewrite <- H; apply NoDup_nodup).
    apply NoDup_Permutation; [apply N; vm_compute; reflexivity|apply N; vm_compute; reflexivity|]. intros [a b]. cbn. intuition congruence.
  - repeat (split; [vm_compute; reflexivity|]). vm_compute; reflexivity.
Qed.
