(** A decision procedure for the consistency of a concrete mesh, for the examples. *)
From Verif Require Import Base GraphModel MeshModel MeshProofs1 MeshProofs2 MeshProofs3.

Definition memz (x : Z) (l : list Z) : bool := existsb (Z.eqb x) l.
Definition memn (x : nat) (l : list nat) : bool := existsb (Nat.eqb x) l.
Fixpoint nodupz (l : list Z) : bool := match l with [] => true | x :: r => negb (memz x r) && nodupz r end.
Fixpoint nodupn (l : list nat) : bool := match l with [] => true | x :: r => negb (memn x r) && nodupn r end.
Lemma memz_in x l : memz x l = true <-> In x l.
Proof. unfold memz. rewrite existsb_exists. split; [intros (y & I & E); apply Z.eqb_eq in E; now subst|]. intros I. exists x. split; auto. apply Z.eqb_refl. Qed.
Lemma memn_in x l : memn x l = true <-> In x l.
Proof. unfold memn. rewrite existsb_exists. split; [intros (y & I & E); apply Nat.eqb_eq in E; now subst|]. intros I. exists x. split; auto. apply Nat.eqb_refl. Qed.
Lemma nodupz_ok l : nodupz l = true -> NoDup l.
Proof. induction l as [|x l IH]; [constructor|]. cbn. intros H. apply andb_true_iff in H as (H1 & H2). constructor; auto. intros I. apply memz_in in I. now rewrite I in H1. Qed.
Lemma nodupn_ok l : nodupn l = true -> NoDup l.
Proof. induction l as [|x l IH]; [constructor|]. cbn. intros H. apply andb_true_iff in H as (H1 & H2). constructor; auto. intros I. apply memn_in in I. now rewrite I in H1. Qed.

Definition number {A} (l : list A) : list (nat * A) := combine (seq 0 (length l)) l.
Lemma number_in A (l : list A) i x : nth_error l i = Some x -> In (i, x) (number l).
Proof.
  intros H. unfold number. eapply nth_error_In with (n := i). apply nth_combine2; auto. rewrite nth_error_seq; auto. apply nth_error_Some. congruence.
Qed.
Definition ent_okb (hs : list hdim) (p : nat) (m : pmesh) (e : ment) : bool :=
  nodupn (en_adj e) && forallb (fun i => i <? length (pm_prim m)) (en_adj e) && nodupz (en_res e) &&
  forallb (fun q => memz q (map Z.of_nat (seq 0 (length hs)))) (en_res e) &&
  forallb (fun qh => Bool.eqb (memz (Z.of_nat (fst qh)) (en_res e)) (memz (en_gid e) (gids (snd qh)))) (number hs) &&
  Bool.eqb (en_shared e) (existsb (fun q => negb (Z.eqb q (Z.of_nat p))) (en_res e)).
Definition row_okb (h : hdim) (i : nat) (row : list nat) : bool :=
  nodupn row && forallb (fun k => k <? length (h_ents h)) row && forallb (fun ke => Bool.eqb (memn (fst ke) row) (memn i (en_adj (fst (snd ke))))) (number (h_ents h)).
Definition part_okb (hs : list hdim) (p : nat) (m : pmesh) (h : hdim) : bool :=
  (length (h_down h) =? length (pm_prim m)) && nodupz (gids h) && forallb (fun x => ent_okb hs p m (fst x)) (h_ents h) && forallb (fun ir => row_okb h (fst ir) (snd ir)) (number (h_down h)).
Definition copies_okb (ms : list pmesh) (hs : list hdim) : bool :=
  (length hs =? length ms) && forallb (fun x => part_okb hs (fst x) (fst (snd x)) (snd (snd x))) (number (combine ms hs)).
Lemma part_at ms hs p m h : copies_okb ms hs = true -> nth_error ms p = Some m -> nth_error hs p = Some h -> part_okb hs p m h = true.
Proof. intros H Hm Hh. apply andb_true_iff in H as (_ & H). rewrite forallb_forall in H. exact (H (p, (m, h)) (number_in _ _ _ _ (nth_combine2 _ _ _ _ _ _ _ Hm Hh))). Qed.
Lemma m_at ms hs p h : copies_okb ms hs = true -> nth_error hs p = Some h -> exists m, nth_error ms p = Some m.
Proof. intros H Hh. apply andb_true_iff in H as (H & _). apply Nat.eqb_eq in H. assert (L : p < length ms) by (rewrite <- H; apply nth_error_Some; congruence). apply nth_error_Some in L. destruct (nth_error ms p); [eauto|congruence]. Qed.
Lemma copies_okb_ok ms hs : copies_okb ms hs = true -> copies_ok ms hs.
Proof.
  intros H.
  assert (ENT : forall p h e w, nth_error hs p = Some h -> In (e, w) (h_ents h) -> exists m, nth_error ms p = Some m /\ ent_okb hs p m e = true).
  { intros p h e w Hh I. destruct (m_at ms hs p h H Hh) as (m & Hm). exists m. split; auto. pose proof (part_at ms hs p m h H Hm Hh) as K. unfold part_okb in K. rewrite !andb_true_iff in K. destruct K as ((_ & K) & _). rewrite forallb_forall in K. exact (K (e, w) I). }
  constructor.
  - apply andb_true_iff in H as (H & _). now apply Nat.eqb_eq.
  - intros p m h Hm Hh. pose proof (part_at ms hs p m h H Hm Hh) as K. unfold part_okb in K. rewrite !andb_true_iff in K. destruct K as (((K & _) & _) & _). now apply Nat.eqb_eq.
  - intros p h Hh. destruct (m_at ms hs p h H Hh) as (m & Hm). pose proof (part_at ms hs p m h H Hm Hh) as K. unfold part_okb in K. rewrite !andb_true_iff in K. destruct K as (((_ & K) & _) & _). now apply nodupz_ok.
  - intros p m h e w Hm Hh I. destruct (ENT p h e w Hh I) as (m' & Hm' & K). assert (m' = m) by congruence. subst m'. unfold ent_okb in K. rewrite !andb_true_iff in K. destruct K as (((((K1 & K2) & _) & _) & _) & _). split; [now apply nodupn_ok|].
    intros i Ii. rewrite forallb_forall in K2. apply Nat.ltb_lt. auto.
  - intros p h i row Hh Hr. destruct (m_at ms hs p h H Hh) as (m & Hm). pose proof (part_at ms hs p m h H Hm Hh) as K. unfold part_okb in K. rewrite !andb_true_iff in K. destruct K as (_ & K). rewrite forallb_forall in K. specialize (K (i, row) (number_in _ _ _ _ Hr)). unfold row_okb in K. cbn [fst snd] in K.
    rewrite !andb_true_iff in K. destruct K as ((K1 & K2) & K3). split; [now apply nodupn_ok|]. rewrite forallb_forall in K2, K3. intros k. split.
    + intros Ik. pose proof (K2 k Ik) as L. apply Nat.ltb_lt, nth_error_Some in L. destruct (nth_error (h_ents h) k) as [(e, w)|] eqn:E; [|congruence]. exists e, w. split; auto. specialize (K3 _ (number_in _ _ _ _ E)). cbn [fst snd] in K3. apply eqb_prop in K3. apply memn_in. rewrite <- K3. now apply memn_in.
    + intros (e & w & E & Ia). specialize (K3 _ (number_in _ _ _ _ E)). cbn [fst snd] in K3. apply eqb_prop in K3. apply memn_in. rewrite K3. now apply memn_in.
  - intros p h e w Hh I. destruct (ENT p h e w Hh I) as (m & Hm & K). unfold ent_okb in K. rewrite !andb_true_iff in K. destruct K as (((((_ & _) & K0) & H1) & K2) & _). split; [now apply nodupz_ok|]. rewrite forallb_forall in H1, K2. intros q. split.
    + intros Iq. pose proof (H1 q Iq) as L. apply memz_in, in_map_iff in L as (q' & <- & L). apply in_seq in L. cbn in L. destruct L as (_ & L). apply nth_error_Some in L. destruct (nth_error hs q') as [h'|] eqn:E; [|congruence]. exists q', h'. split; auto. split; auto.
      specialize (K2 _ (number_in _ _ _ _ E)). cbn [fst snd] in K2. apply eqb_prop in K2. apply memz_in. rewrite <- K2. now apply memz_in.
    + intros (q' & h' & -> & E & Ig). specialize (K2 _ (number_in _ _ _ _ E)). cbn [fst snd] in K2. apply eqb_prop in K2. apply memz_in. rewrite K2. now apply memz_in.
  - intros p h e w Hh I. destruct (ENT p h e w Hh I) as (m & Hm & K). unfold ent_okb in K. rewrite !andb_true_iff in K. destruct K as (_ & K). apply eqb_prop in K. rewrite K, existsb_exists. split; intros (q & Iq & N); exists q; split; auto.
    + intros ->. now rewrite Z.eqb_refl in N. + now apply negb_true_iff, Z.eqb_neq.
Qed.
Definition owned_onceb (ms : list pmesh) : bool := nodupz (flat_map verts_of ms).
Lemma owned_onceb_ok ms : owned_onceb ms = true -> owned_once ms.
Proof.
  unfold owned_onceb. intros H. apply nodupz_ok in H. intros p q m m' i j v Hp Hq Hi Hj.
  assert (K : forall (l : list (Z * bool)) i j, NoDup (map fst (filter snd l)) -> nth_error l i = Some (v, true) -> nth_error l j = Some (v, true) -> i = j).
  { clear. induction l as [|(x, b) l IH]; intros [|i] [|j] N H1 H2; cbn in H1, H2; try discriminate; auto.
    - inversion H1; subst. cbn in N. inversion N as [|? ? NI _]; subst. exfalso. apply NI. apply in_map_iff. exists (v, true). split; auto. apply filter_In. split; auto. eapply nth_error_In; eauto.
    - inversion H2; subst. cbn in N. inversion N as [|? ? NI _]; subst. exfalso. apply NI. apply in_map_iff. exists (v, true). split; auto. apply filter_In. split; auto. eapply nth_error_In; eauto.
    - f_equal. apply IH; auto. cbn in N. destruct b; auto. now inversion N. }
  assert (IN : forall k (mk : pmesh), nth_error (pm_prim mk) k = Some (v, true) -> In v (verts_of mk)). { intros k mk Hk. unfold verts_of. apply in_map_iff. exists (v, true). split; auto. apply filter_In. split; auto. eapply nth_error_In; eauto. }
  revert p q Hp Hq H. induction ms as [|m0 ms IH]; intros [|p] [|q] Hp Hq H; cbn in Hp, Hq; try discriminate; cbn [flat_map] in H; apply NoDup_app_iff in H as (N1 & N2 & N3).
  - split; auto. inversion Hp; inversion Hq; subst. eapply K; eauto.
  - inversion Hp; subst m0. exfalso. apply (N3 v); [eapply IN; eauto|]. apply in_flat_map. exists m'. split; [eapply nth_error_In; eauto|eapply IN; eauto].
  - inversion Hq; subst m0. exfalso. apply (N3 v); [eapply IN; eauto|]. apply in_flat_map. exists m. split; [eapply nth_error_In; eauto|eapply IN; eauto].
  - destruct (IH p q Hp Hq N2) as (-> & ->). auto.
Qed.
