(** The disjoint sets kept by distance_visit, and the shift of the sets done by createDistanceQueue after each search. *)
From Verif Require Import Base GraphModel TagModel QueueModel BfsProofs.

(** ** following parents *)
Lemma fr_mono par : forall f f' k r, find_root f par k = Some r -> f <= f' -> find_root f' par k = Some r.
Proof.
  induction f as [|f IH]; intros f' k r H L; [discriminate|]. destruct f' as [|f']; [lia|]. cbn [find_root] in *. destruct (aget par k) as [p|]; [|discriminate]. cbn [obind] in *. destruct (p =? k); auto. eapply IH; eauto. lia.
Qed.
Lemma fr_det par f f' k r r' : find_root f par k = Some r -> find_root f' par k = Some r' -> r = r'.
Proof. intros A B. apply (fr_mono _ _ (f + f')) in A; [|lia]. apply (fr_mono _ _ (f + f')) in B; [|lia]. congruence. Qed.
Lemma fr_root par : forall f k r, find_root f par k = Some r -> aget par r = Some r.
Proof.
  induction f as [|f IH]; intros k r H; [discriminate|]. cbn [find_root] in H. destruct (aget par k) as [p|] eqn:E; [|discriminate]. cbn [obind] in H. destruct (Nat.eqb_spec p k) as [->|]; [congruence|eauto].
Qed.
Lemma fr_self par f r : aget par r = Some r -> find_root (S f) par r = Some r.
Proof. intros H. cbn [find_root]. rewrite H. cbn [obind]. now rewrite Nat.eqb_refl. Qed.
(** hanging the root k below the root l *)
Lemma fr_merge par k l : aget par k = Some k -> aget par l = Some l -> k <> l -> forall f x r, find_root f par x = Some r ->
  find_root (S f) (upd par k (Some l)) x = Some (if r =? k then l else r).
Proof.
  intros Hk Hl N. assert (Lk : k < length par) by (eapply aget_lt; eauto).
  assert (HL : aget (upd par k (Some l)) l = Some l) by (rewrite aget_upd_neq by auto; auto).
  induction f as [|f IH]; intros x r H; [discriminate|]. cbn [find_root] in H. destruct (aget par x) as [p|] eqn:E; [|discriminate]. cbn [obind] in H.
  destruct (Nat.eq_dec x k) as [->|Nx].
  - assert (p = k) by congruence. subst p. rewrite Nat.eqb_refl in H. inversion H; subst r. rewrite Nat.eqb_refl. change (find_root (S (S f)) (upd par k (Some l)) k) with (p <- aget (upd par k (Some l)) k ;; if p =? k then Some k else find_root (S f) (upd par k (Some l)) p).
    rewrite aget_upd_eq by auto. cbn [obind]. destruct (Nat.eqb_spec l k); [congruence|]. now apply fr_self.
  - change (find_root (S (S f)) (upd par k (Some l)) x) with (p <- aget (upd par k (Some l)) x ;; if p =? x then Some x else find_root (S f) (upd par k (Some l)) p).
    rewrite aget_upd_neq, E by auto. cbn [obind]. destruct (Nat.eqb_spec p x) as [->|Np]; [inversion H; subst r; destruct (Nat.eqb_spec x k); [contradiction|auto]|]. apply IH. auto.
Qed.
Lemma filter_drop {A} (f g : A -> bool) l k : NoDup l -> In k l -> f k = true -> g k = false -> (forall x, x <> k -> f x = g x) -> length (filter f l) = S (length (filter g l)).
Proof.
  intros ND I Fk Gk H. induction ND as [|x l NI ND IH]; [destruct I|]. cbn [filter]. destruct I as [->|I].
  - rewrite Fk, Gk. cbn [length]. f_equal. f_equal. apply filter_ext_in. intros y Hy. apply H. intros ->. contradiction.
  - assert (x <> k) by (intros ->; contradiction). rewrite <- (H x) by auto. destruct (f x); cbn [length]; rewrite IH; auto.
Qed.
Lemma filter_sum {A} (f g h : A -> bool) l : (forall x, In x l -> (f x = true /\ g x = true /\ h x = false) \/ (f x = true /\ g x = false /\ h x = true) \/ (f x = false /\ g x = false /\ h x = false)) ->
  length (filter f l) = length (filter g l) + length (filter h l).
Proof.
  induction l as [|x l IH]; intros H; [reflexivity|]. cbn [filter]. assert (IH' := IH (fun y Hy => H y (or_intror Hy))). destruct (H x (or_introl eq_refl)) as [(A1 & B & C)|[(A1 & B & C)|(A1 & B & C)]]; rewrite A1, B, C; cbn [length]; lia.
Qed.

Section Sets.
Variables (ne nv : nat) (pins il : nat -> list nat) (O S0 : list nat) (Cn : nat -> nat -> Prop) (bfuel : nat).
Notation m := (length S0).
Hypothesis Hm : m + 1 <= bfuel.
Hypothesis Crefl : forall a, Cn a a.
Hypothesis Csym : forall a b, Cn a b -> Cn b a.
Hypothesis Ctrans : forall a b c, Cn a b -> Cn b c -> Cn a c.
Hypothesis Cadj : forall a b, adj nv pins il a b -> Cn a b.

Definition lz (s : inputs) (e : nat) : Z := match aget (in_lab s) e with Some z => z | None => (-1)%Z end.
(** the set of an edge *)
Definition cls (rt : nat -> nat) (s : inputs) (e : nat) : nat := rt (Z.to_nat (lz s e)).
Definition members (rt : nat -> nat) (s : inputs) (R : list nat) (k : nat) : list nat := filter (fun e => cls rt s e =? k) R.
Definition roots (rt : nat -> nat) : list nat := filter (fun k => rt k =? k) (seq 0 m).
(** R are the edges of this search, rt gives the root of a label *)
Record SOK (rt : nat -> nat) (R : list nat) (s : inputs) : Prop := {
  k_os : in_osets s = m;
  k_lab : length (in_lab s) = ne /\ forall e, e < ne -> exists z, aget (in_lab s) e = Some z;
  k_seed : forall i e, nth_error S0 i = Some e -> In e R /\ aget (in_lab s) e = Some (Z.of_nat i);
  k_get : forall e, In e R -> exists k, k < m /\ aget (in_lab s) e = Some (Z.of_nat k);
  k_new : forall e, ~ In e (O ++ R) -> e < ne -> aget (in_lab s) e = Some (-1)%Z;
  k_par : length (in_par s) = m;
  k_root : forall k, k < m -> rt k < m /\ rt (rt k) = rt k /\ find_root (m - in_sets s + 1) (in_par s) k = Some (rt k);
  k_sets : in_sets s = length (roots rt);
  k_size : length (in_size s) = m /\ forall k, k < m -> aget (in_size s) k = Some (if rt k =? k then Z.of_nat (length (members rt s R k)) else 0%Z);
  k_sound : forall a b, In a R -> In b R -> cls rt s a = cls rt s b -> Cn a b }.
Definition XS (L : list nat) (s : inputs) : Prop := exists R rt, L = O ++ R /\ SOK rt R s.
Definition root_of (s : inputs) (e : nat) : option nat := z <- aget (in_lab s) e ;; k <- index z ;; find_root (m + 1) (in_par s) k.
Definition JS (s : inputs) (a b : nat) : Prop := exists r, root_of s a = Some r /\ root_of s b = Some r.

Lemma index_nat k : index (Z.of_nat k) = Some k.
Proof. unfold index. destruct (Z.leb_spec 0 (Z.of_nat k)); [now rewrite Nat2Z.id|lia]. Qed.
Lemma cls_of rt s e k : aget (in_lab s) e = Some (Z.of_nat k) -> cls rt s e = rt k.
Proof. intros H. unfold cls, lz. rewrite H, Nat2Z.id. auto. Qed.
Lemma root_fuel rt R s k f : SOK rt R s -> k < m -> m + 1 <= f -> find_root f (in_par s) k = Some (rt k).
Proof. intros H L F. eapply fr_mono; [apply (k_root _ _ _ H k L)|lia]. Qed.
Lemma root_of_ok rt R s e : SOK rt R s -> In e R -> root_of s e = Some (cls rt s e).
Proof.
  intros H I. destruct (k_get _ _ _ H e I) as (k & L & E). unfold root_of. rewrite E. cbn [obind]. rewrite index_nat. cbn [obind]. rewrite (root_fuel rt R s k) by (auto; lia). now rewrite (cls_of _ _ _ _ E).
Qed.
Lemma sets_pos rt R s : SOK rt R s -> 0 < m -> 1 <= in_sets s <= m.
Proof.
  intros H L. rewrite (k_sets _ _ _ H). unfold roots. split.
  - destruct (k_root _ _ _ H 0 L) as (A & B & _). assert (I : In (rt 0) (filter (fun k => rt k =? k) (seq 0 m))) by (apply filter_In; split; [apply in_seq; lia|now apply Nat.eqb_eq]). destruct (filter _ (seq 0 m)); [destruct I|cbn; lia].
  - rewrite <- (seq_length m 0) at 2. generalize (seq 0 m). intros l. induction l as [|x l IH]; cbn; [lia|]. destruct (rt x =? x); cbn; lia.
Qed.

Lemma distance_contract : contract ne nv pins il (distance_visit bfuel) XS JS (fun e => In e O).
Proof.
  intros L s a b C (R & rt & -> & K) Ia Oa Lb Ob AB. assert (IaR : In a R) by (apply in_app_iff in Ia as [Ia|Ia]; [contradiction|auto]). assert (La : a < ne) by (apply C; auto).
  destruct (k_get _ _ _ K a IaR) as (ka & Lka & Eka). assert (M0 : 0 < m) by lia. pose proof (sets_pos _ _ _ K M0) as SP.
  unfold distance_visit. rewrite Eka. cbn [obind]. rewrite (core_get ne _ s a C La). cbn [obind]. destruct (Z.eqb_spec (Z.of_nat ka) (-1)); [lia|]. rewrite index_nat. cbn [obind]. rewrite (root_fuel rt R s ka) by auto. cbn [obind].
  rewrite (core_get ne _ s b C Lb). cbn [obind]. pose proof (core_in ne _ s b C) as IB. destruct (k_root _ _ _ K ka Lka) as (Ll & Rl & _). set (l := rt ka) in *. assert (CA : cls rt s a = l) by exact (cls_of rt s a ka Eka).
  destruct (Z.eqb_spec (vz s b) (-1)) as [E|NEQ].
  - (* a new edge *)
    assert (NI : ~ In b (O ++ R)) by (intros I; apply IB in I; auto). pose proof C as ((S1 & S2 & _) & (V1 & _)). destruct (k_lab _ _ _ K) as (LL & LG). destruct (k_size _ _ _ K) as (ZL & ZG).
    rewrite aset_some by (rewrite S1, S2; eapply seeds_full; eauto; apply C). rewrite aset_some by lia. cbn [obind]. rewrite aset_some by lia. cbn [obind]. rewrite (ZG l Ll), Rl, Nat.eqb_refl. cbn [obind]. rewrite aset_some by lia. cbn [obind].
    set (s' := mkIn _ _ _ _ _ _ _ _). assert (Z0 : (0 <= vz s a + 1)%Z) by (destruct C as (_ & _ & _ & P & _); pose proof (P a Ia); lia).
    destruct (core_add ne (O ++ R) s b (vz s a + 1)%Z s' C NI Lb Z0) as (A & B & D); cbn [in_seeds in_n in_vis s']; auto.
    { apply aset_some. rewrite S1, S2. eapply seeds_full; eauto. apply C. } { apply aset_some. lia. }
    assert (GB : aget (in_lab s') b = Some (Z.of_nat l)) by (cbn [in_lab s']; rewrite aget_upd_eq by lia; auto).
    assert (GE : forall e, e <> b -> aget (in_lab s') e = aget (in_lab s) e) by (intros e Ne; cbn [in_lab s']; apply aget_upd_neq; auto).
    assert (NR : ~ In b R) by (intros I; apply NI, in_app_iff; auto).
    assert (CE : forall e, In e R -> cls rt s' e = cls rt s e) by (intros e He; unfold cls, lz; rewrite GE; auto; intros ->; contradiction).
    assert (CB : cls rt s' b = l) by (rewrite (cls_of _ _ _ _ GB); auto).
    assert (MM : forall k, members rt s' (R ++ [b]) k = members rt s R k ++ if l =? k then [b] else []).
    { intros k. unfold members. rewrite filter_app. cbn [filter]. rewrite CB. f_equal. apply filter_ext_in. intros e He. now rewrite CE. }
    assert (K' : SOK rt (R ++ [b]) s').
    { split.
      - apply (k_os _ _ _ K). - cbn [in_lab s']. rewrite upd_length. split; auto. intros e He. destruct (Nat.eq_dec e b) as [->|Ne]; [rewrite aget_upd_eq by lia; eauto|]. rewrite aget_upd_neq by auto. auto.
      - intros i e He. destruct (k_seed _ _ _ K i e He) as (P & Q). split; [apply in_app_iff; auto|]. rewrite GE by (intros ->; contradiction). auto.
      - intros e He. apply in_app_iff in He as [He|[<-|[]]]; [|exists l; auto]. rewrite GE by (intros ->; contradiction). apply (k_get _ _ _ K); auto.
      - intros e He Le. rewrite !in_app_iff in He. rewrite GE by (intros ->; apply He; right; right; left; auto). apply (k_new _ _ _ K); auto. rewrite in_app_iff. tauto.
      - apply (k_par _ _ _ K). - apply (k_root _ _ _ K). - apply (k_sets _ _ _ K).
      - cbn [in_size s']. rewrite upd_length. split; auto. intros k Lk. rewrite MM, app_length. destruct (Nat.eq_dec k l) as [->|Nk].
        + rewrite aget_upd_eq by lia. rewrite Rl, !Nat.eqb_refl. cbn [length]. f_equal. lia.
        + rewrite aget_upd_neq by auto. rewrite ZG by auto. destruct (rt k =? k); auto. destruct (Nat.eqb_spec l k); [congruence|]. cbn [length]. f_equal. lia.
      - intros x y Hx Hy. apply in_app_iff in Hx as [Hx|[<-|[]]]; apply in_app_iff in Hy as [Hy|[<-|[]]]; rewrite ?CB, ?(CE x), ?(CE y) by auto.
        + apply (k_sound _ _ _ K); auto.
        + intros H. apply (Ctrans _ a); [apply (k_sound _ _ _ K); auto; congruence|auto].
        + intros H. apply Csym, (Ctrans _ a); [apply (k_sound _ _ _ K); auto; congruence|auto].
        + intros _. apply Crefl. }
    exists s', true. split; [reflexivity|]. split; [|split].
    + intros c d (r & Hc & Hd). assert (P : forall e, root_of s e = Some r -> root_of s' e = Some r).
      { intros e He. unfold root_of in *. destruct (Nat.eq_dec e b) as [->|Ne]; [rewrite (k_new _ _ _ K b NI Lb) in He; discriminate|]. rewrite GE by auto. exact He. }
      exists r. auto.
    + exists l. split; [rewrite (root_of_ok rt (R ++ [b]) s' a K') by (apply in_app_iff; auto); rewrite CE by auto; congruence|]. rewrite (root_of_ok rt (R ++ [b]) s' b K') by (apply in_app_iff; right; left; auto); congruence.
    + right. split; auto. split; auto. split; auto. split; [|auto]. exists (R ++ [b]), rt. rewrite app_assoc. auto.
  - (* an edge that has been seen *)
    assert (Ib : In b (O ++ R)) by (apply IB; auto). assert (IbR : In b R) by (apply in_app_iff in Ib as [Ib|Ib]; [contradiction|auto]).
    destruct (k_get _ _ _ K b IbR) as (kb & Lkb & Ekb). rewrite Ekb. cbn [obind]. rewrite index_nat. cbn [obind]. rewrite (root_fuel rt R s kb) by auto. cbn [obind].
    destruct (k_root _ _ _ K kb Lkb) as (Lk & Rk & _). set (k := rt kb) in *. assert (CB : cls rt s b = k) by exact (cls_of rt s b kb Ekb).
    destruct (Nat.eqb_spec l k) as [EQ|Nlk].
    + exists s, false. split; [reflexivity|]. split; [auto|]. split.
      * exists l. rewrite !(root_of_ok rt R) by auto. split; congruence.
      * left. split; auto. split; auto. split; auto. split; [exists R, rt; auto|auto].
    + destruct (k_size _ _ _ K) as (ZL & ZG). rewrite (ZG l Ll), (ZG k Lk), Rl, Rk, !Nat.eqb_refl. cbn [obind]. rewrite aset_some by lia. cbn [obind]. rewrite aset_some by (rewrite upd_length; lia). cbn [obind]. rewrite aset_some by (rewrite (k_par _ _ _ K); lia). cbn [obind].
      set (s' := mkIn _ _ _ _ _ _ _ _). set (rt' := fun x => if rt x =? k then l else rt x).
      assert (Pk : aget (in_par s) k = Some k) by (eapply fr_root; apply (k_root _ _ _ K kb Lkb)). assert (Pl : aget (in_par s) l = Some l) by (eapply fr_root; apply (k_root _ _ _ K ka Lka)).
      assert (FR : forall f x r, find_root f (in_par s) x = Some r -> find_root (S f) (in_par s') x = Some (if r =? k then l else r)) by (intros f x r; cbn [in_par s']; apply fr_merge; auto).
      assert (NRT : length (roots rt) = S (length (roots rt'))).
      { apply filter_drop with (k := k); [apply seq_NoDup|apply in_seq; lia|now apply Nat.eqb_eq| |].
        - unfold rt'. rewrite Rk, Nat.eqb_refl. now apply Nat.eqb_neq.
        - intros x Nx. unfold rt'. destruct (Nat.eqb_spec (rt x) k) as [Ex|Ex]; auto. rewrite Ex. destruct (Nat.eqb_spec k x); [congruence|]. symmetry. apply Nat.eqb_neq. intros El. subst x. congruence. }
      assert (CE : forall e, cls rt' s' e = if cls rt s e =? k then l else cls rt s e) by reflexivity.
      assert (K' : SOK rt' R s').
      { split.
        - apply (k_os _ _ _ K). - apply (k_lab _ _ _ K). - apply (k_seed _ _ _ K). - apply (k_get _ _ _ K). - apply (k_new _ _ _ K). - cbn [in_par s']. rewrite upd_length. apply (k_par _ _ _ K).
        - intros x Lx. destruct (k_root _ _ _ K x Lx) as (A & B & D). unfold rt' at 1 2 4. split; [destruct (rt x =? k); auto|]. split.
          + unfold rt'. destruct (Nat.eqb_spec (rt x) k) as [E|E]; [rewrite Rl; destruct (Nat.eqb_spec l k); congruence|]. rewrite B. destruct (Nat.eqb_spec (rt x) k); congruence.
          + eapply fr_mono; [apply FR; exact D|]. cbn [in_sets s']. lia.
        - cbn [in_sets s']. rewrite (k_sets _ _ _ K), NRT. lia.
        - cbn [in_size s']. rewrite !upd_length. split; auto. intros x Lx. destruct (Nat.eq_dec x k) as [->|Nk].
          + rewrite aget_upd_eq by (rewrite upd_length; lia). unfold rt'. rewrite Rk, Nat.eqb_refl. destruct (Nat.eqb_spec l k); [congruence|auto].
          + rewrite aget_upd_neq by auto. destruct (Nat.eq_dec x l) as [->|Nl].
            * rewrite aget_upd_eq by lia. unfold rt' at 1. rewrite Rl. destruct (Nat.eqb_spec l k); [congruence|]. rewrite Nat.eqb_refl. rewrite <- Nat2Z.inj_add. do 2 f_equal. symmetry. unfold members. apply filter_sum. intros e He. rewrite CE.
              destruct (Nat.eqb_spec (cls rt s e) k) as [Ek|Ek]; destruct (Nat.eqb_spec (cls rt s e) l) as [El|El]; try congruence; rewrite ?Nat.eqb_refl; auto.
            * rewrite aget_upd_neq by auto. rewrite (ZG x Lx). unfold rt'. destruct (Nat.eqb_spec (rt x) k) as [Ek|Ek]; [rewrite Ek; destruct (Nat.eqb_spec k x), (Nat.eqb_spec l x); congruence|].
              destruct (rt x =? x); auto. do 2 f_equal. unfold members. apply f_equal, filter_ext_in. intros e He. rewrite CE. destruct (Nat.eqb_spec (cls rt s e) k) as [E1|E1]; auto. rewrite E1. destruct (Nat.eqb_spec k x), (Nat.eqb_spec l x); congruence.
        - assert (Sa : forall x, In x R -> cls rt s x = l -> Cn x a) by (intros x Hx E; apply (k_sound _ _ _ K); auto; congruence).
          assert (Sb : forall x, In x R -> cls rt s x = k -> Cn x a) by (intros x Hx E; apply (Ctrans _ b); [apply (k_sound _ _ _ K); auto; congruence|apply Csym, Cadj; auto]).
          intros x y Hx Hy. rewrite !CE. destruct (Nat.eqb_spec (cls rt s x) k) as [Ex|Ex]; destruct (Nat.eqb_spec (cls rt s y) k) as [Ey|Ey]; intros H.
          + apply (Ctrans _ a); auto. + apply (Ctrans _ a); auto. + apply (Ctrans _ a); auto. + apply (k_sound _ _ _ K); auto. }
      exists s', false. split; [reflexivity|]. split; [|split].
      * intros c d (r & Hc & Hd). assert (P : forall e, root_of s e = Some r -> root_of s' e = Some (if r =? k then l else r)).
        { intros e He. unfold root_of in *. cbn [in_lab s']. destruct (aget (in_lab s) e) as [z|]; [|discriminate]. cbn [obind] in *. destruct (index z) as [q|]; [|discriminate]. cbn [obind] in *.
          assert (Lq : q < m). { rewrite <- (k_par _ _ _ K). destruct (aget (in_par s) q) as [p|] eqn:Ep; [eapply aget_lt; eauto|]. destruct (m + 1); cbn [find_root] in He; [discriminate|]. rewrite Ep in He. discriminate. }
          rewrite (root_fuel rt R s q) in He by (auto; lia). inversion He; subst r. rewrite (root_fuel rt' R s' q) by (auto; lia). reflexivity. }
        eexists. split; eauto.
      * exists l. rewrite !(root_of_ok rt' R s') by auto. rewrite !CE, CA, CB, Nat.eqb_refl. destruct (Nat.eqb_spec l k); [congruence|auto].
      * left. split; auto. split; auto. split; [split; apply C|]. split; [exists R, rt'; auto|auto].
Qed.

(** the state in which a search starts *)
Lemma sets_start s : NoDup S0 -> (forall e, In e S0 -> ~ In e O) -> in_osets s = m -> in_sets s = m -> in_par s = ainit (seq 0 m) -> in_size s = ainit (repeat 1%Z m) ->
  length (in_lab s) = ne -> (forall e, e < ne -> exists z, aget (in_lab s) e = Some z) -> (forall e, ~ In e (O ++ S0) -> e < ne -> aget (in_lab s) e = Some (-1)%Z) ->
  (forall i e, nth_error S0 i = Some e -> aget (in_lab s) e = Some (Z.of_nat i)) -> SOK (fun k => k) S0 s.
Proof.
  intros ND DJ EO ES EP EZ LL LG LN LI.
  assert (PK : forall k, k < m -> aget (in_par s) k = Some k) by (intros k Lk; rewrite EP, aget_ainit, nth_error_seq by auto; auto).
  assert (RT : roots (fun k => k) = seq 0 m). { unfold roots. rewrite (filter_ext _ (fun _ => true)); [|intros; apply Nat.eqb_refl]. generalize (seq 0 m). induction l; cbn; congruence. }
  split; auto.
  - intros i e He. split; [eapply nth_error_In; eauto|auto].
  - intros e He. apply In_nth_error in He as (i & Hi). exists i. split; [apply nth_error_Some; congruence|eauto].
  - rewrite EP. unfold ainit. now rewrite map_length, seq_length.
  - intros k Lk. split; auto. split; auto. rewrite ES, Nat.sub_diag. apply fr_self. auto.
  - now rewrite RT, seq_length.
  - rewrite EZ. split; [unfold ainit; now rewrite map_length, repeat_length|]. intros k Lk. rewrite aget_ainit, nth_error_repeat_lt by auto. rewrite Nat.eqb_refl. f_equal.
    destruct (nth_error S0 k) as [e|] eqn:E; [|apply nth_error_None in E; lia]. assert (MM : members (fun x => x) s S0 k = [e]); [|now rewrite MM].
    unfold members. assert (P : forall x, In x S0 -> (cls (fun x => x) s x =? k) = (x =? e)).
    { intros x Hx. apply In_nth_error in Hx as (i & Hi). rewrite (cls_of _ _ _ _ (LI i x Hi)). destruct (Nat.eqb_spec i k) as [->|N]; [symmetry; apply Nat.eqb_eq; congruence|]. symmetry. apply Nat.eqb_neq. intros ->. apply N.
      eapply (proj1 (NoDup_nth_error S0) ND); [apply nth_error_Some; congruence|congruence]. }
    rewrite (filter_ext_in _ _ S0 P). apply nth_error_In in E. clear - ND E. induction ND as [|x l NI ND IH]; [destruct E|]. cbn [filter]. destruct (Nat.eqb_spec x e) as [->|N].
    + f_equal. assert (G : forall y, In y l -> (y =? e) = false) by (intros y Hy; apply Nat.eqb_neq; intros ->; contradiction). clear - G. induction l as [|y l IH]; [reflexivity|]. cbn [filter]. rewrite (G y (or_introl eq_refl)). apply IH. intros z Hz. apply G. right; auto.
    + destruct E as [E|E]; [contradiction|auto].
  - intros a b Ha Hb. apply In_nth_error in Ha as (i & Hi). apply In_nth_error in Hb as (j & Hj). rewrite (cls_of _ _ _ _ (LI i a Hi)), (cls_of _ _ _ _ (LI j b Hj)). intros <-. replace b with a by congruence. apply Crefl.
Qed.

(** ** separating the sets *)
Lemma largest_ok (sz : arr Z) : length sz = m -> 0 < m -> (forall k, k < m -> exists z, aget sz k = Some z) ->
  exists l z, largest sz m = Some l /\ l < m /\ aget sz l = Some z /\ forall j y, j < m -> aget sz j = Some y -> (y <= z)%Z.
Proof.
  intros LZ M0 G. unfold largest.
  assert (P : forall n, n <= m - 1 -> exists l z, foldM (fun l j => a <- aget sz j ;; b <- aget sz l ;; Some (if (b <? a)%Z then j else l)) (seq 1 n) 0 = Some l /\ l < m /\ aget sz l = Some z /\ forall j y, j < 1 + n -> aget sz j = Some y -> (y <= z)%Z).
  { induction n as [|n IH]; intros Ln.
    - destruct (G 0 M0) as (z & Ez). exists 0, z. split; [reflexivity|]. split; auto. split; auto. intros j y Lj Hy. assert (j = 0) by lia. subst j. assert (y = z) by congruence. lia.
    - destruct IH as (l & z & E & Ll & Ez & B); [lia|]. rewrite seq_S, foldM_app, E. cbn [obind foldM Nat.add]. destruct (G (S n)) as (x & Ex); [lia|]. rewrite Ex, Ez. cbn [obind]. destruct (Z.ltb_spec z x).
      + exists (S n), x. split; [reflexivity|]. split; [lia|]. split; auto. intros j y Lj Hy. destruct (Nat.eq_dec j (S n)) as [->|N]; [assert (y = x) by congruence; lia|]. assert (y <= z)%Z by (apply (B j y); auto; lia). lia.
      + exists l, z. split; [reflexivity|]. split; auto. split; auto. intros j y Lj Hy. destruct (Nat.eq_dec j (S n)) as [->|N]; [assert (y = x) by congruence; lia|]. apply (B j y); auto. lia. }
  destruct (P (m - 1)) as (l & z & E & Ll & Ez & B); [lia|]. exists l, z. split; auto. split; auto. split; auto. intros j y Lj. apply B. lia.
Qed.
(** the edges of set l are moved back *)
Lemma shift_ok rt R s l add (vis0 : arr Z) sd0 n0 os0 st0 sz0 : SOK rt R s -> Seeds ne (O ++ R) s -> length vis0 = ne -> (forall e, e < ne -> exists z, aget vis0 e = Some z) ->
  in_seeds s = sd0 -> in_n s = n0 ->
  exists vis, shift_set bfuel (length O) (mkIn sd0 n0 vis0 os0 st0 (in_par s) sz0 (in_lab s)) l add = Some vis /\ length vis = ne /\
    forall e, e < ne -> exists z, aget vis0 e = Some z /\ aget vis e = Some (if in_dec Nat.eq_dec e R then if (cls rt s e =? l)%nat then z + add else z else z)%Z.
Proof.
  intros K HS LV GV <- <-. pose proof HS as (S1 & S2 & S3 & S4 & S5). unfold shift_set. cbn [in_seeds in_n in_vis in_lab in_par]. assert (EN : in_n s - length O = length R) by (rewrite S2, app_length; lia). rewrite EN. clear EN.
  assert (NDR : NoDup R) by (apply NoDup_app_iff in S4; apply S4).
  assert (P : forall r D (vs : arr Z), R = D ++ r -> length vs = ne -> (forall e, e < ne -> exists z, aget vs e = Some z) ->
     exists vs', foldM (fun vis j => e <- aget (in_seeds s) j ;; lab <- aget (in_lab s) e ;;
           if (lab <? 0)%Z then Some vis
           else k0 <- index lab ;; k <- find_root bfuel (in_par s) k0 ;; if k =? l then d <- aget vis e ;; aset vis e (d + add)%Z else Some vis) (seq (length O + length D) (length r)) vs = Some vs' /\ length vs' = ne /\
       forall e, e < ne -> exists z, aget vs e = Some z /\ aget vs' e = Some (if in_dec Nat.eq_dec e r then if (cls rt s e =? l)%nat then z + add else z else z)%Z).
  { induction r as [|x r IH]; intros D vs ED LS GS; cbn [length seq foldM].
    { exists vs. split; auto. split; auto. intros e Le. destruct (GS e Le) as (z & Ez). exists z. split; auto. }
    assert (GX : aget (in_seeds s) (length O + length D) = Some x). { rewrite S3 by (rewrite ED, !app_length; cbn; lia). rewrite nth_error_app2 by lia. replace (length O + length D - length O) with (length D) by lia. rewrite ED, nth_error_app2, Nat.sub_diag by lia. reflexivity. }
    rewrite GX. cbn [obind]. assert (IX : In x R) by (rewrite ED; apply in_app_iff; right; left; auto). assert (LX : x < ne) by (apply S5, in_app_iff; auto).
    destruct (k_get _ _ _ K x IX) as (k & Lk & Ek). rewrite Ek. cbn [obind]. destruct (Z.ltb_spec (Z.of_nat k) 0); [lia|]. rewrite index_nat. cbn [obind]. rewrite (root_fuel rt R s k) by auto. cbn [obind]. rewrite <- (cls_of rt s x k Ek).
    assert (NXR : ~ In x r). { rewrite ED in NDR. apply NoDup_app_iff in NDR as (_ & NDR & _). now inversion NDR. }
    assert (STEP : exists vs1, (if cls rt s x =? l then d <- aget vs x ;; aset vs x (d + add)%Z else Some vs) = Some vs1 /\ length vs1 = ne /\ (forall e, e <> x -> aget vs1 e = aget vs e) /\ exists z, aget vs x = Some z /\ aget vs1 x = Some (if (cls rt s x =? l)%nat then z + add else z)%Z).
    { destruct (GS x LX) as (z & Ez). destruct (cls rt s x =? l).
      - rewrite Ez. cbn [obind]. rewrite aset_some by lia. eexists. split; [reflexivity|]. rewrite upd_length. split; auto. split; [intros e Ne; now rewrite aget_upd_neq by auto|]. exists z. split; auto. now rewrite aget_upd_eq by lia.
      - exists vs. split; auto. split; auto. split; auto. exists z. auto. }
    destruct STEP as (vs1 & E1 & L1 & OT & (zx & Ex1 & Ex2)). rewrite E1. cbn [obind]. destruct (IH (D ++ [x]) vs1) as (vs' & E & L' & A); [rewrite <- app_assoc; auto|auto| |].
    { intros e Le. destruct (Nat.eq_dec e x) as [->|N]; [eauto|]. rewrite OT by auto. auto. }
    rewrite app_length in E. cbn [length] in E. replace (S (length O + length D)) with (length O + (length D + 1)) by lia. exists vs'. split; auto. split; auto. intros e Le. destruct (A e Le) as (z & Az & Bz). destruct (Nat.eq_dec e x) as [->|N].
    - exists zx. split; auto. rewrite Bz. destruct (in_dec Nat.eq_dec x r); [contradiction|]. destruct (in_dec Nat.eq_dec x (x :: r)) as [_|NI]; [|exfalso; apply NI; left; auto]. congruence.
    - exists z. rewrite <- OT by auto. split; auto. rewrite Bz. destruct (in_dec Nat.eq_dec e r) as [I|I]; destruct (in_dec Nat.eq_dec e (x :: r)) as [I'|I']; auto; [exfalso; apply I'; right; auto|]. destruct I' as [I'|I']; [congruence|contradiction]. }
  destruct (P R [] vis0 eq_refl LV GV) as (vs & E & L' & A). cbn [length] in E. rewrite Nat.add_0_r in E. exists vs. auto.
Qed.

(** what separating gives: offset per set, the ranges of the sets one after the other from the largest to the smallest *)
Definition size_of (rt : nat -> nat) (s : inputs) (R : list nat) (k : nat) : Z := Z.of_nat (length (members rt s R k)).
Record separated (rt : nat -> nat) (R : list nat) (s : inputs) (D : list nat) (off : nat -> Z) (add : Z) (t : inputs) : Prop := {
  sp_same : in_seeds t = in_seeds s /\ in_n t = in_n s /\ in_osets t = in_osets s /\ in_sets t = in_sets s /\ in_par t = in_par s /\ in_lab t = in_lab s;
  sp_done : NoDup D /\ forall k, In k D -> In k (roots rt);
  sp_size : length (in_size t) = m /\ forall k, k < m -> aget (in_size t) k = Some (if in_dec Nat.eq_dec k D then 0%Z else if rt k =? k then size_of rt s R k else 0%Z);
  sp_len : length (in_vis t) = ne; sp_def : forall e, e < ne -> exists z, aget (in_vis t) e = Some z;
  sp_vz : forall e, e < ne -> vz t e = (vz s e + if in_dec Nat.eq_dec e R then if in_dec Nat.eq_dec (cls rt s e) D then off (cls rt s e) else 0 else 0)%Z;
  sp_add : (0 <= add)%Z; sp_off : forall k, In k D -> (0 <= off k /\ off k + size_of rt s R k <= add)%Z;
  sp_big : forall k j, In k D -> In j (roots rt) -> ~ In j D -> (size_of rt s R j <= size_of rt s R k)%Z;
  sp_ord : forall k j, In k D -> In j D -> k <> j -> (off k + size_of rt s R k <= off j /\ size_of rt s R j <= size_of rt s R k)%Z \/ (off j + size_of rt s R j <= off k /\ size_of rt s R k <= size_of rt s R j)%Z }.
Lemma in_roots rt k : In k (roots rt) <-> k < m /\ rt k = k.
Proof. unfold roots. rewrite filter_In, in_seq, Nat.eqb_eq. split; intros (A & B); split; auto; lia. Qed.
Lemma size_pos rt R s k : SOK rt R s -> In k (roots rt) -> (0 < size_of rt s R k)%Z.
Proof.
  intros K H. apply in_roots in H as (Lk & Rk). destruct (nth_error S0 k) as [e|] eqn:E; [|apply nth_error_None in E; lia]. destruct (k_seed _ _ _ K k e E) as (I & EL).
  assert (M : In e (members rt s R k)) by (unfold members; apply filter_In; split; auto; apply Nat.eqb_eq; rewrite (cls_of rt s e k EL); auto). unfold size_of. destruct (members rt s R k); [destruct M|cbn; lia].
Qed.
Lemma separate_ok rt R s : SOK rt R s -> Core ne (O ++ R) s -> 0 < m ->
  exists D off add t, separate_sets bfuel (length O) s = Some (t, add) /\ separated rt R s D off add t /\ forall k, In k (roots rt) -> In k D.
Proof.
  intros K C M0. unfold separate_sets.
  assert (P : forall n, n <= in_sets s -> exists D off add t, foldM (fun '(s, addition) (_ : nat) =>
      l <- largest (in_size s) (in_osets s) ;;
      vis <- (if (0 <? addition)%Z then shift_set bfuel (length O) s l addition else Some (in_vis s)) ;;
      z <- aget (in_size s) l ;; sz <- aset (in_size s) l 0%Z ;;
      Some (mkIn (in_seeds s) (in_n s) vis (in_osets s) (in_sets s) (in_par s) sz (in_lab s), (addition + z)%Z)) (seq 0 n) (s, 0%Z) = Some (t, add) /\ separated rt R s D off add t /\ length D = n).
  { induction n as [|n IH]; intros Ln.
    - exists [], (fun _ => 0%Z), 0%Z, s. split; [reflexivity|]. split; [|reflexivity]. split; auto; try (intros k []; fail); try lia.
      + repeat split; auto. + split; [constructor|intros k []]. + apply (k_size _ _ _ K). + apply C. + apply C.
      + intros e Le. destruct (in_dec Nat.eq_dec e R); [destruct (in_dec Nat.eq_dec (cls rt s e) []) as [[]|]|]; lia. + intros k j []. + intros k j [].
    - destruct IH as (D & off & add & t & E & H & LD); [lia|]. rewrite seq_S, foldM_app, E. cbn [obind foldM Nat.add]. destruct (sp_same _ _ _ _ _ _ _ H) as (T1 & T2 & T3 & T4 & T5 & T6). destruct (sp_size _ _ _ _ _ _ _ H) as (ZL & ZG). destruct (sp_done _ _ _ _ _ _ _ H) as (ND & DR).
      rewrite T3, (k_os _ _ _ K). destruct (largest_ok (in_size t) ZL M0) as (l & z & El & Ll & Ez & Mx); [intros k Lk; eexists; apply ZG; auto|]. rewrite El. cbn [obind].
      assert (EX : exists j, In j (roots rt) /\ ~ In j D).
      { destruct (Exists_dec (fun j => ~ In j D) (roots rt)) as [Y|N]; [intros j; destruct (in_dec Nat.eq_dec j D); [right; tauto|left; auto]|apply Exists_exists in Y; exact Y|].
        exfalso. assert (length (roots rt) <= length D). { apply NoDup_incl_length; [apply NoDup_filter, seq_NoDup|]. intros j Hj. destruct (in_dec Nat.eq_dec j D); auto. exfalso. apply N, Exists_exists. exists j. auto. } rewrite <- (k_sets _ _ _ K) in H0. lia. }
      destruct EX as (j & Ij & Nj). pose proof (proj1 (in_roots rt j) Ij) as (Lj & Rj). assert (ZJ : aget (in_size t) j = Some (size_of rt s R j)). { rewrite ZG by auto. destruct (in_dec Nat.eq_dec j D); [contradiction|]. rewrite Rj, Nat.eqb_refl. auto. }
      pose proof (Mx j _ Lj ZJ) as GJ. pose proof (size_pos rt R s j K Ij) as PJ.
      assert (LX : ~ In l D /\ rt l = l /\ z = size_of rt s R l).
      { rewrite ZG in Ez by auto. destruct (in_dec Nat.eq_dec l D); [inversion Ez; lia|]. destruct (Nat.eqb_spec (rt l) l); [|inversion Ez; lia]. split; auto. split; auto. congruence. }
      destruct LX as (NlD & Rl & ->). assert (Il : In l (roots rt)) by (apply in_roots; auto).
      assert (SH : exists vis, (if (0 <? add)%Z then shift_set bfuel (length O) t l add else Some (in_vis t)) = Some vis /\ length vis = ne /\
        forall e, e < ne -> exists z, aget (in_vis t) e = Some z /\ aget vis e = Some (if in_dec Nat.eq_dec e R then if (cls rt s e =? l)%nat then z + add else z else z)%Z).
      { destruct (Z.ltb_spec 0 add).
        - pose proof (shift_ok rt R s l add (in_vis t) (in_seeds t) (in_n t) (in_osets t) (in_sets t) (in_size t) K (proj1 C) (sp_len _ _ _ _ _ _ _ H) (sp_def _ _ _ _ _ _ _ H) (eq_sym T1) (eq_sym T2)) as Q.
          rewrite <- T5, <- T6 in Q. destruct t; exact Q.
        - exists (in_vis t). split; auto. split; [apply (sp_len _ _ _ _ _ _ _ H)|]. intros e Le. destruct (sp_def _ _ _ _ _ _ _ H e Le) as (z & Hz). exists z. split; auto. rewrite Hz. f_equal.
          assert (add = 0%Z) by (pose proof (sp_add _ _ _ _ _ _ _ H); lia). destruct (in_dec Nat.eq_dec e R); auto. destruct (cls rt s e =? l); lia. }
      destruct SH as (vis & EV & LV & GV). rewrite EV. cbn [obind]. rewrite Ez. cbn [obind]. rewrite aset_some by lia. cbn [obind].
      exists (D ++ [l]), (fun k => if k =? l then add else off k), (add + size_of rt s R l)%Z. eexists. split; [reflexivity|]. split; [|rewrite app_length; cbn; lia].
      pose proof (size_pos rt R s l K Il) as PL. pose proof (sp_add _ _ _ _ _ _ _ H) as PA.
      assert (OFF : forall k, In k D -> (if k =? l then add else off k) = off k) by (intros k Hk; destruct (Nat.eqb_spec k l); [subst; contradiction|auto]).
      assert (INS : forall k, In k (D ++ [l]) -> In k D \/ k = l) by (intros k Hk; apply in_app_iff in Hk as [Hk|[Hk|[]]]; auto).
      split; cbn [in_seeds in_n in_vis in_osets in_sets in_par in_size in_lab].
      + repeat split; auto. rewrite (k_os _ _ _ K). auto.
      + split; [apply (Permutation_NoDup (Permutation_cons_append D l)); constructor; auto|]. intros k Hk. apply INS in Hk as [Hk| ->]; auto.
      + rewrite upd_length. split; auto. intros k Lk. destruct (Nat.eq_dec k l) as [->|N].
        * rewrite aget_upd_eq by lia. destruct (in_dec Nat.eq_dec l (D ++ [l])) as [_|NI]; auto. exfalso. apply NI, in_app_iff. right; left; auto.
        * rewrite aget_upd_neq, ZG by auto. destruct (in_dec Nat.eq_dec k D) as [I|I]; destruct (in_dec Nat.eq_dec k (D ++ [l])) as [I'|I']; auto; [exfalso; apply I', in_app_iff; auto|]. apply INS in I' as [I'|I']; contradiction.
      + exact LV. + intros e Le. destruct (GV e Le) as (z & _ & ->). eauto.
      + intros e Le. pose proof (sp_vz _ _ _ _ _ _ _ H e Le) as VZ. destruct (GV e Le) as (z & Gz & Gv). unfold vz at 1. cbn [in_vis]. rewrite Gv. unfold vz at 1 in VZ. rewrite Gz in VZ. rewrite VZ.
        destruct (in_dec Nat.eq_dec e R) as [I|I]; auto. destruct (Nat.eqb_spec (cls rt s e) l) as [El2|Nl2].
        * rewrite El2. destruct (in_dec Nat.eq_dec l D); [contradiction|]. destruct (in_dec Nat.eq_dec l (D ++ [l])) as [_|NI]; [lia|]. exfalso. apply NI, in_app_iff. right; left; auto.
        * destruct (in_dec Nat.eq_dec (cls rt s e) D) as [I2|I2]; destruct (in_dec Nat.eq_dec (cls rt s e) (D ++ [l])) as [I'|I']; auto; [exfalso; apply I', in_app_iff; auto|]. apply INS in I' as [I'|I']; contradiction.
      + lia.
      + intros k Hk. apply INS in Hk as [Hk| ->]; [rewrite OFF by auto; pose proof (sp_off _ _ _ _ _ _ _ H k Hk); lia|]. rewrite Nat.eqb_refl. lia.
      + intros k i Hk Ii Ni. rewrite in_app_iff in Ni. assert (NiD : ~ In i D) by tauto. pose proof (proj1 (in_roots rt i) Ii) as (Li & Ri). apply INS in Hk as [Hk| ->]; [apply (sp_big _ _ _ _ _ _ _ H); auto|]. apply (Mx i); auto. rewrite ZG by auto. destruct (in_dec Nat.eq_dec i D); [contradiction|]. now rewrite Ri, Nat.eqb_refl.
      + intros k i Hk Hi NE. apply INS in Hk as [Hk| ->]; apply INS in Hi as [Hi| ->]; rewrite ?Nat.eqb_refl, ?OFF by auto; try congruence.
        * apply (sp_ord _ _ _ _ _ _ _ H); auto.
        * left. split; [apply (sp_off _ _ _ _ _ _ _ H k Hk)|apply (sp_big _ _ _ _ _ _ _ H); auto].
        * right. split; [apply (sp_off _ _ _ _ _ _ _ H i Hi)|apply (sp_big _ _ _ _ _ _ _ H); auto]. }
  destruct (P (in_sets s) (le_n _)) as (D & off & add & t & E & H & LD). exists D, off, add, t. split; [exact E|]. split; auto. destruct (sp_done _ _ _ _ _ _ _ H) as (ND & DR).
  apply (NoDup_length_incl ND); [rewrite <- (k_sets _ _ _ K); lia|auto].
Qed.
End Sets.
