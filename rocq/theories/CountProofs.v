(** Global edge and pin counts of a distributed hypergraph. *)
From Verif Require Import Base GraphModel CsrProofs ConstructProofs GraphSpec AccessProofs AccessProofs2.

Lemma owned_counts_ok g verts wts ghosts tys ow t es ws fuel :
  Rep g verts wts ghosts tys -> RepO g ghosts ow -> hyper g = true -> nth_error tys t = Some (es, ws) -> length es < fuel ->
  let keep := filter (fun e => negb (existsb (fun p => Z.ltb p (self g)) (map (owner_spec g verts ow) (snd e)))) es in
  owned_counts g t fuel = Some (Z.of_nat (length keep), Z.of_nat (nsum (map (fun e => length (snd e)) keep))).
Proof.
  intros HR HO Hh H Hf keep. destruct (gtype_ok _ _ _ _ _ HR _ _ _ H) as (ed & E & HE & Ht).
  unfold owned_counts. rewrite E. cbn [obind]. rewrite (all_edges_ok _ _ _ _ _ HR t es ws fuel H Hf). cbn [obind].
  rewrite (er_num _ _ _ _ _ _ HE), (er_npins _ _ _ _ _ _ HE). rewrite foldM_map.
  set (low := fun e : Z * list Z => existsb (fun p => Z.ltb p (self g)) (map (owner_spec g verts ow) (snd e))).
  assert (Htot : length (concat (epins_of es)) = nsum (map (fun e => length (snd e)) es)).
  { rewrite length_concat. unfold epins_of. now rewrite map_map. }
  rewrite Htot. unfold keep. fold low.
  cut (forall k suf, skipn k es = suf -> k <= length es -> forall a b,
     foldM (fun (s : Z * Z) x => (let '(ne, np) := s in fun e => res <- getResidence g e;;
        if existsb (fun p => Z.ltb p (self g)) res then d <- edegree g e;; Some ((ne - 1)%Z, (np - Z.of_nat d)%Z)
        else Some (ne, np)) (getEdge (ntypes g) x t)) (seq k (length suf)) (a, b)
     = Some ((a - Z.of_nat (length (filter low suf)))%Z, (b - Z.of_nat (nsum (map (fun e => length (snd e)) (filter low suf))))%Z)).
  { intros HC. specialize (HC 0 es eq_refl ltac:(lia) (Z.of_nat (length es)) (Z.of_nat (nsum (map (fun e => length (snd e)) es)))).
    etransitivity; [exact HC|].
    assert (P : forall l : list (Z * list Z), length l = length (filter (fun e => negb (low e)) l) + length (filter low l) /\
        nsum (map (fun e => length (snd e)) l) = nsum (map (fun e => length (snd e)) (filter (fun e => negb (low e)) l)) + nsum (map (fun e => length (snd e)) (filter low l))).
    { clear. induction l as [|e l [IH1 IH2]]; auto. cbn [filter map nsum fold_right length].
      destruct (low e); cbn [negb length map nsum fold_right]; unfold nsum in *; lia. }
    destruct (P es) as [P1 P2].
    change (fun e : Z * list Z => negb (existsb (fun p : Z => (p <? self g)%Z) (map (owner_spec g verts ow) (snd e)))) with (fun e => negb (low e)).
    do 2 f_equal; lia. }
  intros k suf; revert k. induction suf as [|[gid ps] suf IH]; intros k Hs Hk a b.
  - cbn. do 2 f_equal; lia.
  - assert (Hi : nth_error es k = Some (gid, ps)).
    { rewrite <- (firstn_skipn k es), Hs, nth_error_app2 by (rewrite firstn_length; lia).
      rewrite firstn_length. replace (k - Nat.min k (length es)) with 0 by lia. reflexivity. }
    assert (Hlt : k < length es) by (apply nth_error_Some; congruence).
    cbn [length seq foldM].
    rewrite (getResidence_hyper _ _ _ _ _ _ HR HO t es ws k gid ps Hh H Hi). cbn [obind].
    assert (Hs' : skipn (S k) es = suf).
    { clear - Hs. revert es Hs; induction k as [|k IHk]; intros [|a l] Hs; simpl in *; try discriminate; try (inversion Hs; auto); auto. }
    unfold low at 1 2. cbn [filter snd]. fold low.
    change (existsb (fun p => Z.ltb p (self g)) (map (owner_spec g verts ow) ps)) with (low (gid, ps)).
    destruct (low (gid, ps)) eqn:El.
    + rewrite (edegree_hyper _ _ _ _ _ HR t es ws k gid ps Hh H Hi). cbn [obind].
      rewrite (IH (S k) Hs' ltac:(lia)). cbn [length map nsum fold_right snd].
      fold (nsum (map (fun e : Z * list Z => length (snd e)) (filter low suf))). do 2 f_equal; lia.
    + cbn [obind]. rewrite (IH (S k) Hs' ltac:(lia)). reflexivity.
Qed.

(** counting argument: each hyperedge with a pin is kept on exactly one part, the lowest part owning a pin *)
Lemma filter_filter A (p q : A -> bool) l : filter p (filter q l) = filter (fun x => q x && p x) l.
Proof. induction l as [|a l IH]; auto. cbn [filter]. destruct (q a) eqn:E; cbn [andb filter]; rewrite ?IH; auto. Qed.

Lemma filter_perm A (p : A -> bool) l l' : Permutation l l' -> Permutation (filter p l) (filter p l').
Proof. induction 1; cbn [filter]; auto.
  - destruct (p x); auto.
  - destruct (p x), (p y); auto. apply perm_swap.
  - eapply Permutation_trans; eauto. Qed.

Definition lowest (own : Z -> nat) (ps : list Z) : option nat :=
  match ps with [] => None | v :: r => Some (fold_left Nat.min (map own r) (own v)) end.

Lemma fold_min_spec l a : let m := fold_left Nat.min l a in In m (a :: l) /\ forall x, In x (a :: l) -> m <= x.
Proof.
  revert a; induction l as [|b l IH]; intros a; simpl.
  - split; auto. intros x [->|[]]; auto.
  - destruct (IH (Nat.min a b)) as [Hin Hle]. split.
    + destruct Hin as [E|Hin]; [|auto]. rewrite <- E. destruct (Nat.min_dec a b); auto.
    + intros x Hx. assert (fold_left Nat.min l (Nat.min a b) <= Nat.min a b) by (apply Hle; left; auto).
      destruct Hx as [->|[->|Hx]]; try lia. apply Hle; right; auto.
Qed.

Lemma kept_unique own (P : nat) (ps : list Z) (r : nat) : ps <> [] ->
  (existsb (fun v => Nat.eqb (own v) r) ps && negb (existsb (fun p => Z.ltb p (Z.of_nat r)) (map (fun v => Z.of_nat (own v)) ps)))%bool
  = match lowest own ps with Some m => Nat.eqb m r | None => false end.
Proof.
  intros Hne. destruct ps as [|v0 ps]; [congruence|]. unfold lowest.
  pose proof (fold_min_spec (map own ps) (own v0)) as [Hin Hle]. set (m := fold_left Nat.min (map own ps) (own v0)) in *.
  assert (Hin' : exists v, In v (v0 :: ps) /\ own v = m).
  { change (own v0 :: map own ps) with (map own (v0 :: ps)) in Hin. apply in_map_iff in Hin as (v & E & Hv). eauto. }
  assert (Hle' : forall v, In v (v0 :: ps) -> m <= own v).
  { intros v Hv. apply Hle. change (own v0 :: map own ps) with (map own (v0 :: ps)). now apply in_map. }
  destruct (Nat.eqb_spec m r) as [E|E].
  - apply andb_true_iff. split.
    + apply existsb_exists. destruct Hin' as (v & Hv & Ev). exists v. split; auto. apply Nat.eqb_eq. congruence.
    + apply negb_true_iff. destruct (existsb _ _) eqn:Ex; auto. apply existsb_exists in Ex as (p & Hp & Hlt).
      apply in_map_iff in Hp as (v & <- & Hv). apply Z.ltb_lt in Hlt. specialize (Hle' v Hv). lia.
  - apply andb_false_iff. destruct (existsb (fun v => own v =? r) (v0 :: ps)) eqn:Ex; auto. right.
    apply existsb_exists in Ex as (w & Hw & Ew). apply Nat.eqb_eq in Ew.
    apply negb_false_iff. apply existsb_exists. destruct Hin' as (v & Hv & Ev). exists (Z.of_nat (own v)). split.
    + now apply in_map with (f := fun v => Z.of_nat (own v)).
    + apply Z.ltb_lt. specialize (Hle' w Hw). lia.
Qed.

(** sum over parts of the kept share = the whole *)
Lemma sum_indicator (f : nat -> nat) m P : m < P ->
  nsum (map (fun r => if Nat.eqb m r then f r else 0) (seq 0 P)) = f m.
Proof.
  intros Hm. assert (G : forall a k, nsum (map (fun r => if Nat.eqb m r then f r else 0) (seq a k)) = if (a <=? m) && (m <? a + k) then f m else 0).
  { intros a k; revert a; induction k as [|k IH]; intros a.
    - rewrite Nat.add_0_r. change (0 = (if (a <=? m) && (m <? a) then f m else 0)). destruct (Nat.leb_spec a m), (Nat.ltb_spec m a); auto; lia.
    - cbn [seq map nsum fold_right]. fold (nsum (map (fun r => if Nat.eqb m r then f r else 0) (seq (S a) k))). rewrite IH.
      destruct (Nat.eqb_spec m a) as [->|N].
      + replace (S a <=? a) with false by (symmetry; apply Nat.leb_gt; lia). replace (a <=? a) with true by (symmetry; apply Nat.leb_le; lia).
        replace (a <? a + S k) with true by (symmetry; apply Nat.ltb_lt; lia). cbn [andb]. lia.
      + replace (S a + k) with (a + S k) by lia. replace (S a <=? m) with (a <=? m); [reflexivity|].
        destruct (Nat.leb_spec a m), (Nat.leb_spec (S a) m); auto; lia. }
  rewrite G. replace (m <? 0 + P) with true by (symmetry; apply Nat.ltb_lt; lia). reflexivity.
Qed.

Lemma sum_kept own (P : nat) (sz : list Z -> nat) (H : list (Z * list Z)) :
  (forall e v, In e H -> In v (snd e) -> own v < P) ->
  nsum (map (fun r => nsum (map (fun e => sz (snd e)) (filter (fun e =>
      existsb (fun v => Nat.eqb (own v) r) (snd e) &&
      negb (existsb (fun p => Z.ltb p (Z.of_nat r)) (map (fun v => Z.of_nat (own v)) (snd e)))) H))) (seq 0 P))
  = nsum (map (fun e => sz (snd e)) (filter (fun e => negb (match snd e with [] => true | _ => false end)) H)).
Proof.
  induction H as [|[gid ps] H IH]; intros Hown.
  - cbn [filter map nsum fold_right]. induction (seq 0 P) as [|a l IHl]; auto.
  - specialize (IH ltac:(intros e v He; apply Hown; right; auto)).
    cbn [filter snd]. destruct ps as [|v ps].
    + cbn [existsb andb negb]. exact IH.
    + cbn [negb]. set (L := fun r => filter (fun e : Z * list Z => existsb (fun v => own v =? r) (snd e) && negb (existsb (fun p => Z.ltb p (Z.of_nat r)) (map (fun v => Z.of_nat (own v)) (snd e)))) H) in *.
      transitivity (nsum (map (fun r => (match lowest own (v :: ps) with Some m => if Nat.eqb m r then sz (v :: ps) else 0 | None => 0 end)
            + nsum (map (fun e : Z * list Z => sz (snd e)) (L r))) (seq 0 P))).
      * f_equal. apply map_ext. intros r. rewrite (kept_unique own P (v :: ps) r) by congruence.
        destruct (lowest own (v :: ps)) as [m|]; [|reflexivity]. destruct (Nat.eqb m r); reflexivity.
      * assert (Hadd : forall (f k : nat -> nat) l, nsum (map (fun r => f r + k r) l) = nsum (map f l) + nsum (map k l)).
        { clear. intros f k l. induction l as [|a l IHl]; auto. cbn [map nsum fold_right]. unfold nsum in *. rewrite IHl. lia. }
        rewrite Hadd. cbn [map nsum fold_right]. fold (nsum (map (fun e : Z * list Z => sz (snd e)) (filter (fun e => negb match snd e with [] => true | _ => false end) H))).
        rewrite <- IH. f_equal. unfold lowest.
        rewrite (sum_indicator (fun _ => sz (v :: ps))); auto.
        pose proof (fold_min_spec (map own ps) (own v)) as [Hin _].
        change (own v :: map own ps) with (map own (v :: ps)) in Hin. apply in_map_iff in Hin as (w & <- & Hw).
        apply (Hown (gid, v :: ps)); [left; auto|exact Hw].
Qed.

(** A part of a consistent distribution: its edges are the global edges owning a pin here, its vertices are those it owns,
    and its ghosts' owners are right. *)
Record part_ok (own : Z -> nat) (H : list (Z * list Z)) (t r : nat) (g : graph) : Prop := {
  po_ex : exists verts wts ghosts tys ow es ws,
    Rep g verts wts ghosts tys /\ RepO g ghosts ow /\ hyper g = true /\ self g = Z.of_nat r /\
    nth_error tys t = Some (es, ws) /\
    Permutation es (filter (fun e => existsb (fun v => Nat.eqb (own v) r) (snd e)) H) /\
    (forall v, In v verts -> own v = r) /\
    (forall e v, In e es -> In v (snd e) -> ~ In v verts -> ow v = Z.of_nat (own v)) }.

Lemma len_nsum1 (l : list (Z * list Z)) : length l = nsum (map (fun e => (fun _ : list Z => 1) (snd e)) l).
Proof. induction l as [|a l IH]; [reflexivity|]. cbn [length map nsum fold_right]. unfold nsum in IH. lia. Qed.

Lemma part_counts own H t r g fuel : part_ok own H t r g -> length H < fuel ->
  exists ne np, owned_counts g t fuel = Some (Z.of_nat ne, Z.of_nat np) /\
   (let kept := filter (fun e => existsb (fun v => Nat.eqb (own v) r) (snd e) &&
      negb (existsb (fun p => Z.ltb p (Z.of_nat r)) (map (fun v => Z.of_nat (own v)) (snd e)))) H in
    ne = nsum (map (fun e => (fun _ : list Z => 1) (snd e)) kept) /\ np = nsum (map (fun e => length (snd e)) kept)).
Proof.
  intros [(verts & wts & ghosts & tys & ow & es & ws & HR & HO & Hh & Hs & Ht & Hp & Hv & Hw)] Hf.
  assert (Hle : length es < fuel).
  { rewrite (Permutation_length Hp).
    assert (length (filter (fun e : Z * list Z => existsb (fun v => own v =? r) (snd e)) H) <= length H).
    { clear. induction H as [|e H IH]; simpl; auto. destruct (existsb _ _); simpl; lia. }
    lia. }
  pose proof (owned_counts_ok g verts wts ghosts tys ow t es ws fuel HR HO Hh Ht Hle) as HC. cbv zeta in HC.
  rewrite HC. eexists _, _. split; [reflexivity|].
  set (pr := fun e : Z * list Z => negb (existsb (fun p => Z.ltb p (Z.of_nat r)) (map (fun v => Z.of_nat (own v)) (snd e)))).
  assert (Hkeep : Permutation (filter (fun e => negb (existsb (fun p => Z.ltb p (self g)) (map (owner_spec g verts ow) (snd e)))) es)
     (filter (fun e => existsb (fun v => Nat.eqb (own v) r) (snd e) && pr e) H)).
  { rewrite <- filter_filter. apply Permutation_trans with (filter pr es); [|now apply filter_perm].
    erewrite filter_ext_in; [apply Permutation_refl|]. intros e He. unfold pr. do 2 f_equal.
    - rewrite Hs. reflexivity.
    - apply map_ext_in. intros v Hvin. unfold owner_spec. destruct (memZ v verts) eqn:Em.
      + apply memZ_In in Em. rewrite Hs. now rewrite (Hv v Em).
      + apply (Hw e); auto. rewrite <- memZ_In. congruence. }
  cbv zeta. fold pr. split.
  - rewrite (Permutation_length Hkeep). apply len_nsum1.
  - apply nsum_perm. now apply Permutation_map.
Qed.

Theorem global_counts_ok own H t gs fuel :
  (forall e v, In e H -> In v (snd e) -> own v < length gs) ->
  (forall r g, nth_error gs r = Some g -> part_ok own H t r g) ->
  length H < fuel ->
  let H' := filter (fun e => negb (match snd e with [] => true | _ => false end)) H in
  global_counts gs t fuel = Some (Z.of_nat (length H'), Z.of_nat (length (concat (map snd H)))).
Proof.
  intros Hown Hpart Hf H'. unfold global_counts.
  pose (kept := fun r => filter (fun e : Z * list Z => existsb (fun v => Nat.eqb (own v) r) (snd e) &&
      negb (existsb (fun p => Z.ltb p (Z.of_nat r)) (map (fun v => Z.of_nat (own v)) (snd e)))) H).
  assert (HM : exists l, mapM (fun g => owned_counts g t fuel) gs = Some l /\
     map fst l = map (fun r => Z.of_nat (nsum (map (fun e : Z * list Z => (fun _ : list Z => 1) (snd e)) (kept r)))) (seq 0 (length gs)) /\
     map snd l = map (fun r => Z.of_nat (nsum (map (fun e : Z * list Z => length (snd e)) (kept r)))) (seq 0 (length gs))).
  { clear Hown H'. cut (forall gs a, (forall r g, nth_error gs r = Some g -> part_ok own H t (a + r) g) ->
      exists l, mapM (fun g => owned_counts g t fuel) gs = Some l /\
     map fst l = map (fun r => Z.of_nat (nsum (map (fun e : Z * list Z => (fun _ : list Z => 1) (snd e)) (kept r)))) (seq a (length gs)) /\
     map snd l = map (fun r => Z.of_nat (nsum (map (fun e : Z * list Z => length (snd e)) (kept r)))) (seq a (length gs))).
    { intros HC. apply (HC gs 0). exact Hpart. }
    induction gs0 as [|g gs0 IH]; intros a Hp; [exists []; auto|].
    destruct (IH (S a)) as (l & El & H1 & H2).
    { intros r g' Hr. replace (S a + r) with (a + S r) by lia. apply Hp. exact Hr. }
    pose proof (Hp 0 g eq_refl) as Hg. rewrite Nat.add_0_r in Hg.
    destruct (part_counts _ _ _ _ _ fuel Hg Hf) as (ne & np & Eo & Hne & Hnp).
    exists ((Z.of_nat ne, Z.of_nat np) :: l). cbn [mapM]. rewrite Eo. cbn [obind]. rewrite El. cbn [obind].
    split; auto. cbn [map length seq fst snd]. rewrite H1, H2. split; f_equal; f_equal; auto. }
  destruct HM as (l & El & H1 & H2). rewrite El. cbn [obind]. rewrite H1, H2.
  assert (Hz : forall (f : nat -> nat) l, zsum (map (fun r => Z.of_nat (f r)) l) = Z.of_nat (nsum (map f l))).
  { clear. intros f l. induction l as [|a l IH]; auto. cbn [map zsum nsum fold_right]. unfold zsum, nsum in *. rewrite IH. lia. }
  rewrite !Hz. unfold kept. rewrite (sum_kept own (length gs) (fun _ => 1) H Hown), (sum_kept own (length gs) (@length Z) H Hown).
  fold H'. do 2 f_equal.
  - f_equal. symmetry. apply len_nsum1.
  - f_equal. rewrite length_concat, map_map. unfold H'. clear. induction H as [|[gid ps] H IH]; auto.
    cbn [filter snd map nsum fold_right]. destruct ps; cbn [negb map nsum fold_right snd]; unfold nsum in *; rewrite IH; auto.
Qed.
