(** Weight migration (C21) and the weight plan (C56). *)
From Verif Require Import Base GraphModel CsrProofs ConstructProofs GraphSpec AccessProofs GraphTop GraphTop2 Comm TagModel TagProps MigrateModel MigrateProofs1 MigrateProofs2 MigrateProofs3 MigrateTop WeightMigModel.

(* ---------------- sums ---------------- *)
Definition sumf {A} (f : A -> Z) (l : list A) : Z := zsum (map f l).
Lemma sumf_app A (f : A -> Z) l1 l2 : sumf f (l1 ++ l2) = (sumf f l1 + sumf f l2)%Z.
Proof. unfold sumf. rewrite map_app. unfold zsum. induction (map f l1); cbn; lia. Qed.
Lemma sumf_snoc A (f : A -> Z) l x : sumf f (l ++ [x]) = (sumf f l + f x)%Z.
Proof. rewrite sumf_app. f_equal. unfold sumf, zsum. cbn. lia. Qed.
Lemma sumf_perm A (f : A -> Z) l1 l2 : Permutation l1 l2 -> sumf f l1 = sumf f l2.
Proof. unfold sumf, zsum. induction 1; cbn; lia. Qed.
Lemma sumf_filter A (f : A -> Z) (P : A -> bool) l : sumf f (filter P l) = sumf (fun x => if P x then f x else 0%Z) l.
Proof. unfold sumf, zsum. induction l as [|x l IH]; cbn; [lia|]. destruct (P x); cbn; lia. Qed.
Lemma sumf_map A B (f : B -> Z) (k : A -> B) l : sumf f (map k l) = sumf (fun x => f (k x)) l.
Proof. unfold sumf. now rewrite map_map. Qed.
Lemma sumf_flat A B (f : B -> Z) (k : A -> list B) l : sumf f (flat_map k l) = sumf (fun x => sumf f (k x)) l.
Proof. induction l as [|x l IH]; cbn [flat_map]; [reflexivity|]. rewrite sumf_app, IH. reflexivity. Qed.
Lemma sumf_ext A (f g : A -> Z) l : (forall x, In x l -> f x = g x) -> sumf f l = sumf g l.
Proof. intros H. unfold sumf. f_equal. now apply map_ext_in. Qed.
Lemma sumf_zero A (f : A -> Z) l : (forall x, In x l -> f x = 0%Z) -> sumf f l = 0%Z.
Proof. intros H. rewrite (sumf_ext _ f (fun _ => 0%Z) l H). unfold sumf, zsum. clear. induction l; cbn; lia. Qed.
Lemma sumf_add A (f g : A -> Z) l : sumf (fun x => (f x + g x)%Z) l = (sumf f l + sumf g l)%Z.
Proof. unfold sumf, zsum. induction l; cbn; lia. Qed.
Lemma sumf_sub A (f g : A -> Z) l : sumf (fun x => (f x - g x)%Z) l = (sumf f l - sumf g l)%Z.
Proof. unfold sumf, zsum. induction l; cbn; lia. Qed.
Lemma sumf_swap A B (f : A -> B -> Z) l1 l2 : sumf (fun a => sumf (f a) l2) l1 = sumf (fun b => sumf (fun a => f a b) l1) l2.
Proof.
  induction l1 as [|a l1 IH].
  - symmetry. now apply sumf_zero.
  - change (sumf (f a) l2 + sumf (fun a => sumf (f a) l2) l1 = sumf (fun b => f a b + sumf (fun a => f a b) l1) l2)%Z. now rewrite sumf_add, IH.
Qed.

(* ---------------- the plan ---------------- *)
Notation wcall := ((nat * nat * Z)%type)%type.
Definition wm_made (cs : list wcall) : wmig := fold_left (fun p c => wm_insert p (fst (fst c)) (snd (fst c)) (snd c)) cs wm_new.
Definition items (p : wmplan) : list (nat * nat * Z) := flat_map (fun e => map (fun x => (fst e, fst x, snd x)) (snd e)) p.
Lemma wd_add_sum m u w (P : nat -> bool) : sumf (fun x => if P (fst x) then snd x else 0%Z) (wd_add m u w) = (sumf (fun x => if P (fst x) then snd x else 0%Z) m + if P u then w else 0)%Z.
Proof.
  unfold sumf, zsum. induction m as [|(k, x) m IH]; cbn; [destruct (P u); lia|]. destruct (Nat.eqb_spec k u) as [->|]; cbn; [destruct (P u); lia|rewrite IH; lia].
Qed.
Definition pick (P : nat -> nat -> bool) (x : nat * nat * Z) : Z := if P (fst (fst x)) (snd (fst x)) then snd x else 0%Z.
Lemma wp_add_sum m v u w P : sumf (pick P) (items (wp_add m v u w)) = (sumf (pick P) (items m) + pick P (v, u, w))%Z.
Proof.
  unfold items, pick. induction m as [|(k, d) m IH]; cbn [wp_add flat_map map fst snd]; [unfold sumf; cbn; lia|].
  destruct (Nat.eqb_spec k v) as [->|]; cbn [flat_map map fst snd]; rewrite !sumf_app, !sumf_map; cbn [fst snd].
  - pose proof (wd_add_sum d u w (P v)) as X. rewrite X. lia.
  - cbn [fst snd] in IH. rewrite IH. lia.
Qed.
Lemma made_sum cs P : sumf (pick P) (items (wm_sending (wm_made cs))) = sumf (pick P) cs.
Proof.
  unfold wm_made. assert (G : forall p, sumf (pick P) (items (wm_sending (fold_left (fun p c => wm_insert p (fst (fst c)) (snd (fst c)) (snd c)) cs p))) = (sumf (pick P) (items (wm_sending p)) + sumf (pick P) cs)%Z).
  { induction cs as [|((v, u), w) cs IH]; intros p; cbn [fold_left fst snd]; [unfold sumf; cbn; lia|]. rewrite IH. cbn [wm_sending wm_insert]. rewrite wp_add_sum. change (sumf (pick P) ((v, u, w) :: cs)) with (pick P (v, u, w) + sumf (pick P) cs)%Z. lia. }
  rewrite G. reflexivity.
Qed.
Lemma wd_add_keys m u w k : In k (map fst (wd_add m u w)) -> In k (map fst m) \/ k = u.
Proof. induction m as [|(a, x) m IH]; cbn; [intros [<-|[]]; auto|]. destruct (Nat.eqb_spec a u); cbn; [auto|]. intros [<-|H]; auto. destruct (IH H); auto. Qed.
Lemma made_keys cs v u w : In (v, u, w) (items (wm_sending (wm_made cs))) -> exists w', In (v, u, w') cs.
Proof.
  unfold wm_made. assert (G : forall p, In (v, u, w) (items (wm_sending (fold_left (fun p c => wm_insert p (fst (fst c)) (snd (fst c)) (snd c)) cs p))) ->
    (exists w', In (v, u, w') (items (wm_sending p))) \/ exists w', In (v, u, w') cs).
  { clear. revert v u w. induction cs as [|((v0, u0), w0) cs IH]; intros v u w p H; cbn [fold_left fst snd] in H; [eauto|].
    apply IH in H as [(w' & H)|(w' & H)]; [|right; exists w'; cbn; auto]. cbn [wm_sending wm_insert] in H.
    assert (K : forall m, In (v, u, w') (items (wp_add m v0 u0 w0)) -> (exists w2, In (v, u, w2) (items m)) \/ (v = v0 /\ u = u0)).
    { clear. unfold items. induction m as [|(k, d) m IH]; cbn [wp_add flat_map map fst snd app].
      - intros [E|[]]. inversion E; auto.
      - destruct (Nat.eqb_spec k v0) as [->|]; cbn [flat_map fst snd]; intros H; apply in_app_iff in H as [H|H].
        + apply in_map_iff in H as ((k2, x) & E & H). cbn in E. inversion E; subst. apply (in_map fst) in H. cbn in H. apply wd_add_keys in H as [H| ->]; [|auto].
          apply in_map_iff in H as ((k3, x3) & E3 & H). cbn in E3. subst k3. left. exists x3. apply in_app_iff. left. apply in_map_iff. exists (u, x3). auto.
        + left. exists w'. apply in_app_iff. auto.
        + left. exists w'. apply in_app_iff. auto.
        + apply IH in H as [(w2 & H)|?]; auto. left. exists w2. apply in_app_iff. auto. }
    apply K in H as [?|(-> & ->)]; auto. right. exists w0. cbn; auto. }
  intros H. apply G in H as [(w' & [])|H]; auto.
Qed.
(** the iterator visits the items *)
Lemma wi_run_items p : (forall e, In e p -> snd e <> []) -> forall fuel, length (items p) < fuel -> wi_run fuel (wi_begin p) = Some (items p).
Proof.
  induction p as [|(u, d) p IH]; intros H fuel L; [destruct fuel; reflexivity|].
  assert (Hd : d <> []) by (apply (H (u, d)); cbn; auto).
  unfold items in *. cbn [flat_map fst snd] in *. unfold wi_begin.
  assert (G : forall d fuel, d <> [] -> length (map (fun x => (u, fst x, snd x)) d ++ flat_map (fun e => map (fun x => (fst e, fst x, snd x)) (snd e)) p) < fuel ->
    forall d0, wi_run fuel (mkWMIt ((u, d0) :: p) d) = Some (map (fun x => (u, fst x, snd x)) d ++ flat_map (fun e => map (fun x => (fst e, fst x, snd x)) (snd e)) p)).
  { assert (H' : forall e, In e p -> snd e <> []) by (intros; apply H; cbn; auto). clear d L H Hd. intros d. induction d as [|(v, w) d IHd]; intros fu N L d0; [congruence|]. destruct fu as [|fu]; [lia|]. cbn [wi_run wi_at_end wi_outer]. 
    cbn [map app length] in L. destruct d as [|y d].
    - cbn [wi_read wi_outer wi_inner wi_next obind]. rewrite IH; [reflexivity|exact H'|cbn in L; lia].
    - cbn [wi_read wi_outer wi_inner wi_next obind]. rewrite IHd; [reflexivity|discriminate|lia]. }
  apply G; auto.
Qed.

(* ---------------- one part ---------------- *)
Lemma wp_nonempty cs : forall e, In e (wm_sending (wm_made cs)) -> snd e <> [].
Proof.
  unfold wm_made. assert (G : forall p, (forall e, In e (wm_sending p) -> snd e <> []) -> forall e, In e (wm_sending (fold_left (fun p c => wm_insert p (fst (fst c)) (snd (fst c)) (snd c)) cs p)) -> snd e <> []).
  { induction cs as [|((v, u), w) cs IH]; intros p H; cbn [fold_left fst snd]; auto. apply IH. cbn [wm_insert wm_sending]. revert H. generalize (wm_sending p) as m. clear.
    induction m as [|(k, d) m IH]; intros H e He; cbn in He.
    - destruct He as [<-|[]]. discriminate.
    - destruct (k =? v); cbn in He; destruct He as [<-|He].
      + cbn. destruct d as [|(a, b) d]; cbn; [discriminate|destruct (a =? u); discriminate].
      + apply H; cbn; auto.
      + apply (H (k, d)); cbn; auto.
      + apply IH; auto. intros; apply H; cbn; auto. }
  apply G. intros e [].
Qed.
Lemma fl_get_add m a b w x y : fl_get (fl_add m a b w) x y = (fl_get m x y + if Z.eqb a x && Z.eqb b y then w else 0)%Z.
Proof.
  unfold fl_add. unfold fl_get at 1. cbn [find fst snd]. destruct (Z.eqb_spec a x) as [->|]; cbn [andb]; [|fold (fl_get m x y); lia].
  destruct (Z.eqb_spec b y) as [->|]; cbn; [reflexivity|]. fold (fl_get m x y). lia.
Qed.
Definition WI (ws : arr Z) (f : nat -> Z) (n : nat) : Prop := length ws = n /\ forall l, l < n -> aget ws l = Some (f l).
Lemma WI_add ws f n l w : WI ws f n -> l < n -> exists ws', (c <- aget ws l ;; aset ws l (c + w)%Z) = Some ws' /\ WI ws' (fun i => (f i + if Nat.eqb l i then w else 0)%Z) n.
Proof.
  intros (L & H) Hl. rewrite H by auto. cbn [obind]. rewrite aset_some by lia. eexists. split; [reflexivity|]. split; [now rewrite upd_length|].
  intros i Hi. destruct (Nat.eqb_spec l i) as [->|N]; [now rewrite aget_upd_eq by lia|]. rewrite aget_upd_neq by auto. rewrite H by auto. f_equal. lia.
Qed.

Section Part.
Variables (me : Z) (hg : bool) (p : part_in) (g : graph).
Hypothesis HV : valid_input hg (in_verts p) (in_vws p) (in_tys p).
Hypothesis HB : build_part me hg (in_verts p) (in_vws p) (in_tys p) (in_owns p) = Some g.
Notation all := (in_verts p ++ ghosts_of (in_verts p) (in_tys p)).
Notation n := (length (in_verts p)).
Definition gid_of (l : nat) : Z := nth l all 0%Z.
Definition hcall (c : wcall) : wcall := (getVertex (fst (fst c)), getVertex (snd (fst c)), snd c).
Definition pmsg (c : wcall) : Z * (Z * (Z * Z)) := (part_of me (in_verts p) (in_owns p) (gid_of (snd (fst c))), (gid_of (fst (fst c)), (gid_of (snd (fst c)), snd c))).
Definition wold (l : nat) : Z := nth l (in_vws p ++ repeat 1%Z (n - length (in_vws p))) 0%Z.
Definition wcall_ok (c : wcall) : Prop := fst (fst c) < n /\ snd (fst c) < length all.

Lemma wm_read_ok fuel : n < fuel -> exists ws, wm_read g fuel = Some ws /\ WI ws wold n.
Proof.
  intros Hf. destruct (part_rep _ _ _ _ _ _ _ HV HB) as (R & _). unfold wm_read. rewrite (all_verts_ok _ _ _ _ _ R) by auto. cbn [obind].
  rewrite map_length, seq_length, (rp_nlv _ _ _ _ _ R).
  assert (X : combine (seq 0 n) (map S (seq 0 n)) = map (fun i => (i, S i)) (seq 0 n)) by (clear; induction (seq 0 n); cbn; congruence).
  rewrite X, foldM_map_l. cbn [fst snd].
  assert (E : forall i, i < n -> vweight g (S i) = Some (wold i)).
  { intros i Hi. unfold vweight. cbn [vlid obind]. rewrite (rp_nlv _ _ _ _ _ R). replace (i <? n) with true by (symmetry; apply Nat.ltb_lt; auto).
    rewrite (rp_lwg _ _ _ _ _ R), aget_ainit. unfold wold. apply nth_error_nth'. pose proof (rp_wlen _ _ _ _ _ R). lia. }
  assert (G : forall m k a, k + m = n -> length a = n -> (forall i, i < k -> aget a i = Some (wold i)) ->
    exists ws, foldM (fun ws i => w <- vweight g (S i) ;; aset ws i w) (seq k m) a = Some ws /\ WI ws wold n).
  { induction m as [|m IH]; intros k a Hk La Ha; cbn [seq foldM].
    - exists a. split; auto. split; auto. intros; apply Ha. lia.
    - rewrite E by lia. cbn [obind]. rewrite aset_some by lia. cbn [obind]. apply IH; [lia|now rewrite upd_length|].
      intros i Hi. destruct (Nat.eq_dec k i) as [->|N]; [apply aget_upd_eq; lia|]. rewrite aget_upd_neq by auto. apply Ha. lia. }
  apply (G n 0); [lia|apply repeat_length|intros; lia].
Qed.
Lemma gid_nth l : l < length all -> nth_error all l = Some (gid_of l).
Proof. intros H. now apply nth_error_nth'. Qed.

Lemma wm_steps_ok : forall (xs : list wcall) ws f fl out, WI ws f n -> (forall c, In c xs -> exists l k, fst (fst c) = getVertex l /\ snd (fst c) = getVertex k /\ l < n /\ k < length all) ->
  exists ws' fl', foldM wm_step xs (mkWMW g ws fl out) = Some (mkWMW g ws' fl' (out ++ map (fun c => pmsg ((fst (fst c) - 1)%nat, (snd (fst c) - 1)%nat, snd c)) xs)) /\
    WI ws' (fun i => (f i - sumf (pick (fun u _ => Nat.eqb (u - 1)%nat i)) xs)%Z) n /\
    forall a b, fl_get fl' a b = (fl_get fl a b + sumf (pick (fun u v => Z.eqb (gid_of (u - 1)%nat) a && Z.eqb (gid_of (v - 1)%nat) b)) xs)%Z.
Proof.
  induction xs as [|((u, v), w) xs IH]; intros ws f fl out HW Hx; cbn [foldM].
  - exists ws, fl. cbn [map]. rewrite app_nil_r. split; auto. split.
    + destruct HW as (L & H). split; auto. intros l Hl. rewrite H by auto. f_equal. unfold sumf. cbn. lia.
    + intros. unfold sumf. cbn. lia.
  - destruct (Hx _ (or_introl eq_refl)) as (l & k & Eu & Ev & Hl & Hk). cbn [fst snd] in Eu, Ev. subst u v.
    pose proof (p_constructed _ _ _ _ _ _ _ HV HB) as HC.
    assert (Hl' : l < length all) by (rewrite app_length; lia).
    unfold wm_step at 1. cbn [ww_g ww_ws ww_flow ww_out].
    rewrite (c_vgid _ _ _ _ _ _ HC l _ (gid_nth l Hl')), (c_vgid _ _ _ _ _ _ HC k _ (gid_nth k Hk)). cbn [obind].
    replace (vlid (getVertex l)) with (Some l) by (unfold getVertex; rewrite Nat.add_1_r; reflexivity). cbn [obind].
    destruct (WI_add ws f n l (- w) HW Hl) as (ws1 & E1 & HW1).
    assert (E1' : exists c, aget ws l = Some c /\ aset ws l (c - w)%Z = Some ws1).
    { destruct (aget ws l) as [c|] eqn:Ec; [|discriminate]. cbn [obind] in E1. exists c. split; auto. }
    destruct E1' as (c & Ec & Es). rewrite Ec. cbn [obind]. rewrite Es. cbn [obind]. rewrite (p_owner _ _ _ _ _ _ _ HV HB k _ (gid_nth k Hk)). cbn [obind].
    destruct (IH ws1 _ (fl_add fl (gid_of l) (gid_of k) w) (out ++ [(part_of me (in_verts p) (in_owns p) (gid_of k), (gid_of l, (gid_of k, w)))]) HW1) as (ws' & fl' & E & HW' & HF); [intros; apply Hx; cbn; auto|].
    exists ws', fl'. rewrite E. rewrite <- app_assoc. cbn [map app fst snd]. unfold pmsg at 2. cbn [fst snd]. unfold getVertex. rewrite !Nat.add_sub. split; [reflexivity|]. split.
    + destruct HW' as (L' & H'). split; auto. intros i Hi. rewrite H' by auto. f_equal. cbn [map]. unfold sumf at 2. cbn [map zsum fold_right]. fold (zsum (map (pick (fun u _ : nat => Nat.eqb (u - 1)%nat i)) xs)). fold (sumf (pick (fun u _ : nat => Nat.eqb (u - 1)%nat i)) xs).
      unfold pick at 2. cbn [fst snd]. rewrite Nat.add_sub. destruct (l =? i); lia.
    + intros a b. rewrite HF, fl_get_add. match goal with |- _ = (_ + sumf ?q (?x :: ?y))%Z => change (sumf q (x :: y)) with (q x + sumf q y)%Z end. unfold pick at 2. cbn [fst snd]. rewrite !Nat.add_sub. lia.
Qed.
Lemma wm_begin_ok cs fl s0 fuel : n < fuel -> length (items (wm_sending (wm_made (map hcall cs)))) < fuel -> (forall c, In c cs -> wcall_ok c) ->
  exists ws fl' out, wm_begin fuel (mkWMP g fl (mkWMig (wm_sending (wm_made (map hcall cs))) s0)) = Some (mkWMW g ws fl' out) /\
    WI ws (fun i => (wold i - sumf (fun c => if Nat.eqb (fst (fst c)) i then snd c else 0%Z) cs)%Z) n /\
    (forall a b, fl_get fl' a b = (fl_get fl a b + sumf (fun c => if Z.eqb (gid_of (fst (fst c))) a && Z.eqb (gid_of (snd (fst c))) b then snd c else 0%Z) cs)%Z) /\
    (forall m, In m out -> exists c, In c cs /\ fst m = fst (pmsg c) /\ fst (snd m) = fst (snd (pmsg c)) /\ fst (snd (snd m)) = fst (snd (snd (pmsg c)))) /\
    forall P : Z -> Z -> Z -> bool, sumf (fun m => if P (fst m) (fst (snd m)) (fst (snd (snd m))) then snd (snd (snd m)) else 0%Z) out =
      sumf (fun c => let m := pmsg c in if P (fst m) (fst (snd m)) (fst (snd (snd m))) then snd c else 0%Z) cs.
Proof.
  intros Hf Hi Hc. unfold wm_begin. cbn [wp_g wp_flow wp_plan wm_sending]. destruct (wm_read_ok fuel Hf) as (ws0 & -> & HW0). cbn [obind].
  rewrite (wi_run_items _ (wp_nonempty _) fuel Hi). cbn [obind].
  assert (HK : forall c, In c (items (wm_sending (wm_made (map hcall cs)))) -> exists c', In c' cs /\ fst c = (getVertex (fst (fst c')), getVertex (snd (fst c')))).
  { intros ((u, v), w) H. apply made_keys in H as (w' & H). apply in_map_iff in H as (c & E & H). exists c. split; auto. unfold hcall in E. inversion E; reflexivity. }
  destruct (wm_steps_ok (items (wm_sending (wm_made (map hcall cs)))) ws0 wold fl [] HW0) as (ws & fl' & E & HW & HF).
  { intros c H. destruct (HK c H) as (c' & Hc' & Ek). exists (fst (fst c')), (snd (fst c')). rewrite Ek. cbn. destruct (Hc c' Hc'). auto. }
  exists ws, fl', (map (fun c => pmsg ((fst (fst c) - 1)%nat, (snd (fst c) - 1)%nat, snd c)) (items (wm_sending (wm_made (map hcall cs))))). rewrite E. split; [reflexivity|].
  assert (S1 : forall P : nat -> nat -> bool, sumf (pick P) (items (wm_sending (wm_made (map hcall cs)))) = sumf (fun c => if P (getVertex (fst (fst c))) (getVertex (snd (fst c))) then snd c else 0%Z) cs).
  { intros P. rewrite made_sum, sumf_map. reflexivity. }
  split; [|split; [|split]].
  - destruct HW as (L & H). split; auto. intros l Hl. rewrite H by auto. rewrite S1. do 2 f_equal. apply sumf_ext. intros c _. unfold getVertex. now rewrite Nat.add_sub.
  - intros a b. rewrite HF, S1. f_equal. apply sumf_ext. intros c _. unfold getVertex. now rewrite !Nat.add_sub.
  - intros m Hm. apply in_map_iff in Hm as (c & <- & Hc'). destruct (HK c Hc') as (c2 & Hc2 & Ek). exists c2. split; auto. rewrite Ek. unfold pmsg. cbn [fst snd]. unfold getVertex. rewrite !Nat.add_sub. auto.
  - intros P. rewrite sumf_map. unfold pmsg. cbn [fst snd].
    pose proof (S1 (fun u v => P (part_of me (in_verts p) (in_owns p) (gid_of (v - 1)%nat)) (gid_of (u - 1)%nat) (gid_of (v - 1)%nat))) as X. unfold pick in X. etransitivity; [exact X|].
    apply sumf_ext. intros c _. unfold getVertex. now rewrite !Nat.add_sub.
Qed.
Lemma wm_recvs_ok : forall arr ws f fl out, WI ws f n -> (forall m, In m arr -> In (fst (snd (snd m))) (in_verts p)) ->
  exists ws' fl', foldM wm_recv1 arr (mkWMW g ws fl out) = Some (mkWMW g ws' fl' out) /\
    WI ws' (fun i => (f i + if Nat.eqb (n - 1)%nat i then sumf (fun m => snd (snd (snd m))) arr else 0)%Z) n /\
    forall a b, fl_get fl' a b = (fl_get fl a b - sumf (fun m : Z * (Z * (Z * Z)) => if Z.eqb (fst (snd (snd m))) a && Z.eqb (fst (snd m)) b then snd (snd (snd m)) else 0%Z) arr)%Z.
Proof.
  induction arr as [|(s, (a0, (b0, w))) arr IH]; intros ws f fl out HW Hx; cbn [foldM].
  - exists ws, fl. split; auto. split.
    + destruct HW as (L & H). split; auto. intros l Hl. rewrite H by auto. f_equal. unfold sumf. cbn. destruct (n - 1 =? l); lia.
    + intros. unfold sumf. cbn. lia.
  - pose proof (Hx _ (or_introl eq_refl)) as Hb. cbn [fst snd] in Hb. pose proof (p_constructed _ _ _ _ _ _ _ HV HB) as HC.
    destruct (c_counts _ _ _ _ _ _ HC) as (Hn & _). unfold wm_recv1 at 1. cbn [fst snd ww_g ww_ws ww_flow ww_out].
    pose proof Hb as Hb'. apply In_nth_error in Hb' as (l & Hl). assert (Ll : l < n) by (apply nth_error_Some; congruence).
    rewrite (c_find _ _ _ _ _ _ HC l b0) by (rewrite nth_error_app1; auto). cbn [obind]. rewrite Hn. replace (n =? 0) with false by (symmetry; apply Nat.eqb_neq; lia).
    destruct (WI_add ws f n (n - 1) w HW ltac:(lia)) as (ws1 & E1 & HW1).
    assert (E1' : exists c, aget ws (n - 1) = Some c /\ aset ws (n - 1) (c + w)%Z = Some ws1).
    { destruct (aget ws (n - 1)) as [c|] eqn:Ec; [|discriminate]. exists c. split; auto. }
    destruct E1' as (c & Ec & Es). rewrite Ec. cbn [obind]. rewrite Es. cbn [obind].
    destruct (IH ws1 _ (fl_add fl b0 a0 (- w)) out HW1) as (ws' & fl' & E & HW' & HF); [intros; apply Hx; cbn; auto|].
    exists ws', fl'. rewrite E. split; auto. split.
    + destruct HW' as (L' & H'). split; auto. intros i Hi. rewrite H' by auto. f_equal.
      change (sumf (fun m : Z * (Z * (Z * Z)) => snd (snd (snd m))) ((s, (a0, (b0, w))) :: arr)) with (w + sumf (fun m : Z * (Z * (Z * Z)) => snd (snd (snd m))) arr)%Z. destruct (n - 1 =? i); lia.
    + intros a b. rewrite HF, fl_get_add. match goal with |- _ = (_ - sumf ?q (?x :: ?y))%Z => change (sumf q (x :: y)) with (q x + sumf q y)%Z end. cbn [fst snd]. destruct (Z.eqb b0 a && Z.eqb a0 b); lia.
Qed.
End Part.

(* ---------------- all parts ---------------- *)
Lemma wp_add_len m v u w : length (items (wp_add m v u w)) <= S (length (items m)).
Proof.
  assert (D : forall d, length (wd_add d u w) <= S (length d)) by (induction d as [|(k, x) d IH]; cbn; [lia|]; destruct (k =? u); cbn; lia).
  unfold items. induction m as [|(k, d) m IH]; cbn [wp_add flat_map map fst snd length app]; [lia|]. destruct (k =? v); cbn [flat_map fst snd]; rewrite !app_length, !map_length; [specialize (D d); lia|lia].
Qed.
Lemma made_len cs : length (items (wm_sending (wm_made cs))) <= length cs.
Proof.
  unfold wm_made. assert (G : forall p, length (items (wm_sending (fold_left (fun p c => wm_insert p (fst (fst c)) (snd (fst c)) (snd c)) cs p))) <= length (items (wm_sending p)) + length cs).
  { induction cs as [|((v, u), w) cs IH]; intros p; cbn [fold_left fst snd length]; [lia|]. specialize (IH (wm_insert p v u w)). cbn [wm_sending wm_insert] in *. pose proof (wp_add_len (wm_sending p) v u w). lia. }
  apply (G wm_new).
Qed.
Lemma sumf_single A (f : A -> Z) l r x : nth_error l r = Some x -> (forall i y, nth_error l i = Some y -> i <> r -> f y = 0%Z) -> sumf f l = f x.
Proof.
  revert r. induction l as [|a l IH]; intros r Hr H; [destruct r; discriminate|]. change (sumf f (a :: l)) with (f a + sumf f l)%Z. destruct r as [|r].
  - inversion Hr; subst. rewrite (sumf_zero _ f l); [lia|]. intros y Hy. apply In_nth_error in Hy as (i & Hi). apply (H (S i)); auto.
  - rewrite (H 0 a eq_refl ltac:(lia)). rewrite (IH r Hr); [lia|]. intros i y Hi Ni. apply (H (S i)); auto.
Qed.
Lemma sumf_nth A B (f : A -> Z) (g : B -> Z) : forall l1 l2, length l1 = length l2 -> (forall i x y, nth_error l1 i = Some x -> nth_error l2 i = Some y -> f x = g y) -> sumf f l1 = sumf g l2.
Proof.
  induction l1 as [|a l1 IH]; intros [|b l2] L H; cbn in L; try discriminate; auto. change (f a + sumf f l1 = g b + sumf g l2)%Z.
  rewrite (H 0 a b eq_refl eq_refl). f_equal. apply IH; [lia|]. intros i x y Hx Hy. apply (H (S i)); auto.
Qed.

(** the amount the plans move from vertex a to vertex b, summed over the pairs selected by P *)
Definition moved (ps : list part_in) (calls : list (list wcall)) (P : Z -> Z -> bool) : Z :=
  sumf (fun pc : part_in * list wcall => sumf (fun c => if P (gid_of (fst pc) (fst (fst c))) (gid_of (fst pc) (snd (fst c))) then snd c else 0%Z) (snd pc)) (combine ps calls).
Definition is_in (l : list Z) (v : Z) : bool := existsb (Z.eqb v) l.
Lemma is_in_ok l v : is_in l v = true <-> In v l.
Proof. unfold is_in. rewrite existsb_exists. split; [intros (x & H & E); apply Z.eqb_eq in E; now subst|intros H; exists v; split; auto; apply Z.eqb_refl]. Qed.
Definition wm_ready (hg : bool) (fuel : nat) (ps : list part_in) (calls : list (list wcall)) (sts : list wmpart) : Prop :=
  length sts = length ps /\ length calls = length ps /\
  forall r p cs s, nth_error ps r = Some p -> nth_error calls r = Some cs -> nth_error sts r = Some s ->
    valid_input hg (in_verts p) (in_vws p) (in_tys p) /\
    build_part (Z.of_nat r) hg (in_verts p) (in_vws p) (in_tys p) (in_owns p) = Some (wp_g s) /\
    wm_sending (wp_plan s) = wm_sending (wm_made (map hcall cs)) /\ (forall c, In c cs -> wcall_ok p c) /\
    length (in_verts p) < fuel /\ length cs < fuel.

Section All.
Variables (hg : bool) (fuel : nat) (ps : list part_in) (calls : list (list wcall)) (sts : list wmpart).
Hypothesis HRdy : wm_ready hg fuel ps calls sts.
Hypothesis HOC : owners_correct ps.
Hypothesis HND : NoDup (flat_map in_verts ps).

Lemma wm_disjoint i j p q v : nth_error ps i = Some p -> nth_error ps j = Some q -> In v (in_verts p) -> In v (in_verts q) -> i = j.
Proof.
  clear - HND. revert i j. induction ps as [|a l IH]; intros i j Hi Hj Hv Hw; [destruct i; discriminate|]. cbn in HND. apply NoDup_app_iff in HND as (N1 & N2 & N3).
  assert (F : forall k x, nth_error l k = Some x -> In v (in_verts x) -> In v (flat_map in_verts l)).
  { intros k x Hk Hx. apply in_flat_map. exists x. split; auto. eapply nth_error_In; eauto. }
  destruct i as [|i], j as [|j]; cbn [nth_error] in Hi, Hj; [reflexivity| | |].
  - inversion Hi; subst. exfalso. eapply N3; eauto.
  - inversion Hj; subst. exfalso. eapply N3; eauto.
  - f_equal. eapply IH; eauto.
Qed.
Lemma gid_local p l : l < length (in_verts p) -> In (gid_of p l) (in_verts p).
Proof. intros H. unfold gid_of. rewrite app_nth1 by auto. now apply nth_In. Qed.
Lemma gid_in p l : l < length (in_verts p ++ ghosts_of (in_verts p) (in_tys p)) -> In (gid_of p l) (in_verts p ++ ghosts_of (in_verts p) (in_tys p)).
Proof. intros H. now apply nth_In. Qed.
Lemma owner_home r p v : nth_error ps r = Some p -> In v (in_verts p ++ ghosts_of (in_verts p) (in_tys p)) ->
  exists q p', part_of (Z.of_nat r) (in_verts p) (in_owns p) v = Z.of_nat q /\ nth_error ps q = Some p' /\ In v (in_verts p').
Proof.
  intros Hp Hv. unfold part_of. destruct (in_dec Z.eq_dec v (in_verts p)) as [H|H]; [exists r, p; auto|].
  apply in_app_iff in Hv as [Hv|Hv]; [tauto|]. destruct (HOC r p v Hp Hv) as (q & p' & E & H1 & H2). rewrite E. eauto.
Qed.
Lemma pg A (l : list A) i x : length l = length ps -> nth_error l i = Some x -> exists p cs s, nth_error ps i = Some p /\ nth_error calls i = Some cs /\ nth_error sts i = Some s.
Proof.
  intros L Hi. assert (Li : i < length l) by (apply nth_error_Some; congruence). destruct HRdy as (L1 & L2 & _).
  destruct (nth_error ps i) eqn:E1; [|apply nth_error_None in E1; lia]. destruct (nth_error calls i) eqn:E2; [|apply nth_error_None in E2; lia].
  destruct (nth_error sts i) eqn:E3; [|apply nth_error_None in E3; lia]. do 3 eexists. repeat split; reflexivity.
Qed.
Lemma moved_own r p cs (P : Z -> Z -> bool) : nth_error ps r = Some p -> nth_error calls r = Some cs -> (forall a b, P a b = true -> In a (in_verts p)) ->
  moved ps calls P = sumf (fun c => if P (gid_of p (fst (fst c))) (gid_of p (snd (fst c))) then snd c else 0%Z) cs.
Proof.
  intros Hp Hc HP. unfold moved. assert (Hr : nth_error (combine ps calls) r = Some (p, cs)) by (now apply combine_nth_error).
  rewrite (sumf_single _ _ _ r (p, cs) Hr); [reflexivity|]. intros i (q, ds) Hi Ni. apply combine_nth_inv in Hi as (Hq & Hd). cbn [fst snd].
  destruct HRdy as (L1 & _ & HR). destruct (nth_error sts i) as [s|] eqn:Es; [|apply nth_error_None in Es; assert (i < length ps) by (apply nth_error_Some; congruence); lia].
  destruct (HR _ _ _ _ Hq Hd Es) as (_ & _ & _ & Hok & _). apply sumf_zero. intros c Hin. destruct (P _ _) eqn:EP; auto. exfalso. apply Ni.
  apply HP in EP. destruct (Hok c Hin) as (Hl & _). eapply wm_disjoint; eauto. now apply gid_local.
Qed.

Theorem weight_ok : weight_migrate fuel sts (fun sts' => length sts' = length ps /\ forall r p s s',
  nth_error ps r = Some p -> nth_error sts r = Some s -> nth_error sts' r = Some s' ->
  nlv (fst s') = length (in_verts p) /\
  (forall l v, nth_error (in_verts p) l = Some v -> vweight (fst s') (getVertex l) =
     Some (wold p l - moved ps calls (fun a _ => Z.eqb a v) + (if Nat.eqb (S l) (length (in_verts p)) then moved ps calls (fun _ b => is_in (in_verts p) b) else 0))%Z) /\
  (forall a b, In a (in_verts p) -> fl_get (snd s') a b = (fl_get (wp_flow s) a b + moved ps calls (fun x y => Z.eqb x a && Z.eqb y b) - moved ps calls (fun x y => Z.eqb x b && Z.eqb y a))%Z)).
Proof.
  pose proof HRdy as (L1 & L2 & HR). unfold weight_migrate.
  apply local_intro with (PB := fun i w => forall p cs s, nth_error ps i = Some p -> nth_error calls i = Some cs -> nth_error sts i = Some s ->
    exists ws fl' out, w = mkWMW (wp_g s) ws fl' out /\
    WI ws (fun i => (wold p i - sumf (fun c => if Nat.eqb (fst (fst c)) i then snd c else 0%Z) cs)%Z) (length (in_verts p)) /\
    (forall a b, fl_get fl' a b = (fl_get (wp_flow s) a b + sumf (fun c => if Z.eqb (gid_of p (fst (fst c))) a && Z.eqb (gid_of p (snd (fst c))) b then snd c else 0%Z) cs)%Z) /\
    (forall m, In m out -> exists c, In c cs /\ fst m = fst (pmsg (Z.of_nat i) p c) /\ fst (snd m) = fst (snd (pmsg (Z.of_nat i) p c)) /\ fst (snd (snd m)) = fst (snd (snd (pmsg (Z.of_nat i) p c)))) /\
    forall P : Z -> Z -> Z -> bool, sumf (fun m => if P (fst m) (fst (snd m)) (fst (snd (snd m))) then snd (snd (snd m)) else 0%Z) out =
      sumf (fun c => let m := pmsg (Z.of_nat i) p c in if P (fst m) (fst (snd m)) (fst (snd (snd m))) then snd c else 0%Z) cs).
  { intros i s Hs. destruct (pg _ sts i s L1 Hs) as (p & cs & s2 & Hp & Hc & _). destruct (HR _ _ _ _ Hp Hc Hs) as (HV & HB & Em & Hok & F1 & F2).
    destruct s as [g fl [sd s0]]. cbn [wp_g wp_flow wp_plan wm_sending] in *. subst sd. pose proof (made_len (map hcall cs)) as Lm. rewrite map_length in Lm.
    destruct (wm_begin_ok (Z.of_nat i) hg p g HV HB cs fl s0 fuel F1 ltac:(lia) Hok) as (ws & fl' & out & E & H).
    eexists. split; [exact E|]. intros p' cs' s' Hp' Hc' Hs'. assert (p' = p) by congruence. assert (cs' = cs) by congruence. subst p' cs'.
    rewrite Hs in Hs'. inversion Hs'; subst s'. exists ws, fl', out. cbn [wp_g wp_flow]. split; auto. }
  intros works Lw HW. rewrite L1 in Lw.
  apply phase_intro with (PB := fun r s' => forall p s, nth_error ps r = Some p -> nth_error sts r = Some s -> nlv (fst s') = length (in_verts p) /\
  (forall l v, nth_error (in_verts p) l = Some v -> vweight (fst s') (getVertex l) =
     Some (wold p l - moved ps calls (fun a _ => Z.eqb a v) + (if Nat.eqb (S l) (length (in_verts p)) then moved ps calls (fun _ b => is_in (in_verts p) b) else 0))%Z) /\
  (forall a b, In a (in_verts p) -> fl_get (snd s') a b = (fl_get (wp_flow s) a b + moved ps calls (fun x y => Z.eqb x a && Z.eqb y b) - moved ps calls (fun x y => Z.eqb x b && Z.eqb y a))%Z)).
  - intros i w Hw. eexists. split; [reflexivity|]. intros m Hm. destruct (pg _ works i w Lw Hw) as (p & cs & s & Hp & Hc & Hs).
    destruct (HW i w Hw p cs s Hp Hc Hs) as (ws & fl' & out & -> & _ & _ & HM & _). cbn [ww_out] in Hm. destruct (HM m Hm) as (c & Hin & E & _). rewrite E. cbn [pmsg fst].
    destruct (HR _ _ _ _ Hp Hc Hs) as (_ & _ & _ & Hok & _). destruct (Hok c Hin) as (_ & Hk). destruct (owner_home i p _ Hp (gid_in p _ Hk)) as (q & p' & -> & Hq & _).
    assert (q < length ps) by (apply nth_error_Some; congruence). lia.
  - intros sent rcv Es Dl r w arr Hw Ha. destruct (pg _ works r w Lw Hw) as (p & cs & s & Hp & Hc & Hs).
    destruct (HW r w Hw p cs s Hp Hc Hs) as (ws & fl' & out & -> & HWI & HFl & _ & _). destruct (HR _ _ _ _ Hp Hc Hs) as (HV & HB & _ & Hok & _).
    assert (OW : forall i pi ci c, nth_error ps i = Some pi -> nth_error calls i = Some ci -> In c ci ->
      Z.eqb (fst (pmsg (Z.of_nat i) pi c)) (Z.of_nat r) = is_in (in_verts p) (gid_of pi (snd (fst c)))).
    { intros i pi ci c Hpi Hci Hin. destruct (nth_error sts i) as [si|] eqn:Esi; [|apply nth_error_None in Esi; assert (i < length ps) by (apply nth_error_Some; congruence); lia].
      destruct (HR _ _ _ _ Hpi Hci Esi) as (_ & _ & _ & Hoki & _). destruct (Hoki c Hin) as (_ & Hk). cbn [pmsg fst].
      destruct (owner_home i pi _ Hpi (gid_in pi _ Hk)) as (q & p' & -> & Hq & Hv). destruct (is_in _ _) eqn:EI.
      - apply is_in_ok in EI. assert (q = r) by (eapply wm_disjoint; eauto). subst. apply Z.eqb_refl.
      - apply Z.eqb_neq. intros X. assert (q = r) by lia. subst q. assert (p' = p) by congruence. subst p'. apply is_in_ok in Hv. congruence. }
    assert (SR : forall P : Z -> Z -> bool, sumf (fun m : Z * (Z * (Z * Z)) => if P (fst (snd m)) (fst (snd (snd m))) then snd (snd (snd m)) else 0%Z) arr = moved ps calls (fun x y => is_in (in_verts p) y && P x y)).
    { intros P. destruct Dl as (_ & Lr & Dp). rewrite (sumf_perm _ _ _ _ (Dp r arr Ha)). unfold addressed. rewrite sumf_flat. unfold moved.
      assert (Lsent : length sent = length ps) by (apply mapM_length in Es; congruence).
      apply sumf_nth; [rewrite !combine_length, seq_length; lia|]. intros i (i', ms) (pi, ci) H1 H2. apply combine_nth_inv in H1 as (H1 & H1'). apply combine_nth_inv in H2 as (H2 & H2').
      assert (Li : i < length sent) by (apply nth_error_Some; congruence). rewrite nth_error_seq in H1 by auto. inversion H1; subst i'. cbn [fst snd plus]. rewrite sumf_map. cbn [fst snd]. rewrite sumf_filter.
      destruct (nth_error works i) as [wi|] eqn:Ewi; [|apply nth_error_None in Ewi; lia]. destruct (nth_error sts i) as [si|] eqn:Esi; [|apply nth_error_None in Esi; lia].
      destruct (mapM_nth _ _ _ _ _ _ _ Es Ewi) as (ms' & Hms & Ems). cbv beta in Ems. assert (Eo : ww_out wi = ms) by congruence. clear Ems Hms ms'.
      destruct (HW i wi Ewi pi ci si H2 H2' Esi) as (wsi & fli & outi & -> & _ & _ & _ & HS). cbn [ww_out] in Eo. subst outi.
      specialize (HS (fun d a b => Z.eqb d (Z.of_nat r) && P a b)). cbn [ww_out] in *.
      etransitivity; [|etransitivity; [exact HS|]].
      - apply sumf_ext. intros m _. now destruct (Z.eqb (fst m) (Z.of_nat r)), (P (fst (snd m)) (fst (snd (snd m)))).
      - apply sumf_ext. intros c Hin. cbv zeta. rewrite (OW i pi ci c H2 H2' Hin). cbn [pmsg fst snd]. reflexivity. }
    assert (AV : forall m, In m arr -> In (fst (snd (snd m))) (in_verts p)).
    { intros (z, m) Hm. apply (arrived_in _ _ _ _ _ _ _ _ _ _ Es Dl Ha) in Hm as (i & wi & ms & Hwi & Ems & -> & Hin). inversion Ems; subst ms. cbn [fst snd].
      destruct (pg _ works i wi Lw Hwi) as (pi & ci & si & Hpi & Hci & Hsi). destruct (HW i wi Hwi pi ci si Hpi Hci Hsi) as (wsi & fli & outi & -> & _ & _ & HM & _). cbn [ww_out] in Hin.
      destruct (HM _ Hin) as (c & Hcin & E1 & _ & E3). cbn [fst snd] in E1, E3. rewrite E3. apply is_in_ok. cbn [pmsg fst snd]. rewrite <- (OW i pi ci c Hpi Hci Hcin), <- E1. apply Z.eqb_refl. }
    destruct (wm_recvs_ok (Z.of_nat r) hg p (wp_g s) HV HB arr ws _ fl' out HWI AV) as (ws' & fl2 & E & HW' & HF').
    exists (set_weights (wp_g s) ws', fl2). unfold wm_recv. rewrite E. split; [reflexivity|]. intros p' s' Hp' Hs'. assert (p' = p) by congruence. assert (s' = s) by congruence. subst p' s'.
    destruct (c_counts _ _ _ _ _ _ (p_constructed _ _ _ _ _ _ _ HV HB)) as (Hn & _). cbn [fst snd]. split; [exact Hn|].
    assert (NDp : NoDup (in_verts p)) by (apply HV). split.
    + intros l v Hl. assert (Ll : l < length (in_verts p)) by (apply nth_error_Some; congruence). destruct HW' as (Lws & HA).
      unfold vweight, getVertex. rewrite Nat.add_1_r. cbn [vlid obind nlv set_weights lwgts]. rewrite Hn. replace (l <? length (in_verts p)) with true by (symmetry; apply Nat.ltb_lt; auto).
      rewrite firstn_all2 by lia. rewrite HA by auto. f_equal. f_equal; [f_equal|].
      * rewrite (moved_own r p cs (fun a _ => Z.eqb a v) Hp Hc); [|intros a b X; apply Z.eqb_eq in X; subst; eapply nth_error_In; eauto].
        apply sumf_ext. intros c Hin. destruct (Hok c Hin) as (Hl' & _).
        assert (X : Nat.eqb (fst (fst c)) l = Z.eqb (gid_of p (fst (fst c))) v).
        { unfold gid_of. rewrite app_nth1 by auto. destruct (Nat.eqb_spec (fst (fst c)) l) as [->|N].
          - symmetry. apply Z.eqb_eq. now apply nth_error_nth.
          - symmetry. apply Z.eqb_neq. intros X. apply N. apply (proj1 (NoDup_nth (in_verts p) 0%Z) NDp); auto. rewrite X. symmetry. now apply nth_error_nth. }
        now rewrite X.
      * replace (Nat.eqb (length (in_verts p) - 1) l) with (Nat.eqb (S l) (length (in_verts p))) by (destruct (Nat.eqb_spec (S l) (length (in_verts p))), (Nat.eqb_spec (length (in_verts p) - 1) l); auto; lia).
        destruct (Nat.eqb (S l) (length (in_verts p))); auto. specialize (SR (fun _ _ => true)). cbv beta iota in SR. rewrite SR. unfold moved. apply sumf_ext. intros pc _. apply sumf_ext. intros c _. now rewrite andb_true_r.
    + intros a b Hin. rewrite HF', HFl. rewrite (moved_own r p cs (fun x y => Z.eqb x a && Z.eqb y b) Hp Hc); [|intros x y X; apply andb_true_iff in X as (X & _); apply Z.eqb_eq in X; now subst].
      f_equal. etransitivity; [|etransitivity; [apply (SR (fun x y => Z.eqb y a && Z.eqb x b))|]]; [reflexivity|].
      unfold moved. apply sumf_ext. intros pc _. apply sumf_ext. intros c _. destruct (Z.eqb_spec (gid_of (fst pc) (snd (fst c))) a) as [->|]; [|now rewrite !andb_false_r].
      rewrite (proj2 (is_in_ok _ _) Hin), andb_true_r. reflexivity.
  - intros sts' L' H'. split; [congruence|]. intros r p s s' Hp Hs Hs'. eapply H'; eauto.
Qed.
End All.

(** weights of the local vertices of a part, total over all parts *)
Definition part_weights (g : graph) : option (list Z) := mapM (fun l => vweight g (getVertex l)) (seq 0 (nlv g)).
Definition total_weight (gs : list graph) : option Z := ls <- mapM part_weights gs ;; Some (sumf zsum ls).
Lemma mapM_total A (f : A -> option (list Z)) (h : A -> Z) l : (forall x, In x l -> exists y, f x = Some y /\ zsum y = h x) -> (ls <- mapM f l ;; Some (sumf zsum ls)) = Some (sumf h l).
Proof.
  induction l as [|x l IH]; intros H; [reflexivity|]. destruct (H x (or_introl eq_refl)) as (y & E & Ey). cbn [mapM]. rewrite E. cbn [obind].
  destruct (mapM f l) as [ls|]; cbn [obind] in *; [|discriminate IH; intros; apply H; cbn; auto].
  assert (X : Some (sumf zsum ls) = Some (sumf h l)) by (apply IH; intros; apply H; cbn; auto). inversion X as [Y]. f_equal.
  change (zsum y + sumf zsum ls = h x + sumf h l)%Z. lia.
Qed.
Lemma sumf_onehot L x w : NoDup L -> sumf (fun v => if Z.eqb x v then w else 0%Z) L = if is_in L x then w else 0%Z.
Proof.
  induction L as [|a L IH]; intros N; [reflexivity|]. inversion N; subst. change ((if Z.eqb x a then w else 0%Z) + sumf (fun v => if Z.eqb x v then w else 0%Z) L = if Z.eqb x a || is_in L x then w else 0%Z)%Z.
  rewrite IH by auto. destruct (Z.eqb_spec x a) as [->|]; cbn [orb]; [|lia]. destruct (is_in L a) eqn:E; [apply is_in_ok in E; tauto|lia].
Qed.
Lemma vweight_old me hg p g l : valid_input hg (in_verts p) (in_vws p) (in_tys p) -> build_part me hg (in_verts p) (in_vws p) (in_tys p) (in_owns p) = Some g ->
  l < length (in_verts p) -> vweight g (getVertex l) = Some (wold p l).
Proof.
  intros HV HB Hi. destruct (part_rep _ _ _ _ _ _ _ HV HB) as (R & _). unfold vweight, getVertex. rewrite Nat.add_1_r. cbn [vlid obind]. rewrite (rp_nlv _ _ _ _ _ R). replace (l <? length (in_verts p)) with true by (symmetry; apply Nat.ltb_lt; auto).
  rewrite (rp_lwg _ _ _ _ _ R), aget_ainit. unfold wold. apply nth_error_nth'. pose proof (rp_wlen _ _ _ _ _ R). lia.
Qed.
Lemma moved_sum_verts ps calls L : NoDup L -> sumf (fun v => moved ps calls (fun a _ => Z.eqb a v)) L = moved ps calls (fun a _ => is_in L a).
Proof.
  intros N. unfold moved. rewrite sumf_swap. apply sumf_ext. intros pc _. rewrite sumf_swap. apply sumf_ext. intros c _. now apply sumf_onehot.
Qed.
Lemma moved_sum_parts hg fuel ps calls sts (P : Z -> Z -> Z) : wm_ready hg fuel ps calls sts -> owners_correct ps -> NoDup (flat_map in_verts ps) ->
  (forall pc c, In pc (combine ps calls) -> In c (snd pc) -> exists q p', nth_error ps q = Some p' /\ In (P (gid_of (fst pc) (fst (fst c))) (gid_of (fst pc) (snd (fst c)))) (in_verts p')) ->
  sumf (fun p => moved ps calls (fun a b => is_in (in_verts p) (P a b))) ps = moved ps calls (fun _ _ => true).
Proof.
  intros HR HO HN HP. unfold moved. rewrite sumf_swap. apply sumf_ext. intros pc Hpc. rewrite sumf_swap. apply sumf_ext. intros c Hc.
  destruct (HP pc c Hpc Hc) as (q & p' & Hq & Hin). rewrite (sumf_single _ _ ps q p' Hq).
  - now rewrite (proj2 (is_in_ok _ _) Hin).
  - intros i p2 Hi Ni. destruct (is_in (in_verts p2) _) eqn:E; auto. apply is_in_ok in E. exfalso. apply Ni. eapply wm_disjoint; eauto.
Qed.
Lemma weight_total hg fuel ps calls sts : wm_ready hg fuel ps calls sts -> owners_correct ps -> NoDup (flat_map in_verts ps) ->
  weight_migrate fuel sts (fun sts' => exists w, total_weight (map wp_g sts) = Some w /\ total_weight (map fst sts') = Some w).
Proof.
  intros HR HO HN. destruct (weight_ok hg fuel ps calls sts HR HO HN) as (works & Ew & sent & Es & D & K). exists works. split; auto. exists sent. split; auto. split; auto.
  intros rcv Dl. destruct (K rcv Dl) as (st' & E' & (L' & H)). exists st'. split; auto. pose proof HR as (L1 & L2 & HRr).
  exists (sumf (fun p => zsum (map (wold p) (seq 0 (length (in_verts p))))) ps).
  assert (G : forall A (l : list A) (k : A -> graph) (h : part_in -> Z), length l = length ps ->
    (forall i x p, nth_error l i = Some x -> nth_error ps i = Some p -> exists y, part_weights (k x) = Some y /\ zsum y = h p) -> total_weight (map k l) = Some (sumf h ps)).
  { intros A l k h L Hx. unfold total_weight. rewrite mapM_map.
    assert (Q : forall (l : list A) (qs : list part_in), length l = length qs -> (forall i x p, nth_error l i = Some x -> nth_error qs i = Some p -> exists y, part_weights (k x) = Some y /\ zsum y = h p) ->
      (ls <- mapM (fun x => part_weights (k x)) l ;; Some (sumf zsum ls)) = Some (sumf h qs)).
    { clear. induction l as [|x l IH]; intros [|q qs] L H; try discriminate; [reflexivity|]. destruct (H 0 x q eq_refl eq_refl) as (y & E & Ey). cbn [mapM]. rewrite E. cbn [obind].
      assert (X := IH qs ltac:(cbn in L; lia) (fun i => H (S i))). destruct (mapM _ l) as [ls|]; cbn [obind] in *; [|discriminate]. inversion X as [Y]. f_equal.
      change (zsum y + sumf zsum ls = h q + sumf h qs)%Z. lia. }
    now apply Q. }
  split.
  - apply G; auto. intros i s p Hs Hp. destruct (nth_error calls i) as [cs|] eqn:Hc; [|apply nth_error_None in Hc; assert (i < length ps) by (apply nth_error_Some; congruence); lia].
    destruct (HRr i p cs s Hp Hc Hs) as (HV & HB & _). destruct (c_counts _ _ _ _ _ _ (p_constructed _ _ _ _ _ _ _ HV HB)) as (Hn & _).
    eexists. split; [|reflexivity]. unfold part_weights. rewrite Hn. apply mapM_some. intros l Hl. apply in_seq in Hl. apply (vweight_old _ _ _ _ _ HV HB). lia.
  - set (h := fun p => (zsum (map (wold p) (seq 0 (length (in_verts p)))) - moved ps calls (fun a _ => is_in (in_verts p) a) + moved ps calls (fun _ b => is_in (in_verts p) b))%Z).
    replace (sumf (fun p => zsum (map (wold p) (seq 0 (length (in_verts p))))) ps) with (sumf h ps).
    + apply G; [congruence|]. intros i s' p Hs' Hp. destruct (nth_error sts i) as [s|] eqn:Hs; [|apply nth_error_None in Hs; assert (i < length ps) by (apply nth_error_Some; congruence); lia].
      destruct (H i p s s' Hp Hs Hs') as (Hn & Hw & _).
      set (nw := fun l => (wold p l - moved ps calls (fun a _ => Z.eqb a (nth l (in_verts p) 0%Z)) + (if Nat.eqb (S l) (length (in_verts p)) then moved ps calls (fun _ b => is_in (in_verts p) b) else 0))%Z).
      exists (map nw (seq 0 (length (in_verts p)))). split.
      * unfold part_weights. rewrite Hn. apply mapM_some. intros l Hl. apply in_seq in Hl. apply Hw. apply nth_error_nth'. lia.
      * change (sumf nw (seq 0 (length (in_verts p))) = h p). unfold nw. rewrite sumf_add, sumf_sub. unfold h. f_equal; [f_equal|].
        -- assert (NDp : NoDup (in_verts p)). { destruct (nth_error calls i) as [cs|] eqn:Hc; [|apply nth_error_None in Hc; assert (i < length ps) by (apply nth_error_Some; congruence); lia]. apply (HRr i p cs s Hp Hc Hs). }
           rewrite <- (moved_sum_verts ps calls _ NDp). symmetry. apply sumf_nth; [now rewrite seq_length|]. intros j v k Hv Hk. assert (j < length (in_verts p)) by (apply nth_error_Some; congruence).
           rewrite nth_error_seq in Hk by auto. inversion Hk; subst. cbn [plus]. now rewrite (nth_error_nth _ _ _ Hv).
        -- destruct (length (in_verts p)) as [|m] eqn:En.
           ++ unfold sumf. cbn. symmetry. unfold moved. apply sumf_zero. intros pc _. apply sumf_zero. intros c _. assert (in_verts p = []) by (now apply length_zero_iff_nil). rewrite H0. reflexivity.
           ++ rewrite seq_S, sumf_app. rewrite (sumf_zero _ _ (seq 0 m)).
              ** unfold sumf. cbn [map zsum fold_right plus]. rewrite Nat.eqb_refl. cbn. lia.
              ** intros l Hl. apply in_seq in Hl. destruct (Nat.eqb_spec (S l) (S m)); auto. lia.
    + unfold h. rewrite sumf_add, sumf_sub.
      rewrite (moved_sum_parts hg fuel ps calls sts (fun a _ => a) HR HO HN), (moved_sum_parts hg fuel ps calls sts (fun _ b => b) HR HO HN); [lia| |].
      * intros (p, cs) c Hpc Hc. apply In_nth_error in Hpc as (i & Hi). apply combine_nth_inv in Hi as (Hp & Hcs). cbn [fst snd] in *.
        destruct (nth_error sts i) as [s|] eqn:Hs; [|apply nth_error_None in Hs; assert (i < length ps) by (apply nth_error_Some; congruence); lia].
        destruct (HRr i p cs s Hp Hcs Hs) as (_ & _ & _ & Hok & _). destruct (Hok c Hc) as (_ & Hk). destruct (owner_home ps HO i p _ Hp (gid_in p _ Hk)) as (q & p' & _ & Hq & Hv). eauto.
      * intros (p, cs) c Hpc Hc. apply In_nth_error in Hpc as (i & Hi). apply combine_nth_inv in Hi as (Hp & Hcs). cbn [fst snd] in *.
        destruct (nth_error sts i) as [s|] eqn:Hs; [|apply nth_error_None in Hs; assert (i < length ps) by (apply nth_error_Some; congruence); lia].
        destruct (HRr i p cs s Hp Hcs Hs) as (_ & _ & _ & Hok & _). destruct (Hok c Hc) as (Hl & _). exists i, p. split; auto. now apply gid_local.
Qed.
Lemma weight_mono fuel sts (Q Q' : list (graph * flow) -> Prop) : (forall s, Q s -> Q' s) -> weight_migrate fuel sts Q -> weight_migrate fuel sts Q'.
Proof. intros H (works & Ew & sent & Es & D & K). exists works. split; auto. exists sent. split; auto. split; auto. intros rcv Dl. destruct (K rcv Dl) as (st' & E' & HQ). eauto. Qed.

(* ------------------------------------------------------------------ *)
(** ** C21.  [moved ps calls P] is the sum of the amounts inserted in the plans for the (source, target) pairs of global
    ids selected by P.  [wm_ready]: every part was built by the construction calls and its plan by insertions of pairs
    (local vertex, any known vertex). *)
Theorem C21_total : forall hg fuel ps calls sts, wm_ready hg fuel ps calls sts -> owners_correct ps -> NoDup (flat_map in_verts ps) ->
  weight_migrate fuel sts (fun sts' => exists w, total_weight (map wp_g sts) = Some w /\ total_weight (map fst sts') = Some w).
Proof. exact weight_total. Qed.
Print Assumptions C21_total.
(** the flow records: after the call, what part r records for (a, b) grew by the amount moved from a to b minus the amount
    moved from b to a, so records that mirrored each other still do *)
Theorem C21_flow : forall hg fuel ps calls sts, wm_ready hg fuel ps calls sts -> owners_correct ps -> NoDup (flat_map in_verts ps) ->
  weight_migrate fuel sts (fun sts' => length sts' = length ps /\
    (forall r p s s' a b, nth_error ps r = Some p -> nth_error sts r = Some s -> nth_error sts' r = Some s' -> In a (in_verts p) ->
      fl_get (snd s') a b = (fl_get (wp_flow s) a b + moved ps calls (fun x y => Z.eqb x a && Z.eqb y b) - moved ps calls (fun x y => Z.eqb x b && Z.eqb y a))%Z) /\
    forall r q p p' s s' t t' a b, nth_error ps r = Some p -> nth_error sts r = Some s -> nth_error sts' r = Some s' -> In a (in_verts p) ->
      nth_error ps q = Some p' -> nth_error sts q = Some t -> nth_error sts' q = Some t' -> In b (in_verts p') ->
      fl_get (wp_flow s) a b = (- fl_get (wp_flow t) b a)%Z -> fl_get (snd s') a b = (- fl_get (snd t') b a)%Z).
Proof.
  intros hg fuel ps calls sts HR HO HN. eapply weight_mono; [|apply (weight_ok hg fuel ps calls sts HR HO HN)]. intros sts' (L & H). split; auto.
  assert (A : forall r p s s' a b, nth_error ps r = Some p -> nth_error sts r = Some s -> nth_error sts' r = Some s' -> In a (in_verts p) ->
      fl_get (snd s') a b = (fl_get (wp_flow s) a b + moved ps calls (fun x y => Z.eqb x a && Z.eqb y b) - moved ps calls (fun x y => Z.eqb x b && Z.eqb y a))%Z).
  { intros r p s s' a b Hp Hs Hs' Ha. destruct (H r p s s' Hp Hs Hs') as (_ & _ & X). now apply X. }
  split; auto. intros r q p p' s s' t t' a b Hp Hs Hs' Ha Hq Ht Ht' Hb E. rewrite (A r p s s' a b), (A q p' t t' b a) by auto. lia.
Qed.
Print Assumptions C21_flow.
(** the weights: the sources lose exactly what they planned; everything a part receives goes to its LAST vertex *)
Theorem C21_effect : forall hg fuel ps calls sts, wm_ready hg fuel ps calls sts -> owners_correct ps -> NoDup (flat_map in_verts ps) ->
  weight_migrate fuel sts (fun sts' => length sts' = length ps /\ forall r p s s' l v w,
    nth_error ps r = Some p -> nth_error sts r = Some s -> nth_error sts' r = Some s' -> nth_error (in_verts p) l = Some v -> vweight (wp_g s) (getVertex l) = Some w ->
    vweight (fst s') (getVertex l) = Some (w - moved ps calls (fun a _ => Z.eqb a v) +
      (if Nat.eqb (S l) (length (in_verts p)) then moved ps calls (fun _ b => is_in (in_verts p) b) else 0))%Z).
Proof.
  intros hg fuel ps calls sts HR HO HN. eapply weight_mono; [|apply (weight_ok hg fuel ps calls sts HR HO HN)]. intros sts' (L & H). split; auto.
  intros r p s s' l v w Hp Hs Hs' Hl Hw. destruct (H r p s s' Hp Hs Hs') as (_ & X & _). rewrite (X l v Hl). do 3 f_equal.
  destruct HR as (L1 & L2 & HRr). destruct (nth_error calls r) as [cs|] eqn:Hc; [|apply nth_error_None in Hc; assert (r < length ps) by (apply nth_error_Some; congruence); lia].
  destruct (HRr r p cs s Hp Hc Hs) as (HV & HB & _). rewrite (vweight_old _ _ _ _ l HV HB) in Hw; [congruence|]. apply nth_error_Some. congruence.
Qed.
Print Assumptions C21_effect.
(** hence the full property when no part has more than one vertex *)
Theorem C21_one_vertex_partial : forall hg fuel ps calls sts, wm_ready hg fuel ps calls sts -> owners_correct ps -> NoDup (flat_map in_verts ps) ->
  (forall p, In p ps -> length (in_verts p) <= 1) ->
  weight_migrate fuel sts (fun sts' => length sts' = length ps /\ forall r p s s' l v w,
    nth_error ps r = Some p -> nth_error sts r = Some s -> nth_error sts' r = Some s' -> nth_error (in_verts p) l = Some v -> vweight (wp_g s) (getVertex l) = Some w ->
    vweight (fst s') (getVertex l) = Some (w - moved ps calls (fun a _ => Z.eqb a v) + moved ps calls (fun _ b => Z.eqb b v))%Z).
Proof.
  intros hg fuel ps calls sts HR HO HN H1. eapply weight_mono; [|apply (C21_effect hg fuel ps calls sts HR HO HN)]. intros sts' (L & H). split; auto.
  intros r p s s' l v w Hp Hs Hs' Hl Hw. rewrite (H r p s s' l v w) by auto. specialize (H1 p (nth_error_In _ _ Hp)).
  destruct (in_verts p) as [|x [|y k]] eqn:E; [destruct l; discriminate| |cbn in H1; lia]. destruct l as [|l]; [|destruct l; discriminate]. inversion Hl; subst x. cbn [length Nat.eqb].
  do 2 f_equal. unfold moved. apply sumf_ext. intros pc _. apply sumf_ext. intros c _. unfold is_in. cbn. now rewrite orb_false_r.
Qed.
Print Assumptions C21_one_vertex_partial.

(** part 0 has vertex 1, part 1 has vertices 2 and 3; weight 4 is moved from 1 to 2 and arrives at 3 *)
Definition w_ps : list part_in := [mkPartIn [1]%Z [10]%Z [([(100, [1; 2])], [])]%Z [(2, 1)]%Z; mkPartIn [2; 3]%Z [5; 5]%Z [([(100, [1; 2])], [])]%Z [(1, 0)]%Z].
Definition w_calls : list (list wcall) := [[(0, 1, 3%Z); (0, 1, 1%Z)]; []].
Definition w_sts : option (list wmpart) :=
  mapM (fun x => g <- build_part (Z.of_nat (fst x)) true (in_verts (fst (snd x))) (in_vws (fst (snd x))) (in_tys (fst (snd x))) (in_owns (fst (snd x))) ;;
                 Some (mkWMP g [] (wm_made (map hcall (snd (snd x)))))) (combine (seq 0 2) (combine w_ps w_calls)).
Definition run_weight (fuel : nat) (sts : list wmpart) : option (list (graph * flow)) := ws <- mapM (wm_begin fuel) sts ;; run_phase (fun w => Some (ww_out w)) wm_recv ws.
Lemma w_ready_ok : forall sts, w_sts = Some sts -> wm_ready true 20 w_ps w_calls sts.
Proof.
  intros sts E. vm_compute in E. inversion E; subst sts. split; [reflexivity|]. split; [reflexivity|].
  intros r p cs s Hp Hc Hs. destruct r as [|[|r]]; cbn in Hp; try (destruct r; discriminate); inversion Hp; subst; cbn in Hc, Hs; inversion Hc; inversion Hs; subst;
    (split; [|split; [vm_compute; reflexivity|split; [reflexivity|split; [|cbn; lia]]]]).
  - split; [repeat constructor; cbn; intuition lia|]. split; [cbn; lia|]. split; [cbn; lia|]. intros es ws [X|[]]; inversion X; subst. split; [auto|discriminate].
  - intros c [<-|[<-|[]]]; vm_compute; lia.
  - split; [repeat constructor; cbn; intuition lia|]. split; [cbn; lia|]. split; [cbn; lia|]. intros es ws [X|[]]; inversion X; subst. split; [auto|discriminate].
  - intros c [].
Qed.
Lemma w_owners : owners_correct w_ps.
Proof.
  intros r p v Hp Hv. destruct r as [|[|r]]; cbn in Hp; try (destruct r; discriminate); inversion Hp; subst; vm_compute in Hv; destruct Hv as [<-|[]].
  - exists 1. eexists. split; [reflexivity|]. split; [reflexivity|]. cbn; auto.
  - exists 0. eexists. split; [reflexivity|]. split; [reflexivity|]. cbn; auto.
Qed.
Theorem C21_receiver_refuted : exists sts sts', w_sts = Some sts /\ wm_ready true 20 w_ps w_calls sts /\ owners_correct w_ps /\ NoDup (flat_map in_verts w_ps) /\
  run_weight 20 sts = Some sts' /\ (forall Q, weight_migrate 20 sts Q -> Q sts') /\
  mapM part_weights (map wp_g sts) = Some [[10]; [5; 5]]%Z /\ mapM part_weights (map fst sts') = Some [[6]; [5; 9]]%Z.
Proof.
  destruct w_sts as [sts|] eqn:E; [|vm_compute in E; discriminate]. pose proof (w_ready_ok sts E) as HR.
  destruct (run_weight 20 sts) as [sts'|] eqn:Er; [|vm_compute in E; inversion E; subst sts; vm_compute in Er; discriminate].
  exists sts, sts'. split; [reflexivity|]. split; [exact HR|]. split; [exact w_owners|]. split; [repeat constructor; cbn; intuition lia|]. split; [exact Er|].
  split.
  { intros Q (works & Ew & HQ). unfold run_weight in Er. rewrite Ew in Er. cbn [obind] in Er. eapply run_phase_sound; eauto. }
  vm_compute in E. inversion E; subst sts. vm_compute in Er. inversion Er; subst sts'. split; vm_compute; reflexivity.
Qed.
Print Assumptions C21_receiver_refuted.
(** the hypotheses of the theorems above are met by this example: its flow records and moved amounts *)
Example C21_example : moved w_ps w_calls (fun a b => Z.eqb a 1 && Z.eqb b 2) = 4%Z /\ moved w_ps w_calls (fun _ b => is_in [2; 3]%Z b) = 4%Z /\
  (sts <- w_sts ;; r <- run_weight 20 sts ;; Some (map (fun s => (fl_get (snd s) 1 2, fl_get (snd s) 2 1)) r)) = Some [(4, 0); (0, -4)]%Z.
Proof. vm_compute. auto. Qed.

(* ------------------------------------------------------------------ *)
(** ** C56: the weight plan accumulates what is inserted *)
Lemma nfind_wd d u w k : nfind (wd_add d u w) k = if k =? u then Some (match nfind d u with Some x => x + w | None => w end)%Z else nfind d k.
Proof.
  induction d as [|(a, x) d IH]; cbn.
  - destruct (Nat.eqb_spec u k) as [->|N]; [now rewrite Nat.eqb_refl|]. now rewrite (proj2 (Nat.eqb_neq k u)) by auto.
  - destruct (Nat.eqb_spec a u) as [->|N]; cbn.
    + destruct (Nat.eqb_spec u k) as [->|N2]; [now rewrite Nat.eqb_refl|]. now rewrite (proj2 (Nat.eqb_neq k u)) by auto.
    + rewrite IH. destruct (Nat.eqb_spec a k) as [->|N2]; auto. now rewrite (proj2 (Nat.eqb_neq k u)) by auto.
Qed.
Lemma nfind_wp m v u w k : nfind (wp_add m v u w) k = if k =? v then Some (match nfind m v with Some d => wd_add d u w | None => [(u, w)] end) else nfind m k.
Proof.
  induction m as [|(a, d) m IH]; cbn.
  - destruct (Nat.eqb_spec v k) as [->|N]; [now rewrite Nat.eqb_refl|]. now rewrite (proj2 (Nat.eqb_neq k v)) by auto.
  - destruct (Nat.eqb_spec a v) as [->|N]; cbn.
    + destruct (Nat.eqb_spec v k) as [->|N2]; [now rewrite Nat.eqb_refl|]. now rewrite (proj2 (Nat.eqb_neq k v)) by auto.
    + rewrite IH. destruct (Nat.eqb_spec a k) as [->|N2]; auto. now rewrite (proj2 (Nat.eqb_neq k v)) by auto.
Qed.
Theorem C56_plan : forall (cs : list (nat * nat * Z)) v u,
  let p := wm_made cs in
  (wm_has1 p v = true <-> exists u' w, In (v, u', w) cs) /\ (wm_has2 p v u = true <-> exists w, In (v, u, w) cs) /\
  (wm_has2 p v u = true -> wm_get p v u = Some (sumf (fun c => if Nat.eqb (fst (fst c)) v && Nat.eqb (snd (fst c)) u then snd c else 0%Z) cs)) /\
  wm_size p = sumf snd cs.
Proof.
  intros cs v u. cbv zeta.
  assert (I : forall cs, (match nfind (wm_sending (wm_made cs)) v with Some d => (exists u' w, In (v, u', w) cs) /\
      (match nfind d u with Some x => (exists w, In (v, u, w) cs) /\ x = sumf (fun c => if Nat.eqb (fst (fst c)) v && Nat.eqb (snd (fst c)) u then snd c else 0%Z) cs | None => ~ exists w, In (v, u, w) cs end)
    | None => ~ exists u' w, In (v, u', w) cs end) /\ wm_size (wm_made cs) = sumf snd cs).
  { clear. intros cs. induction cs as [|((v0, u0), w0) cs IH] using rev_ind.
    - cbn. split; [intros (? & ? & [])|reflexivity].
    - assert (E : forall x, x = cs ++ [(v0, u0, w0)] -> wm_made x = wm_insert (wm_made cs) v0 u0 w0) by (intros x ->; unfold wm_made; rewrite fold_left_app; reflexivity).
      repeat match goal with |- context [wm_made ?x] => lazymatch x with cs => fail | _ => rewrite (E x eq_refl) end end.
      destruct IH as (IH & IS). split.
      + cbn [wm_insert wm_sending]. rewrite nfind_wp. destruct (Nat.eqb_spec v v0) as [<-|N].
        * split; [exists u0, w0; apply in_app_iff; cbn; auto|].
          assert (F : forall d, nfind (match nfind (wm_sending (wm_made cs)) v with Some d => wd_add d u0 w0 | None => [(u0, w0)] end) u = d ->
            match d with Some x => (exists w, In (v, u, w) (cs ++ [(v, u0, w0)])) /\ x = sumf (fun c => if Nat.eqb (fst (fst c)) v && Nat.eqb (snd (fst c)) u then snd c else 0%Z) (cs ++ [(v, u0, w0)]) | None => ~ exists w, In (v, u, w) (cs ++ [(v, u0, w0)]) end).
          { intros d <-. destruct (Nat.eq_dec u u0) as [<-|N].
            - assert (X : sumf (fun c : nat * nat * Z => if Nat.eqb (fst (fst c)) v && Nat.eqb (snd (fst c)) u then snd c else 0%Z) (cs ++ [(v, u, w0)]) = (sumf (fun c => if Nat.eqb (fst (fst c)) v && Nat.eqb (snd (fst c)) u then snd c else 0%Z) cs + w0)%Z).
              { rewrite sumf_snoc. cbn [fst snd]. rewrite !Nat.eqb_refl. reflexivity. }
              assert (Z0 : (~ exists w, In (v, u, w) cs) -> sumf (fun c => if Nat.eqb (fst (fst c)) v && Nat.eqb (snd (fst c)) u then snd c else 0%Z) cs = 0%Z).
              { intros Nx. apply sumf_zero. intros ((a, b), c) Hin. cbn. destruct (Nat.eqb_spec a v), (Nat.eqb_spec b u); cbn; auto. subst. exfalso. apply Nx. eauto. }
              destruct (nfind (wm_sending (wm_made cs)) v) as [d|].
              + rewrite nfind_wd, Nat.eqb_refl. split; [exists w0; apply in_app_iff; cbn; auto|]. rewrite X. destruct IH as (_ & IH). destruct (nfind d u) as [x|]; [destruct IH; lia|rewrite Z0 by auto; lia].
              + cbn. rewrite Nat.eqb_refl. split; [exists w0; apply in_app_iff; cbn; auto|]. rewrite X, Z0; [lia|]. intros (w & Hw). apply IH. eauto.
            - assert (X : sumf (fun c : nat * nat * Z => if Nat.eqb (fst (fst c)) v && Nat.eqb (snd (fst c)) u then snd c else 0%Z) (cs ++ [(v, u0, w0)]) = sumf (fun c => if Nat.eqb (fst (fst c)) v && Nat.eqb (snd (fst c)) u then snd c else 0%Z) cs).
              { rewrite sumf_snoc. cbn [fst snd]. rewrite Nat.eqb_refl. rewrite (proj2 (Nat.eqb_neq u0 u)) by auto. cbn [andb]. lia. }
              assert (Y : (exists w, In (v, u, w) (cs ++ [(v, u0, w0)])) <-> exists w, In (v, u, w) cs).
              { split; intros (w & Hw); exists w; [apply in_app_iff in Hw as [Hw|[Hw|[]]]; [auto|inversion Hw; congruence]|apply in_app_iff; auto]. }
              destruct (nfind (wm_sending (wm_made cs)) v) as [d|].
              + rewrite nfind_wd. rewrite (proj2 (Nat.eqb_neq u u0)) by auto. rewrite X. destruct IH as (_ & IH). destruct (nfind d u); [|now rewrite Y]. rewrite Y. exact IH.
              + cbn. rewrite (proj2 (Nat.eqb_neq u0 u)) by auto. rewrite Y. intros (w & Hw). apply IH. eauto. }
          apply F. reflexivity.
        * assert (Y : (exists w, In (v, u, w) (cs ++ [(v0, u0, w0)])) <-> exists w, In (v, u, w) cs).
          { split; intros (w & Hw); exists w; [apply in_app_iff in Hw as [Hw|[Hw|[]]]; [auto|inversion Hw; congruence]|apply in_app_iff; auto]. }
          assert (Y2 : (exists u' w, In (v, u', w) (cs ++ [(v0, u0, w0)])) <-> exists u' w, In (v, u', w) cs).
          { split; intros (u' & w & Hw); exists u', w; [apply in_app_iff in Hw as [Hw|[Hw|[]]]; [auto|inversion Hw; congruence]|apply in_app_iff; auto]. }
          assert (X : sumf (fun c : nat * nat * Z => if Nat.eqb (fst (fst c)) v && Nat.eqb (snd (fst c)) u then snd c else 0%Z) (cs ++ [(v0, u0, w0)]) = sumf (fun c => if Nat.eqb (fst (fst c)) v && Nat.eqb (snd (fst c)) u then snd c else 0%Z) cs).
          { rewrite sumf_snoc. cbn [fst snd]. rewrite (proj2 (Nat.eqb_neq v0 v)) by auto. cbn [andb]. lia. }
          destruct (nfind (wm_sending (wm_made cs)) v) as [d|]; [|now rewrite Y2]. destruct IH as (I1 & I2). split; [now rewrite Y2|]. rewrite X. destruct (nfind d u); [|now rewrite Y]. now rewrite Y.
      + cbn [wm_insert wm_size wm_s]. rewrite sumf_snoc. unfold wm_size in IS |- *. cbn [wm_s snd]. lia. }
  destruct (I cs) as (J & S). unfold wm_has1, wm_has2, wm_get. destruct (nfind (wm_sending (wm_made cs)) v) as [d|]; cbn [obind].
  - destruct J as (J1 & J2). split; [tauto|]. destruct (nfind d u) as [x|]; [destruct J2 as (J2 & ->); tauto|]. split; [split; [discriminate|tauto]|]. split; [discriminate|auto].
  - split; [split; [discriminate|tauto]|]. split; [split; [discriminate|]|split; [discriminate|auto]]. intros (w & Hw). exfalso. apply J. eauto.
Qed.
Print Assumptions C56_plan.
Example C56_example : let p := wm_made [(1, 5, 2%Z); (2, 5, 7%Z); (1, 5, 3%Z)] in wm_get p 1 5 = Some 5%Z /\ wm_has2 p 2 6 = false /\ wm_size p = 12%Z.
Proof. vm_compute. auto. Qed.
(** every (source, target) pair is visited exactly once by the iterator, with the accumulated amount *)
Theorem C56_iterator : forall cs fuel, length cs < fuel -> exists l, wi_run fuel (wi_begin (wm_sending (wm_made cs))) = Some l /\
  (forall v u w, In (v, u, w) l -> exists w', In (v, u, w') cs) /\
  forall P : nat -> nat -> bool, sumf (fun x => if P (fst (fst x)) (snd (fst x)) then snd x else 0%Z) l = sumf (fun c => if P (fst (fst c)) (snd (fst c)) then snd c else 0%Z) cs.
Proof.
  intros cs fuel L. exists (items (wm_sending (wm_made cs))). split; [apply wi_run_items; [apply wp_nonempty|pose proof (made_len cs); lia]|]. split; [apply made_keys|]. intros P. apply (made_sum cs P).
Qed.
Print Assumptions C56_iterator.
(** clear() empties the plan but not the reported size *)
Theorem C56_clear_refuted : let p := wm_clear (wm_insert wm_new 1 5 2%Z) in wm_has1 p 1 = false /\ wm_size p = 2%Z.
Proof. vm_compute. auto. Qed.
Print Assumptions C56_clear_refuted.
