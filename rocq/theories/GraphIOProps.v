(** Property C24: a graph saved with saveToFile and loaded with loadFromFile is restored. *)
From Verif Require Import Base GraphModel GraphSpec CsrProofs ConstructProofs AccessProofs AccessProofs2 GraphTop GraphTop2 PcuMsgModel PcuIOModel PcuIOProps MetricsModel SidesProofs GraphIOModel GraphIOProofs.
Local Open Scope nat_scope.

(** ** Specification *)
(** the number is one of the values of an unsigned int *)
Definition fits (z : Z) : Prop := (0 <= z < 2 ^ 32)%Z.
(** [bits w] is a 64-bit pattern from which w is recovered *)
Definition representable (bits unbits : Z -> Z) (w : Z) : Prop := (0 <= bits w < 2 ^ 64)%Z /\ unbits (bits w) = w.
Definition pin_of (tys : list type_input) (v : Z) : Prop := exists es ws e, In (es, ws) tys /\ In e es /\ In v (snd e).
(** What the 32-bit fields of the file can hold: vertex ids, numbers of vertices, edges, pins of an edge and ghosts; edge ids
    of a hypergraph; the owner of every ghost is another part with a nonnegative 32-bit number. *)
Definition file_holds (me : Z) (hg : bool) (verts : list Z) (tys : list type_input) (owns : zmap Z) : Prop :=
  (forall v, In v verts \/ pin_of tys v -> fits v) /\ fits (Z.of_nat (length verts)) /\
  (forall es ws, In (es, ws) tys -> fits (Z.of_nat (length es)) /\
     forall e, In e es -> (hg = true -> fits (fst e)) /\ fits (Z.of_nat (length (snd e)))) /\
  fits (Z.of_nat (length (ghosts_of verts tys))) /\
  (forall v, pin_of tys v -> ~ In v verts -> part_of me verts owns v <> me /\ (0 <= part_of me verts owns v < 2 ^ 31)%Z).
(** weights and coordinates are doubles *)
Definition values_ok (bits unbits : Z -> Z) (verts vws : list Z) (tys : list type_input) (cs : option (list coord3)) : Prop :=
  representable bits unbits 1%Z /\ (forall w, In w vws -> representable bits unbits w) /\
  (forall es ws w, In (es, ws) tys -> In w ws -> representable bits unbits w) /\
  match cs with
  | None => True
  | Some c => length c = length verts /\ forall x y z, In (x, y, z) c ->
      representable bits unbits x /\ representable bits unbits y /\ representable bits unbits z
  end.

(** ** Hypergraphs *)
Definition recs_of (ty : type_input) : list erec :=
  map (fun p => (fst (fst p), snd p, snd (fst p))) (combine (fst ty) (snd ty)).
Lemma recs_ty ty : length (snd ty) = length (fst ty) -> to_ty (recs_of ty) = ty.
Proof.
  destruct ty as [es ws]. unfold to_ty, recs_of. cbn [fst snd]. intros H. rewrite !map_map. cbn [fst snd]. f_equal.
  - revert ws H. induction es as [|[a b] es IH]; intros [|w ws] H; try discriminate; auto. cbn [combine map fst snd]. f_equal. apply IH. auto.
  - revert ws H. induction es as [|[a b] es IH]; intros [|w ws] H; try discriminate; auto. cbn [combine map fst snd]. f_equal. apply IH. auto.
Qed.
Lemma recs_len ty : length (snd ty) = length (fst ty) -> length (recs_of ty) = length (fst ty).
Proof. intros H. unfold recs_of. rewrite map_length, combine_length. unfold edge_input in *. lia. Qed.
Lemma recs_nth ty i e w : nth_error (fst ty) i = Some e -> nth_error (snd ty) i = Some w -> nth_error (recs_of ty) i = Some (fst e, w, snd e).
Proof.
  destruct ty as [es ws]. cbn [fst snd]. intros H1 H2. unfold recs_of. cbn [fst snd].
  rewrite nth_error_map. revert ws i H1 H2. induction es as [|a es IH]; intros [|b ws] [|i] H1 H2; try discriminate; cbn in *; [congruence|auto].
Qed.
Lemma recs_in ty r : In r (recs_of ty) -> exists e w, In e (fst ty) /\ In w (snd ty) /\ r = (fst e, w, snd e).
Proof.
  unfold recs_of. intros H. apply in_map_iff in H as ((e & w) & <- & H). exists e, w. cbn [fst snd]. split; [eapply in_combine_l; eauto|]. split; [eapply in_combine_r; eauto|reflexivity].
Qed.
Lemma eff_len ty : (snd ty = [] \/ length (snd ty) = length (fst ty)) -> length (snd (eff_ty ty)) = length (fst (eff_ty ty)).
Proof.
  destruct ty as [es ws]. unfold eff_ty, eff_wgts. cbn [fst snd]. intros [->|H]; [apply repeat_length|]. destruct ws; [cbn [length] in H; rewrite <- H; reflexivity|exact H].
Qed.
Lemma recs_pins ty : length (snd ty) = length (fst ty) -> flat_map snd (recs_of ty) = concat (pins_of (fst ty)).
Proof.
  intros H. rewrite flat_map_concat_map. f_equal. pose proof (recs_ty ty H) as X. apply (f_equal fst) in X. unfold pins_of. rewrite <- X.
  unfold to_ty. cbn [fst]. now rewrite map_map.
Qed.
Lemma Forall2_nths A B (R : A -> B -> Prop) (l : list A) (m : list B) : length l = length m ->
  (forall i a b, nth_error l i = Some a -> nth_error m i = Some b -> R a b) -> Forall2 R l m.
Proof.
  revert m. induction l as [|a l IH]; intros [|b m] L H; try discriminate; constructor.
  - apply (H 0); auto. - apply IH; auto. intros i x y H1 H2. apply (H (S i)); auto.
Qed.

Section H.
Variables (me : Z) (hg : bool) (verts vws : list Z) (tys : list type_input) (owns : zmap Z) (g : graph).
Hypothesis HV : valid_input hg verts vws tys.
Hypothesis HB : build_part me hg verts vws tys owns = Some g.
Notation all := (verts ++ ghosts_of verts tys).
Notation HR := (proj1 (part_rep _ _ _ _ _ _ _ HV HB)).
Notation HO := (proj1 (proj2 (part_rep _ _ _ _ _ _ _ HV HB))).
Notation po := (part_of me verts owns).
Notation wts := (vws ++ repeat 1%Z (length verts - length vws)).

Lemma wts_len : length wts = length verts.
Proof. destruct HV as (_ & L & _). rewrite app_length, repeat_length. lia. Qed.
Lemma verts_seen : Forall2 (fun x p => vgid g x = Some (fst p) /\ vweight g x = Some (snd p)) (map S (seq 0 (nlv g))) (combine verts wts).
Proof.
  pose proof wts_len as LW. rewrite (rp_nlv _ _ _ _ _ HR). apply Forall2_nths.
  - rewrite map_length, seq_length, combine_length. lia.
  - intros i x [v w] Hi Hp.
    assert (Hv : nth_error verts i = Some v /\ nth_error wts i = Some w).
    { clear Hi. revert Hp. generalize wts as w2. clear. revert i. induction verts as [|a l IH]; intros [|i] [|b w2] Hp; try discriminate; cbn in *; [inversion Hp; auto|auto]. }
    destruct Hv as (Hv & Hw). assert (L : i < length verts) by (apply nth_error_Some; congruence).
    rewrite nth_error_map, nth_error_seq in Hi by auto. cbn in Hi. inversion Hi; subst x. cbn [fst snd]. split.
    + rewrite (vgid_ok _ _ _ _ _ HR) by (rewrite app_length; lia). now rewrite nth_error_app1.
    + eapply vweight_ok; [exact HR|exact Hw].
Qed.
Lemma pins_owner ps : incl ps all -> Forall2 (fun x v => vgid g x = Some v /\ owner g x = Some (po v)) (map (fun v => S (idx all v)) ps) ps.
Proof.
  intros Hi. induction ps as [|v ps IH]; cbn [map]; constructor.
  - assert (Iv : In v all) by (apply Hi; left; auto). split; [apply (vgid_idx _ _ _ _ _ HR); auto|].
    rewrite (owner_ok _ _ _ _ _ _ HR HO) by auto. f_equal. apply (owner_spec_part _ _ _ _ _ _ _ HV HB).
  - apply IH. intros x Hx. apply Hi. right; auto.
Qed.
Lemma eff_nth t es ws i e : nth_error tys t = Some (es, ws) -> nth_error es i = Some e -> exists w, nth_error (eff_wgts ws (length es)) i = Some w.
Proof.
  intros Ht Hi. assert (Hw : ws = [] \/ length ws = length es) by (destruct HV as (_ & _ & _ & H); apply (H es ws); eapply nth_error_In; eauto).
  assert (L : i < length es) by (apply nth_error_Some; congruence).
  destruct (nth_error (eff_wgts ws (length es)) i) as [w|] eqn:E; eauto. apply nth_error_None in E.
  pose proof (eff_len (es, ws)) as X. cbn [snd fst eff_ty] in X. specialize (X Hw). unfold edge_input in *. lia.
Qed.
Lemma num_seen t es ws : nth_error tys t = Some (es, ws) -> num_edges g t = Some (length es).
Proof.
  intros Ht. pose proof (c_numedges _ _ _ _ _ _ (p_constructed _ _ _ _ _ _ _ HV HB) t es ws Ht) as (X & _).
  unfold num_edges. destruct (gtype g t); [|discriminate]. cbn in X. congruence.
Qed.
Lemma type_seen_hyper t ty fuel : hg = true -> nth_error tys t = Some ty -> length (fst ty) < fuel ->
  type_seen g po fuel t (recs_of (eff_ty ty)).
Proof.
  destruct ty as [es ws]. cbn [fst]. intros Hg Ht Hf.
  assert (Hw : ws = [] \/ length ws = length es) by (destruct HV as (_ & _ & _ & H); apply (H es ws); eapply nth_error_In; eauto).
  pose proof (eff_len (es, ws) Hw) as EL. pose proof (recs_len _ EL) as RL. cbn [fst eff_ty] in RL.
  split; [rewrite RL; eapply num_seen; eauto|].
  eexists. split; [apply (w_iter_edges _ _ _ _ _ _ (p_constructed _ _ _ _ _ _ _ HV HB) t es ws fuel Ht Hf)|].
  assert (Hh : hyper g = true) by (rewrite (p_hyper _ _ _ _ _ _ _ HV HB); auto).
  apply Forall2_nths; [rewrite map_length, seq_length; unfold edge_input in *; lia|]. intros i x r Hi Hr.
  assert (L : i < length es). { rewrite <- (seq_length (length es) 0), <- (map_length (fun i => getEdge (ntypes g) i t)). apply nth_error_Some. congruence. }
  rewrite nth_error_map, nth_error_seq in Hi by auto. cbn in Hi. inversion Hi; subst x. clear Hi.
  destruct (nth_error es i) as [[gid ps]|] eqn:Ei; [|apply nth_error_None in Ei; unfold edge_input in *; lia].
  destruct (eff_nth t es ws i _ Ht Ei) as (w & Ew). rewrite (recs_nth (eff_ty (es, ws)) i (gid, ps) w Ei Ew) in Hr. inversion Hr; subst r. clear Hr.
  pose proof (nth_eff _ _ _ _ Ht) as HT. unfold seen_as. cbn [fst snd]. split; [|split; [|split]].
  - eapply egid_hyper; [exact HR|exact Hh|exact HT|exact Ei].
  - eapply eweight_ok; [exact HR|exact HT|exact Ew].
  - eapply (edegree_hyper _ _ _ _ _ HR); eauto.
  - eexists _, (map (fun v => S (idx all v)) ps). split; [apply (pins_begin_hyper _ _ _ _ _ HR t es _ i gid ps Hh HT Ei)|]. split.
    + pose proof (pins_yields _ _ _ _ _ HR t es _ i gid ps HT Ei 0 ltac:(lia)) as Y. rewrite Nat.add_0_r in Y. cbn [skipn] in Y.
      apply yields_iter_n in Y. rewrite map_length in Y. exact Y.
    + apply pins_owner. intros v Iv. eapply (pins_in_all _ _ _ _ _ HR); eauto.
Qed.

(** the table of owners, written and read back *)
Section Own.
Hypothesis HF : file_holds me hg verts tys owns.
Variable pins : list Z.
Hypothesis HP : forall v, In v pins <-> pin_of tys v.
Variable ord : zmap Z -> zmap Z.
Hypothesis HOrd : forall m, Permutation (ord m) m.
Let own := fold_left (note po me) pins [].

Lemma pins_in32 : Forall in32 pins.
Proof. apply Forall_forall. intros v Hv. apply HF. right. now apply HP. Qed.
Lemma own_nodup : NoDup (map fst own).
Proof. apply note_nodup. constructor. Qed.
Lemma own_entry v o : In (v, o) own -> o = po v /\ In v pins /\ po v <> me /\ ~ In v verts.
Proof.
  intros H. apply zfind_in in H; [|apply own_nodup]. unfold own in H. rewrite note_find in H by apply pins_in32.
  destruct (memZ v pins) eqn:Em; [|discriminate]. cbn [andb] in H. destruct (Z.eqb_spec (po v) me) as [X|X]; [discriminate|]. cbn in H.
  inversion H. subst o. repeat split; auto; [now apply memZ_In|]. intros Iv. apply X. unfold part_of. destruct (in_dec Z.eq_dec v verts); [reflexivity|contradiction].
Qed.
Lemma pin_ghost v : pin_of tys v -> ~ In v verts -> In v (ghosts_of verts tys).
Proof.
  intros (es & ws & e & H1 & H2 & H3) Hn. assert (X : In v all).
  { apply (c_gids_iff _ _ _ _ _ _ (p_constructed _ _ _ _ _ _ _ HV HB)). right. exists (es, ws), e. auto. }
  apply in_app_iff in X. tauto.
Qed.
Lemma ghost_pin v : In v (ghosts_of verts tys) -> pin_of tys v /\ ~ In v verts.
Proof.
  intros H. assert (Hn : ~ In v verts) by (apply (c_ghost_not_local _ _ _ _ _ _ (p_constructed _ _ _ _ _ _ _ HV HB)); auto).
  split; auto. assert (X : In v all) by (apply in_app_iff; auto).
  apply (c_gids_iff _ _ _ _ _ _ (p_constructed _ _ _ _ _ _ _ HV HB)) in X as [X|((es & ws) & e & A & B & C)]; [contradiction|]. exists es, ws, e. auto.
Qed.
Lemma own_in p : In p own -> in32 (fst p) /\ in32 (snd p) /\ (0 <= snd p < 2 ^ 31)%Z.
Proof.
  destruct p as [v o]. intros H. destruct (own_entry v o H) as (-> & Hp & Hm & Hn). cbn [fst snd]. apply HP in Hp.
  destruct HF as (F1 & _ & _ & _ & F5). destruct (F5 v Hp Hn) as (_ & R). split; [apply F1; auto|]. split; [split; lia|auto].
Qed.
Lemma own_small : in32 (Z.of_nat (length own)).
Proof.
  assert (L : length own <= length (ghosts_of verts tys)).
  { rewrite <- (map_length fst). apply NoDup_incl_length; [apply own_nodup|]. intros v Hv. apply in_map_iff in Hv as ((v' & o) & <- & Hv).
    destruct (own_entry v' o Hv) as (_ & Hp & _ & Hn). apply pin_ghost; auto. now apply HP. }
  destruct HF as (_ & _ & _ & F & _). destruct F. split; lia.
Qed.
Lemma own_back v : In v (ghosts_of verts tys) -> look (fold_left (fun m p => zput m (fst p) (s32 (snd p))) (ord own) []) v = look owns v.
Proof.
  intros Hg. destruct (ghost_pin v Hg) as (Hp & Hn). unfold look. rewrite put_all_find.
  - rewrite (zfind_perm _ (ord own) own) by (auto using own_nodup). unfold own. rewrite note_find by apply pins_in32.
    assert (Em : memZ v pins = true) by (apply memZ_In; now apply HP). rewrite Em. destruct HF as (_ & _ & _ & _ & F). destruct (F v Hp Hn) as (Hm & _).
    destruct (Z.eqb_spec (po v) me); [contradiction|]. cbn. unfold part_of. destruct (in_dec Z.eq_dec v verts); [contradiction|reflexivity].
  - eapply Permutation_NoDup; [symmetry; apply Permutation_map, HOrd|apply own_nodup].
  - intros p Ip. apply own_in. eapply Permutation_in; eauto.
Qed.
End Own.

End H.

Lemma fst_combine A B (l : list A) (m : list B) : length m = length l -> map fst (combine l m) = l.
Proof. revert m. induction l as [|a l IH]; intros [|b m] H; try discriminate; auto. cbn. f_equal. apply IH. auto. Qed.
Lemma snd_combine A B (l : list A) (m : list B) : length m = length l -> map snd (combine l m) = m.
Proof. revert m. induction l as [|a l IH]; intros [|b m] H; try discriminate; auto. cbn. f_equal. apply IH. auto. Qed.

(** A hypergraph written on a host of either byte order and read on a host of either byte order, by the part of the same
    rank, is restored exactly: every array of the structure, and the coordinates. *)
Theorem C24_hypergraph : forall h h' bits unbits ord fuel me verts vws tys owns g cs,
  valid_input true verts vws tys -> build_part me true verts vws tys owns = Some g ->
  file_holds me true verts tys owns -> values_ok bits unbits verts vws tys cs ->
  (forall m, Permutation (ord m) m) ->
  length verts < fuel -> (forall es ws, In (es, ws) tys -> length es < fuel) ->
  exists file, saveToFile h bits ord fuel g cs = Some file /\ loadFromFile h' unbits me file = Some (g, cs).
Proof.
  intros h h' bits unbits ord fuel me verts vws tys owns g cs HV HB HF HW HO Hf1 Hf2.
  set (wts := vws ++ repeat 1%Z (length verts - length vws)).
  set (tl := map (fun ty => recs_of (eff_ty ty)) tys).
  pose proof (wts_len _ _ _ _ HV) as LW. fold wts in LW.
  pose proof (part_rep _ _ _ _ _ _ _ HV HB) as (HR & _ & Hh & Hs).
  assert (TE : forall ty, In ty tys -> length (snd (eff_ty ty)) = length (fst (eff_ty ty))).
  { intros [es ws] Hin. apply eff_len. destruct HV as (_ & _ & _ & H). apply (H es ws Hin). }
  assert (PS : forall v, In v (flat_map (fun rs : list erec => flat_map snd rs) tl) <-> pin_of tys v).
  { intros v. unfold tl. rewrite in_flat_map. split.
    - intros (rs & H1 & H2). apply in_map_iff in H1 as ([es ws] & <- & H1). rewrite recs_pins in H2 by auto. cbn [eff_ty fst] in H2.
      apply in_concat in H2 as (ps & H2 & H3). unfold pins_of in H2. apply in_map_iff in H2 as (e & <- & H2). exists es, ws, e. auto.
    - intros (es & ws & e & H1 & H2 & H3). exists (recs_of (eff_ty (es, ws))). split; [apply in_map_iff; exists (es, ws); auto|].
      rewrite recs_pins by auto. cbn [eff_ty fst]. apply in_concat. exists (snd e). split; auto. unfold pins_of. now apply in_map. }
  assert (OKT : Forall (ok_type bits unbits) tl).
  { unfold tl. apply Forall_forall. intros rs Hr. apply in_map_iff in Hr as ([es ws] & <- & Hin). split.
    - rewrite recs_len by auto. cbn [eff_ty fst]. destruct HF as (_ & _ & F & _). apply (F es ws Hin).
    - apply Forall_forall. intros r Hr. apply recs_in in Hr as (e & w & He & Hw & ->). cbn [eff_ty fst snd] in He, Hw.
      destruct HF as (F1 & _ & F & _). destruct (F es ws Hin) as (_ & F'). destruct (F' e He) as (Fa & Fb).
      split; [apply Fa; auto|]. split; [|split; [exact Fb|]].
      + cbn [fst snd]. destruct HW as (W1 & _ & W3 & _). unfold eff_wgts in Hw. destruct ws as [|w0 ws]; [apply repeat_spec in Hw; subst w; exact W1|]. eapply W3; eauto.
      + cbn [snd]. apply Forall_forall. intros v Iv. apply F1. right. exists es, ws, e. auto. }
  assert (OKV : Forall (ok_vrec bits unbits) (combine verts wts)).
  { apply Forall_forall. intros [v w] Hin. split; cbn [fst snd].
    - apply in_combine_l in Hin. apply HF. auto.
    - apply in_combine_r in Hin. unfold wts in Hin. destruct HW as (W1 & W2 & _). apply in_app_iff in Hin as [Hin|Hin]; [exact (W2 w Hin)|]. apply repeat_spec in Hin. subst w. exact W1. }
  assert (LV : length (combine verts wts) = length verts) by (rewrite combine_length; lia).
  assert (FV : in32 (Z.of_nat (length (combine verts wts)))) by (rewrite LV; apply HF).
  assert (L7 : length tl <= 7) by (unfold tl; rewrite map_length; apply HV).
  assert (OS : forall p, In p (fold_left (note (part_of me verts owns) me) (flat_map (fun rs : list erec => flat_map snd rs) tl) []) -> in32 (fst p) /\ in32 (snd p)).
  { intros p Ip. destruct (own_in me true verts tys owns HF _ PS p Ip) as (A & B & _). auto. }
  eexists. split.
  - rewrite <- Hs. apply (save_eq h bits unbits ord g (part_of (self g) verts owns) fuel cs (combine verts wts) tl); auto.
    + rewrite LV. apply HR.
    + rewrite (rp_nlv _ _ _ _ _ HR). apply (all_verts_ok _ _ _ _ _ HR). exact Hf1.
    + eapply verts_seen; eauto.
    + rewrite LV. destruct cs as [c|]; auto. destruct HW as (_ & _ & _ & (W & _)). exact W.
    + rewrite (c_ntypes _ _ _ _ _ _ (p_constructed _ _ _ _ _ _ _ HV HB)). unfold tl. now rewrite map_length.
    + intros t rs Ht. unfold tl in Ht. rewrite nth_error_map in Ht. destruct (nth_error tys t) as [ty|] eqn:Et; [|discriminate]. inversion Ht; subst rs.
      rewrite Hs. eapply type_seen_hyper; eauto. destruct ty as [es ws]. apply (Hf2 es ws). eapply nth_error_In; eauto.
    + rewrite Hs. eapply own_small; eauto.
    + rewrite Hs. exact OS.
  - rewrite Hh, Hs. rewrite load_eq with (bits := bits); auto.
    2:{ rewrite LV. clear - HW. destruct cs as [c|]; [|exact I]. destruct HW as (_ & _ & _ & (W & W')). split; [exact W|]. apply Forall_forall. intros [[x y] z] Hc.
        destruct (W' x y z Hc) as (X1 & X2 & X3). exact (conj X1 (conj X2 X3)). }
    2:{ rewrite (Permutation_length (HO _)). eapply own_small; eauto. }
    2:{ intros p Ip. apply OS. eapply Permutation_in; eauto. }
    rewrite fst_combine, snd_combine by auto.
    assert (ET : map to_ty tl = map eff_ty tys).
    { unfold tl. rewrite map_map. apply map_ext_in. intros ty Hin. apply recs_ty. auto. }
    rewrite ET. unfold build_part, wts. rewrite (build_eff _ _ _ _ _ HV).
    unfold build_part in HB. destruct (build_graph_ok me true verts vws tys HV) as (g0 & E0 & HR0 & _). rewrite E0 in HB |- *. cbn [obind] in HB |- *.
    rewrite (ghosts_ext g0 verts _ _ _ _ owns HR0).
    + rewrite HB. reflexivity.
    + intros v Hv. eapply own_back; eauto. unfold build_part. rewrite E0. exact HB.
Qed.

(** ** Traditional graphs *)
(** the edges in the order in which they are stored: by source, and for one source in the order given *)
Definition csr_order (verts : list Z) (es : list edge_input) : list (Z * Z) :=
  flat_map (fun v => map (pair v) (out_dests v es)) verts.
Definition numbered (verts : list Z) (es : list edge_input) : list edge_input :=
  map (fun p => (Z.of_nat (fst p), [fst (snd p); snd (snd p)])) (combine (seq 0 (length es)) (csr_order verts es)).
Definition stored (verts : list Z) (ty : type_input) : type_input := (numbered verts (fst ty), eff_wgts (snd ty) (length (fst ty))).

Lemma mapM_seq_nth A (f : nat -> option A) (l : list A) : forall a, (forall j x, nth_error l j = Some x -> f (a + j) = Some x) -> mapM f (seq a (length l)) = Some l.
Proof.
  induction l as [|x l IH]; intros a H; [reflexivity|]. cbn [length seq mapM]. pose proof (H 0 x eq_refl) as H0. rewrite Nat.add_0_r in H0. rewrite H0. cbn [obind].
  rewrite IH; [reflexivity|]. intros j y Hj. replace (S a + j) with (a + S j) by lia. apply H. exact Hj.
Qed.

Section T.
Variables (me : Z) (verts vws : list Z) (tys : list type_input) (g : graph).
Hypothesis HC : constructed me false verts vws tys g.
Variables (t : nat) (es : list edge_input) (ws : list Z).
Hypothesis Ht : nth_error tys t = Some (es, ws).
Hypothesis HS : local_sources verts es.
Notation all := (verts ++ ghosts_of verts tys).
Notation HR := (proj1 (constructed_rep _ _ _ _ _ _ HC)).
Notation tot := (occ_of g verts (ghosts_of verts tys) es).

Lemma stored_total : off tot (length verts) = length es.
Proof. rewrite (off_total _ _ _ _ _ HC), (tot_eq _ _ _ _ _ HC t es ws Ht HS). apply map_length. Qed.
Lemma row_ends l v m w : nth_error verts l = Some v -> nth_error (out_dests v es) m = Some w ->
  edge_ends g t (off tot l + m) = Some (v, w) /\ nth_error (vals_of l tot) m = Some (idx all w) /\ In w all.
Proof.
  intros Hl Hm. pose proof (vals_dests _ _ _ _ _ _ HC t es ws l v eq_refl Ht Hl) as VD.
  assert (Hx : nth_error (vals_of l tot) m = Some (idx all w)) by (rewrite VD; now apply map_nth_error).
  assert (Iw : In w all). { eapply (c_incl _ _ _ _ _ _ HC); eauto. eapply out_dests_in. eapply nth_error_In; eauto. }
  assert (L : l < length verts) by (apply nth_error_Some; congruence). split; [|auto].
  rewrite (edge_ends_row _ _ _ _ _ HC t es ws Ht l m _ L Hx). rewrite nth_error_app1, Hl by auto. cbn [obind]. rewrite idx_nth by auto. reflexivity.
Qed.
Lemma ends_stored : mapM (edge_ends g t) (seq 0 (length es)) = Some (csr_order verts es).
Proof.
  rewrite <- stored_total, seq_rows. unfold csr_order.
  assert (G : forall suf pre, verts = pre ++ suf ->
     mapM (edge_ends g t) (flat_map (fun u => seq (off tot u) (cnt_of u tot)) (seq (length pre) (length suf))) = Some (flat_map (fun v => map (pair v) (out_dests v es)) suf)).
  { induction suf as [|v suf IH]; intros pre Ev; [reflexivity|]. cbn [length seq flat_map]. rewrite mapM_app.
    assert (Hl : nth_error verts (length pre) = Some v) by (rewrite Ev, nth_error_app2, Nat.sub_diag by lia; reflexivity).
    pose proof (vals_dests _ _ _ _ _ _ HC t es ws (length pre) v eq_refl Ht Hl) as VD.
    assert (Ec : cnt_of (length pre) tot = length (map (pair v) (out_dests v es))) by (unfold cnt_of; rewrite VD, !map_length; reflexivity).
    rewrite Ec, mapM_seq_nth with (l := map (pair v) (out_dests v es)).
    - cbn [obind]. specialize (IH (pre ++ [v])). rewrite <- app_assoc, app_length, Nat.add_1_r in IH. cbn [app] in IH. rewrite IH by auto. reflexivity.
    - intros j x Hj. rewrite nth_error_map in Hj. destruct (nth_error (out_dests v es) j) as [w|] eqn:Ew; [|discriminate]. inversion Hj; subst x.
      apply (row_ends _ _ _ _ Hl Ew). }
  apply (G verts []). reflexivity.
Qed.
Lemma stored_len : length (csr_order verts es) = length es.
Proof. pose proof (mapM_length _ _ _ _ _ ends_stored) as X. rewrite seq_length in X. auto. Qed.
Lemma stored_perm : Permutation (map (fun p => [fst p; snd p]) (csr_order verts es)) (pins_of es).
Proof. destruct (trad_edges_perm _ _ _ _ _ HC t es ws Ht HS) as (l & E1 & P). rewrite ends_stored in E1. inversion E1; subst l. exact P. Qed.
Lemma row_at i : i < length es -> exists l v m w, nth_error verts l = Some v /\ nth_error (out_dests v es) m = Some w /\ i = off tot l + m /\
  nth_error (csr_order verts es) i = Some (v, w).
Proof.
  intros Li. destruct (row_of verts tys g es i) as (l & m & Ll & Lm & Ei); [rewrite stored_total; auto|].
  destruct (nth_error verts l) as [v|] eqn:Ev; [|apply nth_error_None in Ev; lia].
  pose proof (vals_dests _ _ _ _ _ _ HC t es ws l v eq_refl Ht Ev) as VD.
  unfold cnt_of in Lm. rewrite VD, map_length in Lm. destruct (nth_error (out_dests v es) m) as [w|] eqn:Ew; [|apply nth_error_None in Ew; lia].
  exists l, v, m, w. repeat split; auto.
  pose proof (mapM_nth _ _ _ _ _ i i ends_stored) as X. destruct (row_ends l v m w Ev Ew) as (Y & _). rewrite <- Ei in Y. destruct X as (y & X1 & X2); [rewrite nth_error_seq by auto; reflexivity|]. rewrite X1. congruence.
Qed.
End T.

Lemma numbered_pins verts es : length (csr_order verts es) = length es -> pins_of (numbered verts es) = map (fun p => [fst p; snd p]) (csr_order verts es).
Proof.
  intros L. unfold pins_of, numbered. rewrite map_map. cbn [snd]. rewrite <- (snd_combine _ _ (seq 0 (length es)) (csr_order verts es)) at 2 by (rewrite seq_length; auto).
  now rewrite map_map.
Qed.
Lemma numbered_nth verts es i p : nth_error (csr_order verts es) i = Some p -> i < length es -> nth_error (numbered verts es) i = Some (Z.of_nat i, [fst p; snd p]).
Proof.
  intros H L. unfold numbered. rewrite nth_error_map.
  assert (X : forall (l : list (Z * Z)) a n k, nth_error l k = Some p -> k < n -> nth_error (combine (seq a n) l) k = Some (a + k, p)).
  { induction l as [|y l IH]; intros a n [|k] E Lk; try discriminate; (destruct n; [lia|]); cbn in *; [inversion E; subst; f_equal; f_equal; lia|].
    rewrite (IH (S a) n k E) by lia. f_equal. f_equal. lia. }
  rewrite (X _ 0 _ _ H L). reflexivity.
Qed.
Lemma numbered_len verts es : length (csr_order verts es) = length es -> length (numbered verts es) = length es.
Proof. intros L. unfold numbered. rewrite map_length, combine_length, seq_length. lia. Qed.
Lemma out_dests_pairs v (l : list (Z * Z)) (es : list edge_input) : map snd es = map (fun p => [fst p; snd p]) l ->
  out_dests v es = flat_map (fun p => if Z.eqb (fst p) v then [snd p] else []) l.
Proof.
  revert es. induction l as [|p l IH]; intros [|e es] H; try discriminate; auto. cbn [map] in H. inversion H as [[E1 E2]]. unfold out_dests in *. cbn [flat_map].
  rewrite E1, (IH es E2). reflexivity.
Qed.
Lemma out_dests_numbered verts es v : NoDup verts -> In v verts -> length (csr_order verts es) = length es -> out_dests v (numbered verts es) = out_dests v es.
Proof.
  intros N I L. rewrite (out_dests_pairs v (csr_order verts es)) by (apply numbered_pins; auto). unfold csr_order. clear L.
  assert (K : forall u, flat_map (fun p => if Z.eqb (fst p) v then [snd p] else []) (map (pair u) (out_dests u es)) = if Z.eqb u v then out_dests u es else []).
  { intros u. induction (out_dests u es) as [|w l IH]; cbn [map flat_map fst snd]; [destruct (Z.eqb u v); reflexivity|]. rewrite IH. destruct (Z.eqb u v); reflexivity. }
  assert (Z0 : forall l, ~ In v l -> flat_map (fun p => if Z.eqb (fst p) v then [snd p] else []) (flat_map (fun u => map (pair u) (out_dests u es)) l) = []).
  { induction l as [|u l IH]; intros H; auto. cbn [flat_map]. rewrite flat_map_app, K, IH by (intros X; apply H; right; auto).
    destruct (Z.eqb_spec u v) as [->|]; [exfalso; apply H; left; auto|reflexivity]. }
  induction verts as [|u l IH]; [destruct I|]. inversion N; subst. cbn [flat_map]. rewrite flat_map_app, K. destruct (Z.eqb_spec u v) as [->|Nu].
  - rewrite Z0 by auto. apply app_nil_r.
  - cbn [app]. apply IH; auto. destruct I; [congruence|auto].
Qed.
Lemma csr_numbered verts es : NoDup verts -> length (csr_order verts es) = length es -> csr_order verts (numbered verts es) = csr_order verts es.
Proof.
  intros N L. unfold csr_order at 1. assert (X : forall l, incl l verts -> flat_map (fun v => map (pair v) (out_dests v (numbered verts es))) l = csr_order l es).
  { induction l as [|u l IH]; intros Hi; auto. unfold csr_order in *. cbn [flat_map]. rewrite IH by (intros x Hx; apply Hi; right; auto).
    rewrite out_dests_numbered by (auto; apply Hi; left; auto). reflexivity. }
  apply X. intros x; auto.
Qed.
Lemma numbered_in verts es e : length (csr_order verts es) = length es -> In e (numbered verts es) -> exists i p, e = (Z.of_nat i, [fst p; snd p]) /\ i < length es /\ In p (csr_order verts es).
Proof.
  intros L H. apply In_nth_error in H as (i & H). assert (Li : i < length es) by (rewrite <- (numbered_len verts es L); apply nth_error_Some; congruence).
  destruct (nth_error (csr_order verts es) i) as [p|] eqn:E; [|apply nth_error_None in E; lia]. rewrite (numbered_nth _ _ _ _ E Li) in H. inversion H. exists i, p. repeat split; auto. eapply nth_error_In; eauto.
Qed.

(** an edge of a traditional graph without self loop, as writeEdges sees it *)
Lemma iter_two g u x : u <> x -> iter_n (pit_step g) 2 (PTrad u x) = Some [u; x].
Proof. intros H. cbn [iter_n pit_step]. destruct (Nat.eqb_spec u x); [contradiction|]. reflexivity. Qed.

Section TS.
Variables (me : Z) (verts vws : list Z) (tys : list type_input) (owns : zmap Z) (g : graph).
Hypothesis HV : valid_input false verts vws tys.
Hypothesis HB : build_part me false verts vws tys owns = Some g.
Hypothesis HS : forall es ws, In (es, ws) tys -> local_sources verts es.
Hypothesis HN : forall es ws e u w, In (es, ws) tys -> In e es -> snd e = [u; w] -> u <> w.
Notation all := (verts ++ ghosts_of verts tys).
Notation HC := (p_constructed _ _ _ _ _ _ _ HV HB).
Notation HR := (proj1 (part_rep _ _ _ _ _ _ _ HV HB)).
Notation po := (part_of me verts owns).

Lemma csr_len es ws : In (es, ws) tys -> length (csr_order verts es) = length es.
Proof. intros H. apply In_nth_error in H as H'. destruct H' as (t & Ht). apply (stored_len _ _ _ _ _ HC t es ws Ht). apply (HS es ws H). Qed.
Lemma csr_in es ws p : In (es, ws) tys -> In p (csr_order verts es) -> In [fst p; snd p] (pins_of es).
Proof.
  intros H Hp. apply In_nth_error in H as H'. destruct H' as (t & Ht). eapply Permutation_in; [apply (stored_perm _ _ _ _ _ HC t es ws Ht (HS es ws H))|].
  apply in_map_iff. exists p. auto.
Qed.
Lemma type_seen_trad t ty fuel : nth_error tys t = Some ty -> length (fst ty) < fuel ->
  type_seen g po fuel t (recs_of (stored verts ty)).
Proof.
  destruct ty as [es ws]. cbn [fst]. intros Ht Hf. pose proof (nth_error_In _ _ Ht) as Hin.
  assert (Hw : ws = [] \/ length ws = length es) by (destruct HV as (_ & _ & _ & H); apply (H es ws Hin)).
  pose proof (csr_len es ws Hin) as CL. pose proof (numbered_len verts es CL) as NL.
  assert (EL : length (snd (stored verts (es, ws))) = length (fst (stored verts (es, ws)))).
  { cbn [stored fst snd]. rewrite NL. apply (eff_len (es, ws)). exact Hw. }
  pose proof (recs_len _ EL) as RL. cbn [fst stored] in RL. rewrite NL in RL.
  split; [rewrite RL; eapply num_seen; eauto|].
  eexists. split; [apply (w_iter_edges _ _ _ _ _ _ HC t es ws fuel Ht Hf)|].
  pose proof (p_hyper _ _ _ _ _ _ _ HV HB) as Hh.
  apply Forall2_nths; [rewrite map_length, seq_length; lia|]. intros i x r Hi Hr.
  assert (L : i < length es). { rewrite <- (seq_length (length es) 0), <- (map_length (fun i => getEdge (ntypes g) i t)). apply nth_error_Some. congruence. }
  rewrite nth_error_map, nth_error_seq in Hi by auto. cbn in Hi. inversion Hi; subst x. clear Hi.
  destruct (row_at _ _ _ _ _ HC t es ws Ht (HS es ws Hin) i L) as (l & v & m & w & Ev & Ew & Ei & En).
  destruct (nth_error es i) as [e0|] eqn:Ee; [|apply nth_error_None in Ee; lia].
  destruct (eff_nth _ _ _ _ HV t es ws i e0 Ht Ee) as (wt & Ewt).
  rewrite (recs_nth (stored verts (es, ws)) i (Z.of_nat i, [v; w]) wt) in Hr.
  2:{ apply (numbered_nth verts es i (v, w)); auto. } 2:{ exact Ewt. }
  inversion Hr; subst r. clear Hr.
  pose proof (nth_eff _ _ _ _ Ht) as HT. destruct (row_ends _ _ _ _ _ HC t es ws Ht l v m w Ev Ew) as (_ & Ex & Iw).
  assert (Ll : l < length verts) by (apply nth_error_Some; congruence).
  destruct (gtype_ok _ _ _ _ _ HR _ _ _ HT) as (ed & Eg & HE & Lt).
  assert (NE : idx all v <> idx all w).
  { intros X. assert (In v all) by (apply in_app_iff; left; eapply nth_error_In; eauto).
    assert (v = w) by (pose proof (idx_nth all v H); pose proof (idx_nth all w Iw); congruence).
    pose proof (csr_in es ws (v, w) Hin (nth_error_In _ _ En)) as P. cbn [fst snd] in P. unfold pins_of in P. apply in_map_iff in P as (e & Ep & Ie).
    exact (HN es ws e v w Hin Ie Ep H0). }
  assert (El : idx all v = l) by (apply nth_idx; [apply HR|rewrite nth_error_app1; auto]).
  unfold seen_as. cbn [fst snd length]. split; [|split; [|split]].
  - unfold egid. rewrite edec_getEdge by auto. cbn [obind]. rewrite Hh. reflexivity.
  - eapply eweight_ok; [exact HR|exact HT|exact Ewt].
  - unfold edegree. rewrite Hh. reflexivity.
  - exists (PTrad (S l) (S (idx all w))), [S l; S (idx all w)]. split; [|split].
    + unfold pins_begin. rewrite edec_getEdge by auto. cbn [obind]. rewrite Eg. cbn [obind]. rewrite Hh.
      rewrite Ei. rewrite (u_of_ok _ _ _ _ _ HR t es _ l m HT Ll) by (unfold cnt_of; apply nth_error_Some; congruence). cbn [obind].
      rewrite (elist_get g verts _ _ t es _ ed l m _ HT HE Ll Ex). cbn [obind]. now rewrite Nat.add_1_r.
    + apply iter_two. congruence.
    + assert (Iv : In v all) by (apply in_app_iff; left; eapply nth_error_In; eauto).
      assert (Hinc : incl [v; w] all) by (intros y [<-|[<-|[]]]; auto).
      pose proof (pins_owner _ _ _ _ _ _ _ HV HB [v; w] Hinc) as P. cbn [map] in P. rewrite El in P. exact P.
Qed.
End TS.

(** what the API shows of a traditional graph: vertices, edges by position, owners by global id *)
Definition same_traditional (verts : list Z) (tys : list type_input) (g g' : graph) : Prop :=
  hyper g' = hyper g /\ nlv g' = nlv g /\ ngv g' = ngv g /\ ntypes g' = ntypes g /\
  (forall l, l < length verts -> vgid g' (getVertex l) = vgid g (getVertex l) /\ vweight g' (getVertex l) = vweight g (getVertex l)) /\
  (forall t es ws, nth_error tys t = Some (es, ws) -> num_edges g' t = num_edges g t /\
     forall i, i < length es -> edge_ends g' t i = edge_ends g t i /\
       eweight g' (getEdge (ntypes g') i t) = eweight g (getEdge (ntypes g) i t) /\
       egid g' (getEdge (ntypes g') i t) = egid g (getEdge (ntypes g) i t)) /\
  (forall v, In v verts \/ pin_of tys v -> exists x y, findGID g v = Some x /\ findGID g' v = Some y /\ owner g' y = owner g x).

Theorem C24_traditional : forall h h' bits unbits ord fuel me verts vws tys owns g cs,
  valid_input false verts vws tys -> build_part me false verts vws tys owns = Some g ->
  (forall es ws, In (es, ws) tys -> local_sources verts es) ->
  (forall es ws e u w, In (es, ws) tys -> In e es -> snd e = [u; w] -> u <> w) ->
  file_holds me false verts tys owns -> values_ok bits unbits verts vws tys cs ->
  (forall m, Permutation (ord m) m) ->
  length verts < fuel -> (forall es ws, In (es, ws) tys -> length es < fuel) ->
  exists file g', saveToFile h bits ord fuel g cs = Some file /\ loadFromFile h' unbits me file = Some (g', cs) /\
    same_traditional verts tys g g'.
Proof.
  intros h h' bits unbits ord fuel me verts vws tys owns g cs HV HB HS HN HF HW HO Hf1 Hf2.
  set (wts := vws ++ repeat 1%Z (length verts - length vws)).
  set (tys' := map (stored verts) tys). set (tl := map recs_of tys').
  pose proof (wts_len _ _ _ _ HV) as LW. fold wts in LW.
  pose proof (part_rep _ _ _ _ _ _ _ HV HB) as (HR & _ & Hh & Hs).
  pose proof (p_constructed _ _ _ _ _ _ _ HV HB) as HC.
  assert (Nv : NoDup verts) by apply HV.
  assert (CL : forall es ws, In (es, ws) tys -> length (csr_order verts es) = length es) by (intros; eapply csr_len; eauto).
  assert (TE : forall ty, In ty tys' -> length (snd ty) = length (fst ty)).
  { intros ty Hin. unfold tys' in Hin. apply in_map_iff in Hin as ([es ws] & <- & Hin). cbn [stored fst snd]. etransitivity; [|symmetry; apply (numbered_len verts es (CL _ _ Hin))].
    apply (eff_len (es, ws)). destruct HV as (_ & _ & _ & H). apply (H es ws Hin). }
  assert (PP : forall v, pin_of tys' v <-> pin_of tys v).
  { intros v. unfold tys'. split.
    - intros (es' & ws' & e & H1 & H2 & H3). apply in_map_iff in H1 as ([es ws] & E1 & Hin). inversion E1; subst es' ws'.
      apply numbered_in in H2 as (i & p & -> & _ & Hp); [|eauto]. pose proof (csr_in _ _ _ _ _ _ HV HB HS es ws p Hin Hp) as P.
      unfold pins_of in P. apply in_map_iff in P as (e' & Ep & Ie). exists es, ws, e'. rewrite Ep. auto.
    - intros (es & ws & e & Hin & H2 & H3). apply In_nth_error in Hin as Hin'. destruct Hin' as (t & Ht).
      exists (numbered verts es), (eff_wgts ws (length es)).
      assert (P : In (snd e) (map (fun p => [fst p; snd p]) (csr_order verts es))).
      { eapply Permutation_in; [symmetry; apply (stored_perm _ _ _ _ _ HC t es ws Ht (HS es ws Hin))|]. unfold pins_of. now apply in_map. }
      rewrite <- numbered_pins in P by eauto. unfold pins_of in P. apply in_map_iff in P as (e' & Ep & Ie). exists e'. rewrite Ep. split; auto.
      apply in_map_iff. exists (es, ws). auto. }
  assert (PS : forall v, In v (flat_map (fun rs : list erec => flat_map snd rs) tl) <-> pin_of tys v).
  { intros v. rewrite <- PP. unfold tl. rewrite in_flat_map. split.
    - intros (rs & H1 & H2). apply in_map_iff in H1 as ([es ws] & <- & H1). rewrite recs_pins in H2 by auto. cbn [fst] in H2.
      apply in_concat in H2 as (ps & H2 & H3). unfold pins_of in H2. apply in_map_iff in H2 as (e & <- & H2). exists es, ws, e. auto.
    - intros (es & ws & e & H1 & H2 & H3). exists (recs_of (es, ws)). split; [apply in_map_iff; exists (es, ws); auto|].
      rewrite recs_pins by auto. cbn [fst]. apply in_concat. exists (snd e). split; auto. unfold pins_of. now apply in_map. }
  assert (OKT : Forall (ok_type bits unbits) tl).
  { unfold tl. apply Forall_forall. intros rs Hr. apply in_map_iff in Hr as (ty & <- & Hty). pose proof (TE ty Hty) as EL. pose proof Hty as Hty'.
    unfold tys' in Hty. apply in_map_iff in Hty as ([es ws] & <- & Hin). cbn [stored fst snd] in *.
    destruct HF as (F1 & _ & F & _). destruct (F es ws Hin) as (Fn & F'). split.
    - rewrite recs_len by auto. cbn [fst]. match goal with |- in32 (Z.of_nat ?n) => replace n with (length es) by (symmetry; exact (numbered_len verts es (CL _ _ Hin))) end. exact Fn.
    - apply Forall_forall. intros r Hr. apply recs_in in Hr as (e & w & He & Hw & ->). cbn [fst snd] in He, Hw.
      pose proof He as He'. apply numbered_in in He as (i & p & -> & Li & Hp); [|eauto]. cbn [fst snd].
      split; [cbn [fst]; split; [apply Nat2Z.is_nonneg|]; eapply Z.lt_trans; [apply Nat2Z.inj_lt, Li|apply Fn]|]. split; [|split; [cbn; split; lia|]].
      + cbn [fst snd]. destruct HW as (W1 & _ & W3 & _). unfold eff_wgts in Hw. destruct ws as [|w0 ws]; [apply repeat_spec in Hw; subst w; exact W1|]. exact (W3 es (w0 :: ws) w Hin Hw).
      + cbn [snd]. apply Forall_forall. intros v Iv. apply F1. right. apply PP. eexists _, _, _. split; [exact Hty'|]. split; [exact He'|exact Iv]. }
  assert (OKV : Forall (ok_vrec bits unbits) (combine verts wts)).
  { apply Forall_forall. intros [v w] Hin. split; cbn [fst snd].
    - apply in_combine_l in Hin. apply HF. auto.
    - apply in_combine_r in Hin. unfold wts in Hin. destruct HW as (W1 & W2 & _). apply in_app_iff in Hin as [Hin|Hin]; [exact (W2 w Hin)|]. apply repeat_spec in Hin. subst w. exact W1. }
  assert (LV : length (combine verts wts) = length verts) by (rewrite combine_length; lia).
  assert (FV : in32 (Z.of_nat (length (combine verts wts)))) by (rewrite LV; apply HF).
  assert (L7 : length tl <= 7) by (unfold tl, tys'; rewrite !map_length; apply HV).
  set (own := fold_left (note (part_of me verts owns) me) (flat_map (fun rs : list erec => flat_map snd rs) tl) []).
  assert (OS : forall p, In p own -> in32 (fst p) /\ in32 (snd p)).
  { intros p Ip. destruct (own_in me false verts tys owns HF _ PS p Ip) as (A & B & _). auto. }
  assert (OL : in32 (Z.of_nat (length own))) by (eapply own_small; eauto).
  assert (V' : valid_input false verts wts tys').
  { destruct HV as (A & B & C & H). repeat split; auto; [lia|unfold tys'; rewrite map_length; auto|right; apply (TE (es, ws)); auto|].
    intros _ e He. unfold tys' in H0. apply in_map_iff in H0 as ([es0 ws0] & E1 & Hin). inversion E1; subst.
    apply numbered_in in He as (i & p & -> & _); [|eauto]. reflexivity. }
  set (owns' := fold_left (fun m p => zput m (fst p) (s32 (snd p))) (ord own) []).
  destruct (construction_total me false verts wts tys' owns' V') as (_ & _ & g' & HB').
  pose proof (p_constructed _ _ _ _ _ _ _ V' HB') as HC'.
  pose proof (part_rep _ _ _ _ _ _ _ V' HB') as (HR' & _ & Hh' & Hs').
  exists (file_of bits (hyper g) (combine verts wts) cs tl (ord own)), g'. split; [|split].
  - unfold own. rewrite <- Hs. apply (save_eq h bits unbits ord g (part_of (self g) verts owns) fuel cs (combine verts wts) tl); auto.
    + rewrite LV. apply HR.
    + rewrite (rp_nlv _ _ _ _ _ HR). apply (all_verts_ok _ _ _ _ _ HR). exact Hf1.
    + eapply verts_seen; eauto.
    + rewrite LV. destruct cs as [c|]; auto. destruct HW as (_ & _ & _ & (W & _)). exact W.
    + rewrite (c_ntypes _ _ _ _ _ _ HC). unfold tl, tys'. now rewrite !map_length.
    + intros t rs Ht. unfold tl, tys' in Ht. rewrite map_map, nth_error_map in Ht. destruct (nth_error tys t) as [ty|] eqn:Et; [|discriminate]. inversion Ht; subst rs.
      rewrite Hs. apply (type_seen_trad me verts vws tys owns g HV HB HS HN t ty fuel Et). destruct ty as [es ws]. apply (Hf2 es ws). eapply nth_error_In; eauto.
    + rewrite Hs. exact OL.
    + rewrite Hs. exact OS.
  - rewrite Hh. rewrite load_eq with (bits := bits); auto.
    2:{ rewrite LV. clear - HW. destruct cs as [c|]; [|exact I]. destruct HW as (_ & _ & _ & (W & W')). split; [exact W|]. apply Forall_forall. intros [[x y] z] Hc.
        destruct (W' x y z Hc) as (X1 & X2 & X3). exact (conj X1 (conj X2 X3)). }
    2:{ rewrite (Permutation_length (HO _)). exact OL. }
    2:{ intros p Ip. apply OS. eapply Permutation_in; eauto. }
    rewrite fst_combine, snd_combine by auto.
    assert (ET : map to_ty tl = tys').
    { unfold tl. rewrite map_map. rewrite <- (map_id tys') at 2. apply map_ext_in. intros ty Hin. apply recs_ty. auto. }
    rewrite ET. fold owns'. rewrite HB'. reflexivity.
  - assert (PO : forall v, In v verts \/ pin_of tys v -> part_of me verts owns' v = part_of me verts owns v).
    { intros v Hv. unfold part_of. destruct (in_dec Z.eq_dec v verts) as [I|I]; auto. destruct Hv as [Hv|Hv]; [contradiction|].
      pose proof (own_back me false verts vws tys owns g HV HB HF _ PS ord HO v (pin_ghost _ _ _ _ _ _ _ HV HB v Hv I)) as X. unfold look in X. exact X. }
    assert (ALL : forall v, In v verts \/ pin_of tys v -> In v (verts ++ ghosts_of verts tys) /\ In v (verts ++ ghosts_of verts tys')).
    { intros v [Hv|Hv]; [split; apply in_app_iff; auto|]. split.
      - apply (c_gids_iff _ _ _ _ _ _ HC). right. destruct Hv as (es & ws & e & A & B & C). exists (es, ws), e. auto.
      - apply (c_gids_iff _ _ _ _ _ _ HC'). right. apply PP in Hv. destruct Hv as (es & ws & e & A & B & C). exists (es, ws), e. auto. }
    assert (GG : forall v, In v (ghosts_of verts tys) <-> In v (ghosts_of verts tys')).
    { intros v. split; intros H.
      - destruct (ghost_pin _ _ _ _ _ _ _ HV HB v H) as (A & B). eapply pin_ghost; eauto. now apply PP.
      - destruct (ghost_pin _ _ _ _ _ _ _ V' HB' v H) as (A & B). eapply pin_ghost; eauto. now apply PP. }
    split; [congruence|]. split; [rewrite (rp_nlv _ _ _ _ _ HR'), (rp_nlv _ _ _ _ _ HR); auto|]. split; [|split; [|split; [|split]]].
    + rewrite (rp_ngv _ _ _ _ _ HR'), (rp_ngv _ _ _ _ _ HR).
      pose proof (rp_nd _ _ _ _ _ HR) as N1. pose proof (rp_nd _ _ _ _ _ HR') as N2. apply NoDup_app_iff in N1 as (_ & N1 & _). apply NoDup_app_iff in N2 as (_ & N2 & _).
      apply Nat.le_antisymm; apply NoDup_incl_length; auto; intros v Hv; now apply GG.
    + rewrite (c_ntypes _ _ _ _ _ _ HC'), (c_ntypes _ _ _ _ _ _ HC). unfold tys'. apply map_length.
    + intros l Ll. destruct (nth_error verts l) as [v|] eqn:Ev; [|apply nth_error_None in Ev; lia]. split.
      * rewrite (c_vgid _ _ _ _ _ _ HC' l v), (c_vgid _ _ _ _ _ _ HC l v); auto; rewrite nth_error_app1; auto.
      * rewrite (w_vertex _ _ _ _ _ _ HC' l v Ev), (w_vertex _ _ _ _ _ _ HC l v Ev). f_equal. unfold wts.
        destruct (Nat.lt_ge_cases l (length vws)) as [Lw|Lw]; [now rewrite nth_error_app1|]. rewrite nth_error_app2 by auto. rewrite (proj2 (nth_error_None vws l) Lw).
        rewrite nth_error_repeat_lt by lia. reflexivity.
    + intros t es ws Ht. pose proof (nth_error_In _ _ Ht) as Hin. pose proof (CL es ws Hin) as Cl.
      assert (Ht' : nth_error tys' t = Some (numbered verts es, eff_wgts ws (length es))) by (unfold tys'; exact (map_nth_error (stored verts) t tys Ht)).
      assert (HS' : local_sources verts (numbered verts es)).
      { intros e u w He Es. apply numbered_in in He as (i & p & -> & _ & Hp); auto. cbn [snd] in Es. inversion Es; subst.
        unfold csr_order in Hp. apply in_flat_map in Hp as (v & Hv & Hp). apply in_map_iff in Hp as (w & <- & _). exact Hv. }
      pose proof (numbered_len verts es Cl) as Nl.
      split; [rewrite (num_seen _ _ _ _ _ _ _ V' HB' t _ _ Ht'), (num_seen _ _ _ _ _ _ _ HV HB t _ _ Ht), Nl; auto|].
      intros i Li. split; [|split].
      * pose proof (ends_stored _ _ _ _ _ HC t es ws Ht (HS es ws Hin)) as M. pose proof (ends_stored _ _ _ _ _ HC' t _ _ Ht' HS') as M'.
        rewrite Nl, csr_numbered in M' by auto.
        destruct (mapM_nth _ _ _ _ _ i i M) as (y & Y1 & Y2); [rewrite nth_error_seq by auto; reflexivity|].
        destruct (mapM_nth _ _ _ _ _ i i M') as (y' & Y1' & Y2'); [rewrite nth_error_seq by auto; reflexivity|]. congruence.
      * destruct (nth_error es i) as [e|] eqn:Ee; [|apply nth_error_None in Ee; lia].
        destruct (nth_error (numbered verts es) i) as [e'|] eqn:Ee'; [|apply nth_error_None in Ee'; lia].
        rewrite (w_edge _ _ _ _ _ _ HC t es ws i e Ht Ee), (w_edge _ _ _ _ _ _ HC' t _ _ i e' Ht' Ee').
        destruct ws as [|w0 ws]; [|reflexivity]. unfold eff_wgts. destruct es as [|e0 es]; [cbn in Li; lia|]. cbn [length repeat].
        change (1%Z :: repeat 1%Z (length es)) with (repeat 1%Z (S (length es))). apply nth_error_repeat_lt. exact Li.
      * assert (Lt : t < length tys) by (apply nth_error_Some; congruence).
        unfold egid. rewrite !edec_getEdge by (rewrite ?(c_ntypes _ _ _ _ _ _ HC'), ?(c_ntypes _ _ _ _ _ _ HC); unfold tys'; rewrite ?map_length; exact Lt).
        cbn [obind]. rewrite Hh, Hh'. reflexivity.
    + intros v Hv. destruct (ALL v Hv) as (A1 & A2). exists (getVertex (idx (verts ++ ghosts_of verts tys) v)), (getVertex (idx (verts ++ ghosts_of verts tys') v)).
      split; [apply (c_find _ _ _ _ _ _ HC); now apply idx_nth|]. split; [apply (c_find _ _ _ _ _ _ HC'); now apply idx_nth|].
      rewrite (p_owner _ _ _ _ _ _ _ HV HB _ v) by now apply idx_nth. rewrite (p_owner _ _ _ _ _ _ _ V' HB' _ v) by now apply idx_nth. f_equal. auto.
Qed.

(** ** The limits: ids wider than 32 bits, self loops *)
(** "saveToFile followed by loadFromFile gives back the vertex ids" without a bound on the ids *)
Definition restores_ids : Prop := forall hg verts vws tys owns g fuel file g' cs',
  valid_input hg verts vws tys -> build_part 0 hg verts vws tys owns = Some g ->
  saveToFile Little (fun w => w) (fun m => m) fuel g None = Some file -> loadFromFile Little (fun w => w) 0 file = Some (g', cs') ->
  exists hs, all_verts g' fuel = Some hs /\ mapM (vgid g') hs = Some verts.
(** agiIO.cpp:60, 92, 99, 117: global ids (64 bits) are stored as unsigned int; two different vertices may come back with one id *)
Theorem C24_wide_ids_refuted : ~ restores_ids.
Proof.
  intros H.
  assert (V : valid_input true [1; 4294967297]%Z [] [([(0, [1; 4294967297])], [])]%Z).
  { split; [|split; [|split]].
    - constructor; [intros [X|[]]; discriminate X|]. constructor; [intros []|constructor].
    - cbn; lia.
    - cbn; lia.
    - intros es ws [X|[]]; inversion X; subst; cbn; split; auto; intros Y; discriminate Y. }
  destruct (construction_total 0 true _ _ _ [] V) as (_ & _ & g & HB).
  assert (Q : exists file, saveToFile Little (fun w => w) (fun m => m) 5 g None = Some file /\
     exists g' c, loadFromFile Little (fun w => w) 0 file = Some (g', c) /\ (hs <- all_verts g' 5 ;; mapM (vgid g') hs) = Some [1; 1]%Z).
  { vm_compute in HB. inversion HB; subst g. eexists. split; [vm_compute; reflexivity|]. eexists _, _. split; [vm_compute; reflexivity|]. vm_compute; reflexivity. }
  destruct Q as (file & E1 & g' & c & E2 & E3).
  destruct (H _ _ _ _ _ _ _ _ _ _ V HB E1 E2) as (hs & A & B). rewrite A in E3. cbn [obind] in E3. rewrite B in E3. discriminate E3.
Qed.

(** "saveToFile is defined on every graph built through the API" *)
Definition saves_all : Prop := forall hg verts vws tys owns g fuel,
  valid_input hg verts vws tys -> build_part 0 hg verts vws tys owns = Some g -> (forall es ws, In (es, ws) tys -> local_sources verts es) ->
  length verts < fuel -> (forall es ws, In (es, ws) tys -> length es < fuel) ->
  exists file, saveToFile Little (fun w => w) (fun m => m) fuel g None = Some file.
(** agiIO.cpp:94-99: degree is 2 but the pin iterator of a self loop yields one vertex, then NULL, whose id is read out of bounds *)
Theorem C24_self_loop_refuted : ~ saves_all.
Proof.
  intros H.
  assert (V : valid_input false [1; 2]%Z [] [([(0, [1; 2]); (1, [2; 2])], [])]%Z).
  { split; [|split; [|split]].
    - constructor; [intros [X|[]]; discriminate X|]. constructor; [intros []|constructor].
    - cbn; lia.
    - cbn; lia.
    - intros es ws [X|[]]; inversion X; subst; cbn; split; auto. intros _ e. intuition subst; reflexivity. }
  destruct (construction_total 0 false _ _ _ [] V) as (_ & _ & g & HB).
  destruct (H _ _ _ _ _ g 5 V HB) as (file & E).
  - intros es ws [X|[]]. inversion X; subst. intros e u w [<-|[<-|[]]] Y; inversion Y; cbn; auto.
  - cbn; lia.
  - intros es ws [X|[]]. inversion X; subst. cbn; lia.
  - vm_compute in HB. inversion HB; subst g. vm_compute in E. discriminate E.
Qed.

(** ** The hypotheses are met *)
Definition io_tys : list type_input := [([(10, [1; 2; 7]); (11, [2; 8])], [3; 4]); ([(12, [1; 8])], [])]%Z.
Definition io_cs : option (list coord3) := Some [(5, 6, 7); (8, 9, 10)]%Z.
Example C24_example :
  valid_input true [1; 2]%Z [9]%Z io_tys /\ file_holds 1 true [1; 2]%Z io_tys [(7, 0); (8, 2)]%Z /\
  values_ok (fun w => w) (fun w => w) [1; 2]%Z [9]%Z io_tys io_cs /\
  exists g, build_part 1 true [1; 2]%Z [9]%Z io_tys [(7, 0); (8, 2)]%Z = Some g /\
    (f <- saveToFile Little (fun w => w) (@rev _) 5 g io_cs ;; loadFromFile Big (fun w => w) 1 f) = Some (g, io_cs).
Proof.
  assert (PIN : forall v, pin_of io_tys v -> In v [1; 2; 7; 8]%Z).
  { intros v (es & ws & e & [X|[X|[]]] & A & B); inversion X; subst; cbn in A; intuition subst; cbn in *; intuition. }
  split; [|split; [|split]].
  - split; [|split; [|split]].
    + constructor; [intros [X|[]]; discriminate X|]. constructor; [intros []|constructor].
    + cbn; lia.
    + cbn; lia.
    + intros es ws [X|[X|[]]]; inversion X; subst; cbn; split; auto; intros Y; discriminate Y.
  - split; [|split; [|split; [|split]]].
    + intros v [[<-|[<-|[]]]|H]; try (split; lia). apply PIN in H. cbn in H. unfold fits. intuition subst; lia.
    + split; cbn; lia.
    + intros es ws [X|[X|[]]]; inversion X; subst; (split; [split; cbn; lia|]); intros e; cbn; intuition subst; try (split; cbn; lia).
    + split; vm_compute; [intros X; discriminate X|reflexivity].
    + intros v H N. apply PIN in H. cbn in H. destruct H as [<-|[<-|[<-|[<-|[]]]]]; try (exfalso; apply N; cbn; auto; fail); vm_compute; repeat split; try reflexivity; intros X; discriminate X.
  - assert (R : forall w, (0 <= w < 2 ^ 64)%Z -> representable (fun w => w) (fun w => w) w) by (intros w X; split; auto).
    split; [apply R; lia|]. split; [intros w [<-|[]]; apply R; lia|]. split.
    + intros es ws w [X|[X|[]]]; inversion X; subst; cbn; intuition subst; apply R; lia.
    + cbn. split; [reflexivity|]. intros x y z [X|[X|[]]]; inversion X; subst; repeat split; lia.
  - eexists. split; [vm_compute; reflexivity|]. vm_compute; reflexivity.
Qed.
Example C24_example_traditional :
  valid_input false [1; 2]%Z [] [([(0, [2; 7]); (1, [1; 2]); (2, [2; 1])], [3; 4; 5])]%Z /\
  local_sources [1; 2]%Z [(0, [2; 7]); (1, [1; 2]); (2, [2; 1])]%Z /\
  exists g g', build_part 1 false [1; 2]%Z [] [([(0, [2; 7]); (1, [1; 2]); (2, [2; 1])], [3; 4; 5])]%Z [(7, 0)]%Z = Some g /\
    (f <- saveToFile Little (fun w => w) (@rev _) 5 g None ;; loadFromFile Big (fun w => w) 1 f) = Some (g', None) /\
    mapM (edge_ends g' 0) [0; 1; 2] = Some [(1, 2); (2, 7); (2, 1)]%Z.
Proof.
  split; [|split].
  - split; [|split; [|split]].
    + constructor; [intros [X|[]]; discriminate X|]. constructor; [intros []|constructor].
    + cbn; lia.
    + cbn; lia.
    + intros es ws [X|[]]; inversion X; subst; cbn; split; auto. intros _ e. intuition subst; reflexivity.
  - intros e u w H E. cbn in H. intuition subst; inversion E; cbn; auto.
  - eexists _, _. split; [vm_compute; reflexivity|]. split; [vm_compute; reflexivity|]. vm_compute; reflexivity.
Qed.

Print Assumptions C24_hypergraph.
Print Assumptions C24_traditional.
Print Assumptions C24_wide_ids_refuted.
Print Assumptions C24_self_loop_refuted.
