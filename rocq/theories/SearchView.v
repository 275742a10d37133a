(** What the searches of engpar_queue.cpp see of a built hypergraph part. *)
From Verif Require Import Base GraphModel GraphSpec CsrProofs ConstructProofs AccessProofs GraphTop GraphTop2 TagModel QueueModel BfsProofs BfsPush BfsPull MigrateTop SecondAdjProps.

Lemma mapM_pointwise {A B} (f : A -> option B) : forall l r, length l = length r -> (forall m x y, nth_error l m = Some x -> nth_error r m = Some y -> f x = Some y) -> mapM f l = Some r.
Proof.
  induction l as [|a l IH]; intros [|b r] L H; try discriminate; [reflexivity|]. cbn [mapM]. rewrite (H 0 a b eq_refl eq_refl). cbn [obind]. rewrite (IH r); [reflexivity|cbn in L; lia|]. intros m x y Hx Hy. apply (H (S m)); auto.
Qed.
Section View.
Variables (me : Z) (verts vws : list Z) (tys : list type_input) (owns : zmap Z) (g : graph) (es : list edge_input) (ws : list Z).
Hypothesis HV : valid_input true verts vws tys.
Hypothesis HB : build_part me true verts vws tys owns = Some g.
Hypothesis Ht : nth_error tys 0 = Some (es, ws).
Hypothesis HO : forall v, In v (ghosts_of verts tys) -> part_of me verts owns v <> me.
Notation all := (verts ++ ghosts_of verts tys).
Definition pin_ids (i : nat) : list Z := match nth_error es i with Some e => snd e | None => [] end.
Definition vpins (i : nat) : list nat := map (idx all) (pin_ids i).
Definition vil (l : nat) : list nat := match nth_error verts l with Some v => incident v es | None => [] end.
(** fuel for every loop over the part *)
Definition enough (fuel : nat) : Prop := length verts + length es + nsum (map (fun e : edge_input => length (snd e)) es) < fuel.

Let HC := p_constructed _ _ _ _ _ _ _ HV HB.
Let HR := proj1 (part_rep _ _ _ _ _ _ _ HV HB).
Lemma v_nlv : nlv g = length verts. Proof. apply (rp_nlv _ _ _ _ _ HR). Qed.
Lemma v_hyper : hyper g = true. Proof. apply (part_rep _ _ _ _ _ _ _ HV HB). Qed.
Lemma v_nt : 0 < ntypes g. Proof. destruct (gtype_ok _ _ _ _ _ HR 0 _ _ (nth_eff _ _ _ _ Ht)) as (ed & _ & _ & H). auto. Qed.
Lemma v_in_all e v : In v (pin_ids e) -> In v all.
Proof.
  unfold pin_ids. destruct (nth_error es e) as [[gid ps]|] eqn:E; [|intros []]. cbn [snd]. intros H. eapply (pins_in_all _ _ _ _ _ HR); [apply (nth_eff _ _ _ _ Ht)|exact E|exact H].
Qed.
Lemma v_pins_len i ps gid : nth_error es i = Some (gid, ps) -> length ps <= nsum (map (fun e : edge_input => length (snd e)) es).
Proof. clear. revert i. induction es as [|e l IH]; intros [|i] H; cbn [nth_error] in H; try discriminate; unfold nsum in *; cbn [map fold_right]; [inversion H; cbn [snd]; lia|]. apply IH in H. lia. Qed.
Lemma v_pins fuel e : enough fuel -> e < length es -> edge_pins g (getEdge (ntypes g) e 0) fuel = Some (map S (vpins e)).
Proof.
  unfold enough. intros F L. unfold vpins, pin_ids. destruct (nth_error es e) as [[gid ps]|] eqn:E; [|apply nth_error_None in E; lia]. cbn [snd]. rewrite map_map.
  eapply (edge_pins_hyper _ _ _ _ _ HR); [apply v_hyper|apply (nth_eff _ _ _ _ Ht)|exact E|]. apply v_pins_len in E. lia.
Qed.
Lemma v_local v : v < length verts -> owner g (S v) = Some (self g).
Proof. intros L. unfold owner. cbn [vlid]. rewrite v_nlv. destruct (Nat.leb_spec (length verts + ngv g) v); [lia|]. destruct (Nat.ltb_spec v (length verts)); [auto|lia]. Qed.
Lemma v_self : self g = me. Proof. apply (p_self _ _ _ _ _ _ _ HV HB). Qed.
Lemma v_owner v : In v all -> owner g (S (idx all v)) = Some (part_of me verts owns v).
Proof. intros H. pose proof (p_owner _ _ _ _ _ _ _ HV HB (idx all v) v (idx_nth _ _ H)) as P. unfold getVertex in P. now rewrite Nat.add_1_r in P. Qed.
Lemma v_ghost e v : In v (vpins e) -> length verts <= v -> exists o, owner g (S v) = Some o /\ o <> self g.
Proof.
  intros H G. unfold vpins in H. apply in_map_iff in H as (x & <- & Hx). apply v_in_all in Hx. exists (part_of me verts owns x). split; [apply v_owner; auto|]. rewrite v_self. apply HO.
  apply in_app_iff in Hx as [Hx|Hx]; auto. exfalso. rewrite idx_app in G by auto. pose proof (idx_lt _ _ Hx). lia.
Qed.
Lemma v_edges fuel v : enough fuel -> v < length verts -> vertex_edges g (S v) 0 fuel = Some (map (fun e => getEdge (ntypes g) e 0) (vil v)).
Proof.
  intros F L. unfold vil. destruct (nth_error verts v) as [x|] eqn:E; [|apply nth_error_None in E; lia]. replace (S v) with (getVertex v) by (unfold getVertex; lia).
  refine (proj1 (c_incident _ _ _ _ _ _ HC 0 es ws v x fuel eq_refl Ht E _)). unfold enough in F. eapply Nat.le_lt_trans; [|exact F]. etransitivity; [apply incident_len|apply Nat.le_add_l].
Qed.
Lemma v_lid e : elid g (getEdge (ntypes g) e 0) = Some e.
Proof. unfold elid. rewrite edec_getEdge by apply v_nt. reflexivity. Qed.
Lemma v_il v b : In b (vil v) -> b < length es.
Proof. unfold vil. destruct (nth_error verts v); [|intros []]. intros H. apply incident_in in H as (e & E & _). apply nth_error_Some. congruence. Qed.
Lemma v_sym v a : v < length verts -> In v (vpins a) <-> In a (vil v).
Proof.
  intros L. unfold vil, vpins, pin_ids. destruct (nth_error verts v) as [x|] eqn:E; [|apply nth_error_None in E; lia].
  assert (EX : idx all x = v) by (apply nth_idx; [apply (rp_nd _ _ _ _ _ HR)|rewrite nth_error_app1 by auto; auto]). rewrite incident_in. split.
  - destruct (nth_error es a) as [e|] eqn:Ea; [|intros []]. intros H. apply in_map_iff in H as (y & Ey & Hy). exists e. split; auto.
    assert (y = x); [|congruence]. assert (Iy : In y all) by (apply (v_in_all a); unfold pin_ids; rewrite Ea; auto). eapply (idx_inj all); auto; [apply in_app_iff; left; eapply nth_error_In; eauto|congruence].
  - intros (e & -> & H). rewrite <- EX. apply in_map. auto.
Qed.
Lemma v_row : exists ed, gtype g 0 = Some ed /\ e_num ed = length es /\ forall v, v < length verts -> exists a b, aget (e_deg ed) v = Some a /\ aget (e_deg ed) (v + 1) = Some b /\ mapM (aget (e_list ed)) (seq a (b - a)) = Some (vil v).
Proof.
  destruct (gtype_ok _ _ _ _ _ HR 0 _ _ (nth_eff _ _ _ _ Ht)) as (ed & E & HE & _). exists ed. split; auto. split; [apply (er_num _ _ _ _ _ _ HE)|]. intros v L.
  set (oc := occs (hyper g) (length verts) all 0 (epins_of es)). exists (off oc v), (off oc (v + 1)). rewrite !(er_deg _ _ _ _ _ _ HE) by lia. split; auto. split; auto.
  replace (off oc (v + 1) - off oc v) with (cnt_of v oc) by (rewrite Nat.add_1_r, off_S; lia).
  unfold vil. destruct (nth_error verts v) as [x|] eqn:Ex; [|apply nth_error_None in Ex; lia]. rewrite <- (vals_incident _ _ _ _ _ _ HC 0 es ws v x eq_refl Ht Ex). unfold occ_of. change (occs (hyper g) (length verts) all 0 (epins_of es)) with oc.
  apply mapM_pointwise. { unfold cnt_of. now rewrite seq_length. }
  intros m j y Hj Hy. assert (Lm : m < cnt_of v oc). { unfold cnt_of. apply nth_error_Some. congruence. } rewrite nth_error_seq in Hj by auto. inversion Hj; subst.
  eapply (elist_get _ _ _ _ 0 es _ ed v m y); [apply (nth_eff _ _ _ _ Ht)|exact HE|auto|exact Hy].
Qed.
Lemma v_verts fuel : enough fuel -> all_verts g fuel = Some (map S (seq 0 (length verts))).
Proof. intros F. eapply (all_verts_ok _ _ _ _ _ HR). unfold enough in F. lia. Qed.
End View.
