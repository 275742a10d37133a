(** Migration: global fuel, sequences of migrations, concrete executions. *)
From Verif Require Import Base GraphModel CsrProofs ConstructProofs GraphSpec AccessProofs AccessProofs2 CountProofs GraphTop GraphTop2 GraphTop3 Comm TagModel TagProps MigrateModel MigrateSpec MigrateProofs1 MigrateProofs2 MigrateProofs3 MigrateProofs4 MigrateProofs5.

Lemma total_pins_le (E E' : list (edge_input * Z)) : (exists f, Permutation E (filter f E')) -> length E <= length E' /\ total_pins E <= total_pins E'.
Proof.
  intros (f & P). assert (A : total_pins E = total_pins (filter f E')).
  { unfold total_pins. clear - P. induction P; cbn; unfold nsum in *; lia. }
  rewrite A, (Permutation_length P). clear. unfold total_pins. induction E' as [|e l IH]; cbn; [lia|]. destruct (f e); cbn; unfold nsum in *; lia.
Qed.
Lemma incident_len v (es : list edge_input) : length (incident v es) <= nsum (map (fun e => length (snd e)) es).
Proof.
  unfold incident. generalize 0. induction es as [|e es IH]; intros a; cbn; [lia|]. rewrite app_length, repeat_length. specialize (IH (S a)).
  pose proof (count_occ_bound Z.eq_dec v (snd e)). unfold nsum in *. lia.
Qed.
Lemma pins_le e (es : list edge_input) : In e es -> length (snd e) <= nsum (map (fun e => length (snd e)) es).
Proof. induction es as [|x es IH]; intros H; [destruct H|]. cbn. destruct H as [->|H]; [lia|]. specialize (IH H). unfold nsum in *. lia. Qed.
Lemma flat_len A B (f : A -> list B) l k : (forall a, In a l -> length (f a) <= k) -> length (flat_map f l) <= length l * k.
Proof. induction l as [|a l IH]; intros H; cbn; [lia|]. rewrite app_length. specialize (H a (or_introl eq_refl)) as Ha. assert (length (flat_map f l) <= length l * k) by (apply IH; intros; apply H; cbn; auto). lia. Qed.
Lemma out_len v (es : list edge_input) : length (out_dests v es) <= length es.
Proof. unfold out_dests. replace (length es) with (length es * 1) by lia. apply flat_len. intros e _. destruct (snd e) as [|u [|w l]]; cbn; try lia. destruct (Z.eqb u v); cbn; lia. Qed.

Lemma fuel_global own V T ps fuel p : distributed own V T ps -> big_enough fuel V T -> In p ps -> fuel_ok fuel p.
Proof.
  intros HD (BV & BT) Hp. apply In_nth_error in Hp as (r & Hp). destruct HD as (_ & _ & HH). destruct (HH r p Hp) as (HV & Lo & PV & Lt & PE & _).
  destruct HV as (_ & Lw & _ & HW). split.
  - assert (L : length (vrecs p) <= length V). { rewrite (Permutation_length PV). clear. induction V as [|x l IH]; cbn; [lia|]. destruct (_ =? r); cbn; lia. }
    unfold vrecs in L. rewrite !combine_length in L. unfold vweights in L. rewrite app_length, repeat_length in L. lia.
  - intros ty Hty. apply In_nth_error in Hty as (t & Ht). assert (t < length (pd_tys p)) by (apply nth_error_Some; congruence).
    destruct (nth_error T t) as [E|] eqn:ET; [|apply nth_error_None in ET; lia]. pose proof (PE t ty E Ht ET) as P.
    destruct (total_pins_le (erecs ty) E (ex_intro _ _ P)) as (L1 & L2). destruct (BT E (nth_error_In _ _ ET)) as (B1 & B2).
    destruct ty as (es, ws). cbn [fst] in *.
    assert (LW : length (eweights (es, ws)) = length es).
    { destruct (HW es ws (nth_error_In _ _ Ht)) as ([->|Hw] & _); unfold eweights; cbn; [apply repeat_length|]. destruct ws; [now rewrite repeat_length|exact Hw]. }
    assert (Le : length (erecs (es, ws)) = length es) by (unfold erecs; rewrite combine_length; cbn [fst]; lia).
    assert (Tp : total_pins (erecs (es, ws)) = nsum (map (fun e => length (snd e)) es)).
    { unfold total_pins, erecs. cbn [fst]. clear - LW. f_equal. revert LW. generalize (eweights (es, ws)). induction es as [|e l IH]; intros [|w k] H; cbn in *; try discriminate; auto. rewrite IH; auto. }
    set (k := nsum (map (fun e : edge_input => length (snd e)) es)) in *.
    assert (K2 : k * k <= total_pins E * total_pins E) by (change k with (nsum (map (fun e : Z * list Z => length (snd e)) es)); rewrite <- Tp; now apply Nat.mul_le_mono).
    split; [lia|]. split.
    + intros e He. assert (X : length (snd e) <= k) by exact (pins_le e es He). assert (k <= k * k) by (clearbody k; clear; destruct k; [lia|]; cbn; lia). lia.
    + intros v. split.
      * assert (X : length (flat_map (fun i => match nth_error es i with Some e => snd e | None => [] end) (incident v es)) <= length (incident v es) * k).
        { apply flat_len. intros i _. destruct (nth_error es i) as [e|] eqn:Ei; cbn; [|lia]. apply (pins_le e es). eapply nth_error_In; eauto. }
        assert (Y : length (incident v es) <= k) by exact (incident_len v es). assert (length (incident v es) * k <= k * k) by (apply Nat.mul_le_mono; lia). lia.
      * pose proof (out_len v es). lia.
Qed.

(** weakest-precondition style: larger postconditions *)
Lemma phase_mono A M B (send : A -> option (list (Z * M))) (recv : A -> list (Z * M) -> option B) st (Q Q' : list B -> Prop) :
  (forall s, Q s -> Q' s) -> phase send recv st Q -> phase send recv st Q'.
Proof. intros H (sent & E & D & K). exists sent. split; auto. split; auto. intros rcv Dl. destruct (K rcv Dl) as (st' & E' & HQ). eauto. Qed.
Lemma local_mono A B (f : A -> option B) st (Q Q' : list B -> Prop) : (forall s, Q s -> Q' s) -> local f st Q -> local f st Q'.
Proof. intros H (st' & E & HQ). exists st'. auto. Qed.
Lemma edge_phases_mono fuel ts : forall ws (Q Q' : list mwork -> Prop), (forall s, Q s -> Q' s) -> edge_phases fuel ts ws Q -> edge_phases fuel ts ws Q'.
Proof. induction ts as [|t ts IH]; intros ws Q Q' H; cbn [edge_phases]; [apply H|]. apply phase_mono. intros s. now apply IH. Qed.
Lemma migrate_mono fuel sts (Q Q' : list (graph * arr Z) -> Prop) : (forall s, Q s -> Q' s) -> migrate fuel sts Q -> migrate fuel sts Q'.
Proof.
  intros H. unfold migrate. apply local_mono. intros s0. apply phase_mono. intros s1. apply local_mono. intros ws. apply phase_mono. intros ws1.
  apply edge_phases_mono. intros ws2. now apply local_mono.
Qed.

(** the executable run is one of the executions quantified over *)
Lemma dests_okb_ok M (sent : list (list (Z * M))) : dests_okb sent = true -> dests_ok sent.
Proof.
  intros H ms m Hms Hm. unfold dests_okb in H. rewrite forallb_forall in H. specialize (H ms Hms). rewrite forallb_forall in H. specialize (H m Hm).
  apply andb_true_iff in H as (H1 & H2). apply Z.leb_le in H1. apply Z.ltb_lt in H2. auto.
Qed.
Lemma arrive_delivered M (sent : list (list (Z * M))) : dests_ok sent -> delivered sent (arrive sent).
Proof.
  intros H. split; [exact H|]. unfold arrive. split; [now rewrite map_length, seq_length|]. intros q r E. rewrite nth_error_map in E.
  destruct (nth_error (seq 0 (length sent)) q) as [x|] eqn:Ex; [|discriminate].
  assert (q < length sent) by (rewrite <- (seq_length (length sent) 0); apply nth_error_Some; congruence).
  rewrite nth_error_seq in Ex by auto. inversion Ex; subst. inversion E. apply Permutation_refl.
Qed.
Lemma run_phase_sound A M B (send : A -> option (list (Z * M))) (recv : A -> list (Z * M) -> option B) st Q st' :
  phase send recv st Q -> run_phase send recv st = Some st' -> Q st'.
Proof.
  intros (sent & E & D & K) H. unfold run_phase in H. rewrite E in H. cbn [obind] in H. destruct (dests_okb sent); [|discriminate].
  destruct (K _ (arrive_delivered _ _ D)) as (s2 & E2 & HQ). rewrite E2 in H. inversion H; now subst.
Qed.
Lemma run_migrate_sound fuel sts Q sts' : migrate fuel sts Q -> run_migrate fuel sts = Some sts' -> Q sts'.
Proof.
  unfold migrate, run_migrate. intros (s0 & E0 & H). rewrite E0. cbn [obind].
  destruct (run_phase (upd_send fuel) upd_recv s0) as [s1|] eqn:E1; [|discriminate]. cbn [obind].
  apply (run_phase_sound _ _ _ _ _ _ _ _ H) in E1. clear H. destruct E1 as (ws & E & H). rewrite E. cbn [obind].
  destruct (run_phase vert_send vert_recv ws) as [ws1|] eqn:E2; [|discriminate]. cbn [obind].
  apply (run_phase_sound _ _ _ _ _ _ _ _ H) in E2. clear H.
  destruct (foldM (fun ws t => run_phase (edge_send fuel) (edge_recv t) ws) (seq 0 (max_types sts)) ws1) as [ws2|] eqn:E3; [|discriminate]. cbn [obind].
  intros E4. assert (X : local mig_build ws2 Q).
  { revert ws1 E2 E3. induction (seq 0 (max_types sts)) as [|t ts IH]; intros ws1 E2 E3; cbn [foldM edge_phases] in *; [inversion E3; now subst|].
    destruct (run_phase (edge_send fuel) (edge_recv t) ws1) as [w|] eqn:Er; [|discriminate]. cbn [obind] in E3.
    apply (run_phase_sound _ _ _ _ _ _ _ _ E2) in Er. eapply IH; eauto. }
  destruct X as (x & Ex & HQ). congruence.
Qed.

(** one migration of a distributed single-type hypergraph, as a step on distributions *)
Lemma one_step own own' V E0 ps calls sts fuel : distributed own V [E0] ps -> ready true fuel ps calls sts -> moved_to own' ps calls -> big_enough fuel V [E0] ->
  migrate fuel sts (fun sts' => exists ps', length ps' = length ps /\ length sts' = length ps /\ distributed own' V [E0] ps' /\
    forall r p' s', nth_error ps' r = Some p' -> nth_error sts' r = Some s' -> built_from true r p' s').
Proof.
  intros HD HR HM HB.
  assert (HF : forall p, In p ps -> fuel_ok fuel p) by (intros p Hp; eapply fuel_global; eauto).
  eapply migrate_mono; [|apply (migrate_ok own own' V E0 [] ps calls sts fuel HD HR HM HF)].
  intros sts' (L & ps' & L' & H). exists ps'. split; auto. split; auto. split.
  - split; [apply HD|]. split.
    + intros v Hv. rewrite L'. apply (h_range own own' V E0 [] ps calls sts fuel HD HR HM v Hv).
    + intros r p' Hp'. assert (Lr : r < length sts') by (rewrite L, <- L'; apply nth_error_Some; congruence).
      destruct (nth_error sts' r) as [s'|] eqn:Es; [|apply nth_error_None in Es; lia].
      destruct (H r p' s' Hp' Es) as (_ & HV & Lo & PV & Lt & PE & HG). split; auto. split; auto. split; auto. split; [exact Lt|]. split.
      * intros [|t] ty E Ht HE; [inversion HE; subst; now apply PE|destruct t; discriminate].
      * now apply HG.
  - intros r p' s' Hp' Hs'. now destruct (H r p' s' Hp' Hs').
Qed.

(** the home after a plan *)
Definition new_home (own : Z -> nat) (ps : list pdesc) (calls : list (list plan_op)) (v : Z) : nat :=
  match nth_error ps (own v), nth_error calls (own v) with
  | Some p, Some cs => match planned cs (idx (pd_verts p) v) with Some d => Z.to_nat d | None => own v end
  | _, _ => own v
  end.
Lemma new_home_moved own V E0 ps calls sts fuel : distributed own V [E0] ps -> ready true fuel ps calls sts -> moved_to (new_home own ps calls) ps calls.
Proof.
  intros HD HR r p cs l v Hp Hc Hl. destruct HR as (Ls & Lc & HR). assert (Lr : r < length ps) by (apply nth_error_Some; congruence).
  destruct (nth_error sts r) as [s|] eqn:Es; [|apply nth_error_None in Es; lia]. destruct (HR r p cs s Hp Hc Es) as (_ & _ & Ho).
  pose proof (in_verts own V E0 [] ps HD r p v Hp) as IV. destruct (proj1 IV (nth_error_In _ _ Hl)) as (_ & Eo).
  unfold new_home. rewrite Eo, Hp, Hc. assert (Nd : NoDup (pd_verts p)).
  { destruct HD as (_ & _ & HD). destruct (HD r p Hp) as ((N & _) & _). exact N. }
  rewrite (nth_idx _ _ _ Nd Hl). destruct (planned cs l) as [d|] eqn:Ep; auto. apply planned_in, Ho in Ep. destruct Ep. rewrite Z2Nat.id; lia.
Qed.

(** a sequence of migrations, each planned from the state reached so far *)
Lemma migrations_ok V E0 fuel : big_enough fuel V [E0] -> forall pols own ps sts,
  distributed own V [E0] ps -> length sts = length ps ->
  (forall r p s, nth_error ps r = Some p -> nth_error sts r = Some s -> built_from true r p s) ->
  (forall pol, In pol pols -> sensible (length ps) pol) ->
  migrations fuel pols sts (fun sts' => length sts' = length ps /\ exists own' ps', length ps' = length ps /\ distributed own' V [E0] ps' /\
    forall r p' s', nth_error ps' r = Some p' -> nth_error sts' r = Some s' -> built_from true r p' s').
Proof.
  intros HB. induction pols as [|pol pols IH]; intros own ps sts HD L HBF HP; cbn [migrations].
  - split; auto. exists own, ps. auto.
  - destruct (HP pol (or_introl eq_refl) sts L) as (Lc & Hok).
    assert (X : forall i s, nth_error sts i = Some s -> exists p cs, nth_error ps i = Some p /\ nth_error (pol sts) i = Some cs).
    { intros i s Hi. assert (Li : i < length sts) by (apply nth_error_Some; congruence).
      destruct (nth_error ps i) eqn:E1; [|apply nth_error_None in E1; lia]. destruct (nth_error (pol sts) i) eqn:E2; [|apply nth_error_None in E2; lia]. eauto. }
    assert (MP : forall i s cs, nth_error sts i = Some s -> nth_error (pol sts) i = Some cs -> exists m, plan_part fuel s cs = Some m /\ mp_g m = fst s /\ mp_oo m = snd s /\ made_plan fuel (fst s) cs (mp_plan m)).
    { intros i s cs Hi Hc. destruct (X i s Hi) as (p & _ & Hp & _).
      assert (HV : valid_input true (pd_verts p) (pd_vws p) (pd_tys p)) by (destruct HD as (_ & _ & HD); apply (HD i p Hp)).
      destruct (HBF i p s Hp Hi) as (B & _).
      destruct (plan_run _ _ _ _ _ (fst s) cs fuel (p_constructed _ _ _ _ _ _ _ HV B)) as (p0 & q & A1 & A2 & _).
      - destruct (fuel_global own V [E0] ps fuel p HD HB (nth_error_In _ _ Hp)). auto.
      - intros o Ho. pose proof (Hok i s cs o Hi Hc Ho) as C. destruct o; cbn in *; [|auto]. destruct C. split; auto. lia.
      - exists (mkMP (fst s) (snd s) q). unfold plan_part. rewrite A1. cbn [obind]. rewrite A2. cbn. split; auto. split; auto. split; auto. exists p0. auto. }
    destruct (par2_total _ _ _ (fun _ s cs => plan_part fuel s cs) 0 sts (pol sts)) as (mps & Em); [congruence|intros i a b Ha Hb; destruct (MP i a b Ha Hb) as (m & E & _); eauto|].
    exists mps. split; [exact Em|]. pose proof (par2_length _ _ _ _ _ _ _ _ Em) as (Lm & _).
    assert (HR : ready true fuel ps (pol sts) mps).
    { split; [congruence|]. split; [congruence|]. intros r p cs m Hp Hc Hm. destruct (par2_nth _ _ _ _ _ _ _ _ _ _ Em Hm) as (s & cs' & Hs & Hc' & E).
      assert (cs' = cs) by congruence. subst cs'. destruct (MP r s cs Hs Hc) as (m' & E' & Eg & Eo & Mp). assert (m' = m) by congruence. subst m'. rewrite Eg, Eo.
      split; [now apply (HBF r p s Hp Hs)|]. split; [exact Mp|]. intros o Ho. apply (Hok r s cs o Hs Hc Ho). }
    pose proof (new_home_moved own V E0 ps _ mps fuel HD HR) as HM.
    eapply migrate_mono; [|apply (one_step own _ V E0 ps _ mps fuel HD HR HM HB)].
    intros sts' (ps' & L1 & L2 & HD' & B'). rewrite <- L1. apply (IH _ ps' sts' HD'); auto; [congruence|]. rewrite L1. intros q Hq. apply HP. cbn; auto.
Qed.
