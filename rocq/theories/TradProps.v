(** Migration of traditional graphs (C16, C18, C19, C20): two pins per edge, one edge type, all edge weights equal. *)
From Verif Require Import Base GraphModel CsrProofs ConstructProofs GraphSpec GraphTop GraphTop2 Comm TagModel TagProps MigrateModel MigrateSpec RepartModel MigrateProofs1 MigrateProofs3 MigrateProofs5 MigrateTop RepartProofs MigrateProps TradSpec TradProofs1 TradProofs2.

(* ------------------------------------------------------------------ *)
(** ** C16: the vertices of a traditional graph.
    For any number of parts, any plans and any arrival order: every vertex ends on exactly the part its plan names (or
    stays), with its weight and original owner. *)
Theorem C16_traditional_partial : forall own own' V A w0 ps calls sts fuel,
  tdistributed own V A w0 ps -> ready false fuel ps calls sts -> moved_to own' ps calls -> tfuel fuel V A ->
  migrate fuel sts (fun sts' => length sts' = length ps /\ exists ps', length ps' = length ps /\
    forall r p' s', nth_error ps' r = Some p' -> nth_error sts' r = Some s' ->
      built_from false r p' s' /\ valid_input false (pd_verts p') (pd_vws p') (pd_tys p') /\ length (pd_oo p') = length (pd_verts p') /\
      Permutation (vrecs p') (filter (fun v => Nat.eqb (own' (fst v)) r) V)).
Proof.
  intros own own' V A w0 ps calls sts fuel HD HR HM HF. eapply migrate_mono; [|apply (trad_migrate_ok own own' V A w0 ps calls sts fuel HD HR HM HF)].
  intros sts' (L & ps' & L' & H). split; auto. exists ps'. split; auto. intros r p' s' Hp Hs. destruct (H r p' s' Hp Hs) as (B & (H1 & H2 & H3 & _) & _). auto.
Qed.
Print Assumptions C16_traditional_partial.

(* ------------------------------------------------------------------ *)
(** ** C18: exactly which arcs survive, and where they are.
    No symmetry is assumed.  The code keeps every arc except those between two vertices of one part of which only the
    destination moves ([survives]); a surviving arc is on the new part of its source, as often as it was before. *)
Theorem C18_surviving_partial : forall own own' V A w0 ps calls sts fuel,
  tdistributed own V A w0 ps -> ready false fuel ps calls sts -> moved_to own' ps calls -> tfuel fuel V A ->
  migrate fuel sts (fun sts' => exists ps', length ps' = length ps /\ length sts' = length ps /\
    tshared own' V (surviving own own' A) w0 ps' /\
    forall r p' s', nth_error ps' r = Some p' -> nth_error sts' r = Some s' -> built_from false r p' s').
Proof.
  intros own own' V A w0 ps calls sts fuel HD HR HM HF. eapply migrate_mono; [|apply (trad_migrate_ok own own' V A w0 ps calls sts fuel HD HR HM HF)].
  intros sts' (L & ps' & L' & H). exists ps'. split; auto. split; auto.
  assert (SP : forall r p', nth_error ps' r = Some p' -> exists s', nth_error sts' r = Some s').
  { intros r p' Hp. destruct (nth_error sts' r) eqn:E; eauto. apply nth_error_None in E. assert (r < length ps') by (apply nth_error_Some; congruence). lia. }
  split; [|intros r p' s' Hp Hs; apply (H r p' s' Hp Hs)]. split; [|split].
  - destruct HD as (((N & HA) & _) & _). split; auto. intros a Ha. apply filter_In in Ha as (Ha & _). auto.
  - intros v Hv. rewrite L'. apply (th_range own own' V A w0 ps calls sts fuel HD HR HM v Hv).
  - intros r p' Hp. destruct (SP r p' Hp) as (s' & Hs). apply (H r p' s' Hp Hs).
Qed.
Print Assumptions C18_surviving_partial.

(** In particular nothing is lost when no arc of a part has only its destination moving, e.g. when whole connected
    components of a part move, or when the plan moves no vertex with a staying in-neighbour on the same part. *)
Lemma surviving_all own own' A : (forall a, In a A -> own (fst a) = own (snd a) -> own' (snd a) <> own (snd a) -> own' (fst a) <> own (fst a)) -> surviving own own' A = A.
Proof.
  intros H. unfold surviving. rewrite <- (filter_ext_in (fun _ => true)); [induction A as [|a A IH]; cbn; auto; now rewrite IH by (intros; apply H; cbn; auto)|].
  intros a Ha. unfold survives. specialize (H a Ha). destruct (Nat.eqb_spec (own (fst a)) (own (snd a))); auto.
  destruct (Nat.eqb_spec (own' (fst a)) (own (fst a))); auto. destruct (Nat.eqb_spec (own' (snd a)) (own (snd a))); auto. exfalso. apply H; auto.
Qed.
Theorem C18_lossless_partial : forall own own' V A w0 ps calls sts fuel,
  tdistributed own V A w0 ps -> ready false fuel ps calls sts -> moved_to own' ps calls -> tfuel fuel V A ->
  (forall a, In a A -> own (fst a) = own (snd a) -> own' (snd a) <> own (snd a) -> own' (fst a) <> own (fst a)) ->
  migrate fuel sts (fun sts' => exists ps', length ps' = length ps /\ length sts' = length ps /\ tshared own' V A w0 ps' /\
    forall r p' s', nth_error ps' r = Some p' -> nth_error sts' r = Some s' -> built_from false r p' s').
Proof.
  intros own own' V A w0 ps calls sts fuel HD HR HM HF HL. pose proof (C18_surviving_partial own own' V A w0 ps calls sts fuel HD HR HM HF) as H. now rewrite (surviving_all own own' A HL) in H.
Qed.
Print Assumptions C18_lossless_partial.

(* ------------------------------------------------------------------ *)
(** ** C19: with every cut arc answered (in particular in every symmetric graph) the ghost owners are right *)
Theorem C19_traditional_symmetric_partial : forall own own' V A w0 ps calls sts fuel,
  tdistributed own V A w0 ps -> ready false fuel ps calls sts -> moved_to own' ps calls -> tfuel fuel V A -> symmetric_cut own A ->
  migrate fuel sts (fun sts' => length sts' = length ps /\ forall r s' l v,
    nth_error sts' r = Some s' -> vgid (fst s') (getVertex l) = Some v -> owner (fst s') (getVertex l) = Some (Z.of_nat (own' v))).
Proof.
  intros own own' V A w0 ps calls sts fuel HD HR HM HF SY. eapply migrate_mono; [|apply (trad_migrate_ok own own' V A w0 ps calls sts fuel HD HR HM HF)].
  intros sts' (L & ps' & L' & H). split; auto. intros r s' l v Hs Hl.
  destruct (nth_error ps' r) as [p'|] eqn:Hp; [|apply nth_error_None in Hp; assert (r < length sts') by (apply nth_error_Some; congruence); lia].
  destruct (H r p' s' Hp Hs) as (B0 & (HV & Lo & PV & _) & HG). specialize (HG SY). destruct B0 as (B & _). pose proof (p_constructed _ _ _ _ _ _ _ HV B) as HC.
  assert (Ha : nth_error (pd_verts p' ++ ghosts_of (pd_verts p') (pd_tys p')) l = Some v).
  { destruct (nth_error (pd_verts p' ++ ghosts_of (pd_verts p') (pd_tys p')) l) as [u|] eqn:Eu.
    - rewrite (c_vgid _ _ _ _ _ _ HC l u Eu) in Hl. congruence.
    - apply nth_error_None in Eu. exfalso. revert Hl. unfold vgid, getVertex. rewrite Nat.add_1_r. cbn [vlid obind].
      destruct (part_rep _ _ _ _ _ _ _ HV B) as (R & _). rewrite app_length in Eu. rewrite (rp_nlv _ _ _ _ _ R), (rp_gun _ _ _ _ _ R).
      replace (length (pd_verts p') <=? l) with true by (symmetry; apply Nat.leb_le; lia). unfold aget, ainit. rewrite nth_error_map.
      destruct (nth_error (ghosts_of (pd_verts p') (pd_tys p')) (l - length (pd_verts p'))) eqn:En; [|discriminate].
      assert (l - length (pd_verts p') < length (ghosts_of (pd_verts p') (pd_tys p'))) by (apply nth_error_Some; congruence). lia. }
  rewrite (p_owner _ _ _ _ _ _ _ HV B l v Ha). unfold part_of. destruct (in_dec Z.eq_dec v (pd_verts p')) as [Hv|Hv].
  - f_equal. assert (Hin : In v (map fst (vrecs p'))).
    { unfold vrecs. rewrite map_fst_combine; auto. rewrite combine_length. destruct HV as (_ & Lw & _). unfold vweights. rewrite app_length, repeat_length. lia. }
    apply in_map_iff in Hin as (x & <- & Hx). apply (Permutation_in _ PV), filter_In in Hx as (_ & E). apply Nat.eqb_eq in E. now rewrite E.
  - rewrite (HG v); auto. apply nth_error_In, in_app_iff in Ha. tauto.
Qed.
Print Assumptions C19_traditional_symmetric_partial.
(** the property is iterable: a lossless migration of a graph whose cut is answered is again a distribution *)
Theorem C18_distributed_partial : forall own own' V A w0 ps calls sts fuel,
  tdistributed own V A w0 ps -> ready false fuel ps calls sts -> moved_to own' ps calls -> tfuel fuel V A -> symmetric_cut own A ->
  (forall a, In a A -> own (fst a) = own (snd a) -> own' (snd a) <> own (snd a) -> own' (fst a) <> own (fst a)) ->
  migrate fuel sts (fun sts' => exists ps', length ps' = length ps /\ length sts' = length ps /\ tdistributed own' V A w0 ps' /\
    forall r p' s', nth_error ps' r = Some p' -> nth_error sts' r = Some s' -> built_from false r p' s').
Proof.
  intros own own' V A w0 ps calls sts fuel HD HR HM HF SY HL. eapply migrate_mono; [|apply (trad_migrate_ok own own' V A w0 ps calls sts fuel HD HR HM HF)].
  intros sts' (L & ps' & L' & H). exists ps'. split; auto. split; auto.
  assert (SP : forall r p', nth_error ps' r = Some p' -> exists s', nth_error sts' r = Some s').
  { intros r p' Hp. destruct (nth_error sts' r) eqn:E; eauto. apply nth_error_None in E. assert (r < length ps') by (apply nth_error_Some; congruence). lia. }
  split; [|intros r p' s' Hp Hs; apply (H r p' s' Hp Hs)]. split; [split; [apply HD|split]|].
  - intros v Hv. rewrite L'. apply (th_range own own' V A w0 ps calls sts fuel HD HR HM v Hv).
  - intros r p' Hp. destruct (SP r p' Hp) as (s' & Hs). destruct (H r p' s' Hp Hs) as (_ & HH & _). now rewrite (surviving_all own own' A HL) in HH.
  - intros p' Hin. apply In_nth_error in Hin as (r & Hp). destruct (SP r p' Hp) as (s' & Hs). destruct (H r p' s' Hp Hs) as (_ & _ & HG). auto.
Qed.
Print Assumptions C18_distributed_partial.

(* ------------------------------------------------------------------ *)
(** ** C20: repartition of a traditional graph: every vertex goes where the array says, and exactly the surviving
    arcs are left.  The round trip of C20 therefore loses arcs ([C20_traditional_refuted]). *)
Theorem C20_traditional_partial : forall own own' V A w0 ps sts fuel, tdistributed own V A w0 ps -> tfuel fuel V A -> length sts = length ps ->
  (forall r p s, nth_error ps r = Some p -> nth_error sts r = Some s ->
     build_part (Z.of_nat r) false (pd_verts p) (pd_vws p) (pd_tys p) (pd_owns p) = Some (fst (fst s)) /\
     (snd (fst s) = Some (ainit (pd_oo p)) \/ snd (fst s) = None /\ pd_oo p = repeat (Z.of_nat r) (length (pd_verts p))) /\
     snd s = map (fun v => Z.of_nat (own' v)) (pd_verts p)) ->
  (forall v, In v (map fst V) -> own' v < length ps) ->
  repartition fuel sts (fun sts' => exists ps', length ps' = length ps /\ length sts' = length ps /\
    tshared own' V (surviving own own' A) w0 ps' /\
    forall r p' s', nth_error ps' r = Some p' -> nth_error sts' r = Some s' -> built_from false r p' s').
Proof.
  intros own own' V A w0 ps sts fuel HD HF L HS HR.
  set (calls := map (fun p => repart_calls (map (fun v => Z.of_nat (own' v)) (pd_verts p)) (length (pd_verts p))) ps).
  assert (PG : forall i s, nth_error sts i = Some s -> exists p, nth_error ps i = Some p).
  { intros i s Hi. destruct (nth_error ps i) eqn:E; eauto. apply nth_error_None in E. assert (i < length sts) by (apply nth_error_Some; congruence). lia. }
  unfold repartition. apply local_intro with (PB := fun i m => forall p cs, nth_error ps i = Some p -> nth_error calls i = Some cs ->
    built_from false i p (mp_g m, mp_oo m) /\ made_plan fuel (mp_g m) cs (mp_plan m) /\ forall o, In o cs -> call_ok (mp_g m) (length ps) o).
  - intros i ((g, oo), partition) Hi. destruct (PG _ _ Hi) as (p & Hp). destruct (HS i p _ Hp Hi) as (B & Ho & Ep). cbn [fst snd] in *.
    destruct (th_part own V A w0 ps HD i p Hp) as (HV & Lo & PV & _).
    assert (VR : forall v, In v (pd_verts p) -> In v (map fst V)).
    { intros v Hv. rewrite <- (tvr_fst own V A w0 ps HD i p Hp) in Hv. apply in_map_iff in Hv as (x & <- & Hx). apply (Permutation_in _ PV), filter_In in Hx as (Hx & _). now apply in_map. }
    destruct (repart_plan_ok false fuel i p g oo partition (length ps) B HV) as (m & Em & B' & Eg & Mp & Hok); auto.
    + destruct HF as (F1 & _). assert (length (pd_verts p) <= length V); [|lia]. rewrite <- (tvr_fst own V A w0 ps HD i p Hp), map_length, (Permutation_length PV). apply tfilter_le.
    + rewrite Ep. apply map_length.
    + rewrite Ep. intros d Hd'. apply in_map_iff in Hd' as (v & <- & Hv). specialize (HR v (VR v Hv)). lia.
    + exists m. split; auto. intros p' cs Hp' Hcs. assert (p' = p) by congruence. subst p'. unfold calls in Hcs. rewrite nth_error_map, Hp in Hcs. cbn in Hcs. inversion Hcs; subst cs. rewrite Eg in *. rewrite <- Ep. auto.
  - intros mps Lm HM. apply (C18_surviving_partial own own' V A w0 ps calls mps fuel HD); auto.
    + split; [congruence|]. split; [unfold calls; now rewrite map_length|]. intros r p cs s Hp Hc Hs. apply (HM r s Hs p cs Hp Hc).
    + intros r p cs l v Hp Hc Hl. unfold calls in Hc. rewrite nth_error_map, Hp in Hc. cbn in Hc. inversion Hc; subst cs.
      rewrite planned_repart by (apply nth_error_Some; congruence). rewrite (nth_error_nth _ _ _ (map_nth_error (fun v => Z.of_nat (own' v)) _ _ Hl)). reflexivity.
Qed.
Print Assumptions C20_traditional_partial.

(* ------------------------------------------------------------------ *)
(** ** Concrete cases *)
Definition arc_eqb (x y : list Z) : bool := zlist_eqb x y.
Definition tholdsb (own : Z -> nat) (V : list (Z * (Z * Z))) (A : list arc) (w0 : Z) (r : nat) (p : pdesc) : bool :=
  validb false p && (length (pd_oo p) =? length (pd_verts p)) && permb vrec_eqb (vrecs p) (filter (fun v => Nat.eqb (own (fst v)) r) V) &&
  match pd_tys p with [ty] => permb zlist_eqb (map snd (fst ty)) (map pin2 (filter (fun a : arc => Nat.eqb (own (fst a)) r) A)) && forallb (Z.eqb w0) (eweights ty) | _ => false end &&
  forallb (fun v => match zfind (pd_owns p) v with Some o => Z.eqb o (Z.of_nat (own v)) | None => false end) (ghosts_of (pd_verts p) (pd_tys p)).
Definition tdistributedb (own : Z -> nat) (V : list (Z * (Z * Z))) (A : list arc) (w0 : Z) (ps : list pdesc) : bool :=
  nodupb (map fst V) && forallb (fun a : arc => existsb (Z.eqb (fst a)) (map fst V) && existsb (Z.eqb (snd a)) (map fst V) && negb (Z.eqb (fst a) (snd a))) A &&
  forallb (fun v => own v <? length ps) (map fst V) && forallb (fun rp => tholdsb own V A w0 (fst rp) (snd rp)) (combine (seq 0 (length ps)) ps).
Lemma tdistributedb_ok own V A w0 ps : tdistributedb own V A w0 ps = true -> tdistributed own V A w0 ps.
Proof.
  unfold tdistributedb. rewrite !andb_true_iff. intros (((H1 & B) & C) & D). rewrite forallb_forall in B, C, D.
  assert (EX : forall v, existsb (Z.eqb v) (map fst V) = true -> In v (map fst V)) by (intros v H; apply existsb_exists in H as (u & Hu & Eu); apply Z.eqb_eq in Eu; now subst).
  assert (HH : forall r p, nth_error ps r = Some p -> tholds own V A w0 r p /\ tghosts own p).
  { intros r p Hp. assert (Hin : In (r, p) (combine (seq 0 (length ps)) ps)).
    { apply (nth_error_In _ r). apply combine_nth_error; auto. apply nth_error_seq. apply nth_error_Some. congruence. }
    specialize (D _ Hin). cbn [fst snd] in D. unfold tholdsb in D. rewrite !andb_true_iff in D. destruct D as ((((D1 & D2) & D3) & D4) & D5).
    split; [split; [now apply validb_ok|split; [now apply Nat.eqb_eq|split]]|].
    - apply (permb_ok _ vrec_eqb); auto. intros (a, (b, c)) (d, (e, f)). unfold vrec_eqb. cbn. rewrite !andb_true_iff, !Z.eqb_eq. intros ((-> & ->) & ->). reflexivity.
    - destruct (pd_tys p) as [|(es, ws) [|]]; try discriminate. exists es, ws. split; auto. apply andb_true_iff in D4 as (D4 & D6). split.
      + apply (permb_ok _ zlist_eqb); auto. intros x y. unfold zlist_eqb. destruct (list_eq_dec Z.eq_dec x y); auto. discriminate.
      + apply Forall_forall. rewrite forallb_forall in D6. intros w Hw. now apply Z.eqb_eq, D6.
    - intros v Hv. rewrite forallb_forall in D5. specialize (D5 v Hv). destruct (zfind (pd_owns p) v); [|discriminate]. apply Z.eqb_eq in D5. now subst. }
  split; [split; [split|split]|].
  - now apply nodupb_ok.
  - intros a Ha. specialize (B a Ha). rewrite !andb_true_iff in B. destruct B as ((B1 & B2) & B3). split; auto. split; auto. apply negb_true_iff, Z.eqb_neq in B3. exact B3.
  - intros v Hv. now apply Nat.ltb_lt, C.
  - intros r p Hp. now apply HH.
  - intros p Hp. apply In_nth_error in Hp as (r & Hp). now apply (HH r p).
Qed.
Definition symb (own : Z -> nat) (A : list arc) : bool :=
  forallb (fun a : arc => (own (fst a) =? own (snd a)) || existsb (fun b : arc => Z.eqb (fst b) (snd a) && (own (snd b) =? own (fst a))) A) A.
Lemma symb_ok own A : symb own A = true -> symmetric_cut own A.
Proof.
  unfold symb. rewrite forallb_forall. intros H a Ha Hne. specialize (H a Ha). apply orb_true_iff in H as [H|H]; [apply Nat.eqb_eq in H; congruence|].
  apply existsb_exists in H as ((u, x) & Hb & E). cbn [fst snd] in E. apply andb_true_iff in E as (E1 & E2). apply Z.eqb_eq in E1. apply Nat.eqb_eq in E2. subst u. eauto.
Qed.

(** A path 1 - 2 - 3 - 4 (both directions) on parts {1, 2} {3, 4} {}; 2 goes to part 1, 3 and 4 go to part 2. *)
Definition tex_V : list (Z * (Z * Z)) := [(1, (5, 0)); (2, (6, 0)); (3, (7, 1)); (4, (8, 1))]%Z.
Definition tex_A : list arc := [(1, 2); (2, 1); (2, 3); (3, 2); (3, 4); (4, 3)]%Z.
Definition tex_own (v : Z) : nat := if Z.leb v 2 then 0 else 1.
Definition tex_own' (v : Z) : nat := if Z.eqb v 1 then 0 else if Z.eqb v 2 then 1 else 2.
Definition tex_ps : list pdesc :=
  [mkPD [1; 2]%Z [5; 6]%Z [([(100, [1; 2]); (101, [2; 1]); (102, [2; 3])], [])]%Z [(3, 1)]%Z [0; 0]%Z;
   mkPD [3; 4]%Z [7; 8]%Z [([(103, [3; 2]); (104, [3; 4]); (105, [4; 3])], [])]%Z [(2, 0)]%Z [1; 1]%Z; mkPD [] [] [([], [])] [] []].
Definition tex_calls : list (list plan_op) := [[Ins 1 1]; [Ins 0 2; Ins 1 2]; []]%Z.
Example C18_hypotheses_met : exists mps sts', run_plans false 20 tex_ps tex_calls = Some mps /\
  tdistributed tex_own tex_V tex_A 1 tex_ps /\ ready false 20 tex_ps tex_calls mps /\ moved_to tex_own' tex_ps tex_calls /\ tfuel 20 tex_V tex_A /\ symmetric_cut tex_own tex_A /\
  surviving tex_own tex_own' tex_A = [(2, 1); (2, 3); (3, 2); (3, 4); (4, 3)]%Z /\
  run_migrate 20 mps = Some sts' /\ (forall Q, migrate 20 mps Q -> Q sts') /\
  mapM (verts_seen 20) sts' = Some [[(1, (5, 0))]; [(2, (6, 0))]; [(3, (7, 1)); (4, (8, 1))]]%Z /\
  mapM (ghosts_seen 20) sts' = Some [[]; [(1, 0); (3, 2)]; [(2, 1)]]%Z.
Proof.
  destruct (run_plans false 20 tex_ps tex_calls) as [mps|] eqn:E; [|vm_compute in E; discriminate].
  destruct (run_migrate 20 mps) as [sts'|] eqn:Er; [|vm_compute in E; inversion E; subst mps; vm_compute in Er; discriminate].
  exists mps, sts'. split; [reflexivity|]. split; [apply tdistributedb_ok; vm_compute; reflexivity|].
  split; [apply ready_check; [exact E|vm_compute; reflexivity..]|]. split; [apply movedb_ok; vm_compute; reflexivity|].
  split; [split; vm_compute; lia|]. split; [apply symb_ok; vm_compute; reflexivity|]. split; [vm_compute; reflexivity|].
  split; [exact Er|]. split; [intros Q HQ; eapply run_migrate_sound; eauto|].
  vm_compute in E; inversion E; subst mps; vm_compute in Er; inversion Er; subst sts'. split; vm_compute; reflexivity.
Qed.
(** a lossless plan: the whole part 1 moves *)
Definition tex_own2 (v : Z) : nat := if Z.leb v 2 then 0 else 2.
Example C18_lossless_met : exists mps, run_plans false 20 tex_ps [[]; [Ins 0 2; Ins 1 2]; []]%Z = Some mps /\
  ready false 20 tex_ps [[]; [Ins 0 2; Ins 1 2]; []]%Z mps /\ moved_to tex_own2 tex_ps [[]; [Ins 0 2; Ins 1 2]; []]%Z /\
  (forall a, In a tex_A -> tex_own (fst a) = tex_own (snd a) -> tex_own2 (snd a) <> tex_own (snd a) -> tex_own2 (fst a) <> tex_own (fst a)).
Proof.
  destruct (run_plans false 20 tex_ps [[]; [Ins 0 2; Ins 1 2]; []]%Z) as [mps|] eqn:E; [|vm_compute in E; discriminate].
  exists mps. split; [reflexivity|]. split; [apply ready_check; [exact E|vm_compute; reflexivity..]|]. split; [apply movedb_ok; vm_compute; reflexivity|].
  intros a Ha. repeat (destruct Ha as [<-|Ha]; [vm_compute; intros; congruence|]). destruct Ha.
Qed.
(** the round trip of C20 on a traditional graph: both vertices of the arc 1 -> 2 start on part 0, the current distribution has 2 on
    part 1 with the arc cut; repartitioning a fresh copy puts the vertices where they are, but the arc is gone. *)
Definition c20t_now : list pdesc := [mkPD [1]%Z [] [([(100, [1; 2])], [])]%Z [(2, 1)]%Z [0]%Z; mkPD [2]%Z [] [([], [])] [] [0]%Z].
Definition c20t_parts : list (list Z) := [[0; 1]; []]%Z.
Theorem C20_traditional_refuted : exists now fresh ms sts' fresh',
  build_all false c20t_now = Some now /\ build_all false c18_ps = Some fresh /\
  mapM (edges_seen 20 0) now = Some [[(0, [1; 2])]; []]%Z /\ mapM (edges_seen 20 0) fresh = Some [[(0, [1; 2])]; []]%Z /\
  (forall Q, getPartition 20 now Q -> Q ms) /\
  (forall r m, nth_error ms r = Some m -> forall p, nth_error c18_ps r = Some p -> mapM (zfind m) (pd_verts p) = nth_error c20t_parts r) /\
  fresh' = map (fun sp : graph * arr Z * list Z => (fst (fst sp), None, snd sp)) (combine fresh c20t_parts) /\
  (forall Q, repartition 20 fresh' Q -> Q sts') /\
  mapM (verts_seen 20) sts' = mapM (verts_seen 20) now /\ mapM (edges_seen 20 0) sts' = Some [[]; []]%Z.
Proof.
  destruct (build_all false c20t_now) as [now|] eqn:En; [|vm_compute in En; discriminate].
  destruct (build_all false c18_ps) as [fresh|] eqn:Ef; [|vm_compute in Ef; discriminate].
  destruct (run_phase (part_send 20) part_recv now) as [ms|] eqn:Em; [|vm_compute in En; inversion En; subst now; vm_compute in Em; discriminate].
  destruct (mapM (repart_plan 20) (map (fun sp : graph * arr Z * list Z => (fst (fst sp), None, snd sp)) (combine fresh c20t_parts))) as [mps|] eqn:Ep;
    [|vm_compute in Ef; inversion Ef; subst fresh; vm_compute in Ep; discriminate].
  destruct (run_migrate 20 mps) as [sts'|] eqn:Er; [|vm_compute in Ef; inversion Ef; subst fresh; vm_compute in Ep; inversion Ep; subst mps; vm_compute in Er; discriminate].
  exists now, fresh, ms, sts', (map (fun sp : graph * arr Z * list Z => (fst (fst sp), None, snd sp)) (combine fresh c20t_parts)).
  split; [reflexivity|]. split; [reflexivity|].
  split; [vm_compute in En; inversion En; subst now; vm_compute; reflexivity|]. split; [vm_compute in Ef; inversion Ef; subst fresh; vm_compute; reflexivity|].
  split; [intros Q HQ; eapply run_phase_sound; eauto|].
  split. { vm_compute in En; inversion En; subst now; vm_compute in Em; inversion Em; subst ms. intros [|[|[|r]]] m Hm p Hp; cbn in Hm, Hp; try discriminate; inversion Hm; inversion Hp; subst; vm_compute; reflexivity. }
  split; [reflexivity|]. split; [intros Q (mps' & E' & HQ); rewrite Ep in E'; inversion E'; subst mps'; eapply run_migrate_sound; eauto|].
  vm_compute in En; inversion En; subst now. vm_compute in Ef; inversion Ef; subst fresh; vm_compute in Ep; inversion Ep; subst mps; vm_compute in Er; inversion Er; subst sts'. split; vm_compute; reflexivity.
Qed.
Print Assumptions C20_traditional_refuted.
