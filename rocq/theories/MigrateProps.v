(** Theorems about migration (C16 - C20). *)
From Verif Require Import Base GraphModel CsrProofs ConstructProofs GraphSpec GraphTop GraphTop2 Comm TagModel TagProps MigrateModel MigrateSpec RepartModel MigrateProofs1 MigrateProofs3 MigrateProofs5 MigrateTop RepartProofs.

(** what the API shows of a part: vertices (id, (weight, original owner)), edges of type t (id, pins), ghosts (id, owner) *)
Definition verts_seen (fuel : nat) (s : graph * arr Z) : option (list (Z * (Z * Z))) :=
  hs <- all_verts (fst s) fuel ;; mapM (fun h => v <- vgid (fst s) h ;; w <- vweight (fst s) h ;; o <- originalOwner (fst s) (snd s) h ;; Some (v, (w, o))) hs.
Definition edges_seen (fuel t : nat) (s : graph * arr Z) : option (list (Z * list Z)) :=
  es <- all_edges (fst s) t fuel ;; mapM (fun e => id <- egid (fst s) e ;; ps <- edge_pins (fst s) e fuel ;; vs <- mapM (vgid (fst s)) ps ;; Some (id, vs)) es.
Definition ghosts_seen (fuel : nat) (s : graph * arr Z) : option (list (Z * Z)) :=
  hs <- all_ghosts (fst s) fuel ;; mapM (fun h => v <- vgid (fst s) h ;; o <- owner (fst s) h ;; Some (v, o)) hs.
(** construct every part, make every plan *)
Definition build_all (hg : bool) (ps : list pdesc) : option (list (graph * arr Z)) :=
  mapM (fun rp => g <- build_part (Z.of_nat (fst rp)) hg (pd_verts (snd rp)) (pd_vws (snd rp)) (pd_tys (snd rp)) (pd_owns (snd rp)) ;; Some (g, ainit (pd_oo (snd rp)))) (combine (seq 0 (length ps)) ps).
Definition run_plans (hg : bool) (fuel : nat) (ps : list pdesc) (calls : list (list plan_op)) : option (list mpart) :=
  sts <- build_all hg ps ;; par2 (fun _ s cs => plan_part fuel s cs) 0 sts calls.

Lemma build_all_nth hg ps sts r p s : build_all hg ps = Some sts -> nth_error ps r = Some p -> nth_error sts r = Some s -> built_from hg r p s.
Proof.
  intros E Hp Hs. unfold build_all in E.
  assert (Hc : nth_error (combine (seq 0 (length ps)) ps) r = Some (r, p)).
  { apply combine_nth_error; auto. apply nth_error_seq. apply nth_error_Some. congruence. }
  destruct (mapM_nth _ _ _ _ _ _ _ E Hc) as (y & Hy & Ey). cbn [fst snd] in Ey. assert (y = s) by congruence. subst y.
  destruct (build_part _ _ _ _ _ _) eqn:B; [|discriminate]. cbn in Ey. inversion Ey; subst. split; auto.
Qed.
Lemma run_plans_ready hg fuel ps calls mps : run_plans hg fuel ps calls = Some mps ->
  (forall cs o, In cs calls -> In o cs -> match o with Ins l d => (0 <= d < Z.of_nat (length ps))%Z | Clr => True end) ->
  (forall r p cs l d, nth_error ps r = Some p -> nth_error calls r = Some cs -> In (Ins l d) cs -> l < length (pd_verts p)) ->
  (forall p, In p ps -> valid_input hg (pd_verts p) (pd_vws p) (pd_tys p)) -> ready hg fuel ps calls mps.
Proof.
  unfold run_plans. destruct (build_all hg ps) as [sts|] eqn:B; [|discriminate]. cbn [obind]. intros E HD HL HV.
  pose proof (par2_length _ _ _ _ _ _ _ _ E) as (L1 & L2). assert (Ls : length sts = length ps).
  { unfold build_all in B. apply mapM_length in B. rewrite B, combine_length, seq_length. lia. }
  split; [congruence|]. split; [congruence|]. intros r p cs m Hp Hc Hm. destruct (par2_nth _ _ _ _ _ _ _ _ _ _ E Hm) as (s & cs' & Hs & Hc' & Em).
  assert (cs' = cs) by congruence. subst cs'. pose proof (build_all_nth hg ps sts r p s B Hp Hs) as HB. unfold plan_part in Em.
  destruct (plan_new (fst s) fuel) as [p0|] eqn:E0; [|discriminate]. cbn [obind] in Em. destruct (foldM (do_op (fst s)) cs p0) as [q|] eqn:E1; [|discriminate]. cbn [obind] in Em. inversion Em; subst m. cbn [mp_g mp_oo mp_plan].
  split; [now destruct s|]. split; [exists p0; auto|]. intros o Ho. destruct HB as (HB & _).
  assert (HVp : valid_input hg (pd_verts p) (pd_vws p) (pd_tys p)) by (apply HV; eapply nth_error_In; eauto).
  destruct (c_counts _ _ _ _ _ _ (p_constructed _ _ _ _ _ _ _ HVp HB)) as (Hn & _).
  specialize (HD cs o (nth_error_In _ _ Hc) Ho). destruct o as [l d|]; cbn; auto. split; auto. rewrite Hn. eapply HL; eauto.
Qed.

Lemma nth_ext_error A (l l' : list A) : (forall i, nth_error l i = nth_error l' i) -> l = l'.
Proof. revert l'. induction l as [|x l IH]; intros [|y l'] H; auto; try (specialize (H 0); discriminate). pose proof (H 0) as H0. cbn in H0. inversion H0. f_equal. apply IH. intros i. exact (H (S i)). Qed.

(* ------------------------------------------------------------------ *)
(** ** C16: vertices.
    [V] lists the vertices of the whole graph with weight and original owner; [own v] ([own' v]) is the part
    of v before (after) the migration.  The parts may be any number, the arrival order is quantified inside
    [migrate].  Missing for the full property: traditional graphs; coordinates (below, refuted). *)
Theorem C16_vertices_partial : forall own own' V E0 Ts ps calls sts fuel,
  distributed own V (E0 :: Ts) ps -> ready true fuel ps calls sts -> moved_to own' ps calls -> big_enough fuel V (E0 :: Ts) ->
  migrate fuel sts (fun sts' => length sts' = length ps /\ exists ps', length ps' = length ps /\
    forall r p' s', nth_error ps' r = Some p' -> nth_error sts' r = Some s' ->
      built_from true r p' s' /\ valid_input true (pd_verts p') (pd_vws p') (pd_tys p') /\ length (pd_oo p') = length (pd_verts p') /\
      Permutation (vrecs p') (filter (fun v => Nat.eqb (own' (fst v)) r) V)).
Proof.
  intros own own' V E0 Ts ps calls sts fuel HD HR HM HB.
  eapply migrate_mono; [|apply (migrate_ok own own' V E0 Ts ps calls sts fuel HD HR HM)].
  - intros sts' (L & ps' & L' & H). split; auto. exists ps'. split; auto. intros r p' s' Hp Hs. destruct (H r p' s' Hp Hs) as (A & B & C & D & _). auto.
  - intros p Hp. eapply fuel_global; eauto.
Qed.
Print Assumptions C16_vertices_partial.

(** ** C16: coordinates.
    Coordinates travel in a second phase and are matched with vertices by arrival position.  They end up
    with the right vertices when the two phases unpack the senders in the same order. *)
Theorem C16_coordinates_partial : forall (C : Type) (f : Z -> C) fuel (sts : list (mwork * arr C)) sentV sentC q rV rC w crd kc w',
  (forall w crd h v c, In (w, crd) sts -> vgid (mp_g (w_part w)) h = Some v -> coord_of (mp_g (w_part w)) crd h = Some c -> c = f v) ->
  mapM (fun x => vert_send (fst x)) sts = Some sentV -> mapM (fun x => coord_send (w_part (fst x), snd x)) sts = Some sentC ->
  fifo sentV q rV -> fifo sentC q rC -> map fst rV = map fst rC ->
  nth_error sts q = Some (w, crd) -> kept_verts fuel (w_part w) = Some (w_verts w) -> kept_coords fuel crd (w_part w) = Some kc ->
  vert_recv w rV = Some w' -> new_coords kc rC = map (fun x => f (fst x)) (w_verts w').
Proof. intros C f fuel sts sentV sentC q rV rC w crd kc w' H. apply coords_aligned. intros w0 crd0 Hin h v c. now apply H. Qed.
Print Assumptions C16_coordinates_partial.

(** three parts; parts 1 and 2 each send one vertex to part 0 *)
Definition c16_ps : list pdesc := [mkPD [] [] [([], [])] [] []; mkPD [1]%Z [] [([(100, [1; 2])], [])]%Z [(2, 2)]%Z [1]%Z; mkPD [2]%Z [] [([(100, [1; 2])], [])]%Z [(1, 1)]%Z [2]%Z].
Definition c16_calls : list (list plan_op) := [[]; [Ins 0 0]; [Ins 0 0]]%Z.
Definition c16_coords : list (arr Z) := [[]; [Some 10%Z]; [Some 20%Z]].
(** the state of every part at the start of the vertex phase *)
Definition c16_works : option (list mwork) :=
  ms <- run_plans true 20 c16_ps c16_calls ;; s0 <- mapM (mig_cleanup 20) ms ;; s1 <- run_phase (upd_send 20) upd_recv s0 ;; mapM (mig_setup 20 1) s1.
(** both arrival orders are possible: the vertex with coordinate 10 ends up with coordinate 20 *)
Theorem C16_coordinates_refuted : exists ws sentV sentC w0 w0' kc,
  c16_works = Some ws /\ nth_error ws 0 = Some w0 /\
  mapM (fun x => vert_send (fst x)) (combine ws c16_coords) = Some sentV /\
  mapM (fun x => coord_send (w_part (fst x), snd x)) (combine ws c16_coords) = Some sentC /\
  let rV := [(1, (1, (1, 1))); (2, (2, (1, 2)))]%Z in let rC := [(2, 20); (1, 10)]%Z in
  fifo sentV 0 rV /\ fifo sentC 0 rC /\ vert_recv w0 rV = Some w0' /\ kept_coords 20 [] (w_part w0) = Some kc /\
  map fst (w_verts w0') = [1; 2]%Z /\ new_coords kc rC = [20; 10]%Z.
Proof.
  do 6 eexists. split; [vm_compute; reflexivity|]. split; [vm_compute; reflexivity|]. split; [vm_compute; reflexivity|]. split; [vm_compute; reflexivity|]. cbv zeta.
  assert (A : forall (M : Type) (sent : list (list (Z * M))) q r,
    forallb (fun s => existsb (fun i => Z.eqb s (Z.of_nat i)) (seq 0 (length sent))) (map fst r) = true ->
    (forall i ms, i < length sent -> nth_error sent i = Some ms -> map snd (filter (fun x => Z.eqb (fst x) (Z.of_nat i)) r) = map snd (filter (fun x => Z.eqb (fst x) (Z.of_nat q)) ms)) -> fifo sent q r).
  { intros M sent q r H1 H2. split.
    - intros s m Hm. rewrite forallb_forall in H1. specialize (H1 s (in_map fst _ _ Hm)). apply existsb_exists in H1 as (i & Hi & E). apply in_seq in Hi. apply Z.eqb_eq in E. exists i. split; [lia|auto].
    - intros i ms Hi. apply H2; auto. apply nth_error_Some. congruence. }
  split; [apply A; [reflexivity|]; intros [|[|[|i]]] ms L E; cbn in E; try discriminate; inversion E; try reflexivity; destruct i; discriminate|].
  split; [apply A; [reflexivity|]; intros [|[|[|i]]] ms L E; cbn in E; try discriminate; inversion E; try reflexivity; destruct i; discriminate|].
  repeat split; vm_compute; reflexivity.
Qed.
Print Assumptions C16_coordinates_refuted.

(* ------------------------------------------------------------------ *)
(** ** C17: hyperedges.
    With one edge type the result is again a distribution of the same hypergraph, with the new homes:
    [distributed] says of every part that its vertices are exactly those living there, that it holds exactly one
    copy of every hyperedge with a pin there and no other edge, and (C19) that the recorded owner of every
    ghost is the part where it lives. *)
Theorem C17_hypergraph_partial : forall own own' V E0 ps calls sts fuel,
  distributed own V [E0] ps -> ready true fuel ps calls sts -> moved_to own' ps calls -> big_enough fuel V [E0] ->
  migrate fuel sts (fun sts' => exists ps', length ps' = length ps /\ length sts' = length ps /\ distributed own' V [E0] ps' /\
    forall r p' s', nth_error ps' r = Some p' -> nth_error sts' r = Some s' -> built_from true r p' s').
Proof. exact one_step. Qed.
Print Assumptions C17_hypergraph_partial.
(** with several edge types, the edges of type 0 *)
Theorem C17_type_zero_partial : forall own own' V E0 Ts ps calls sts fuel,
  distributed own V (E0 :: Ts) ps -> ready true fuel ps calls sts -> moved_to own' ps calls -> big_enough fuel V (E0 :: Ts) ->
  migrate fuel sts (fun sts' => length sts' = length ps /\ exists ps', length ps' = length ps /\
    forall r p' s', nth_error ps' r = Some p' -> nth_error sts' r = Some s' ->
      built_from true r p' s' /\ length (pd_tys p') = S (length Ts) /\
      forall ty, nth_error (pd_tys p') 0 = Some ty -> Permutation (erecs ty) (filter (touches own' r) E0)).
Proof.
  intros own own' V E0 Ts ps calls sts fuel HD HR HM HB.
  eapply migrate_mono; [|apply (migrate_ok own own' V E0 Ts ps calls sts fuel HD HR HM)].
  - intros sts' (L & ps' & L' & H). split; auto. exists ps'. split; auto. intros r p' s' Hp Hs. destruct (H r p' s' Hp Hs) as (A & _ & _ & _ & B & C & _). auto.
  - intros p Hp. eapply fuel_global; eauto.
Qed.
Print Assumptions C17_type_zero_partial.
(** any sequence of migrations, each planned from the graphs reached so far *)
Theorem C17_sequence_partial : forall V E0 fuel, big_enough fuel V [E0] -> forall pols own ps sts,
  distributed own V [E0] ps -> length sts = length ps ->
  (forall r p s, nth_error ps r = Some p -> nth_error sts r = Some s -> built_from true r p s) ->
  (forall pol, In pol pols -> sensible (length ps) pol) ->
  migrations fuel pols sts (fun sts' => length sts' = length ps /\ exists own' ps', length ps' = length ps /\ distributed own' V [E0] ps' /\
    forall r p' s', nth_error ps' r = Some p' -> nth_error sts' r = Some s' -> built_from true r p' s').
Proof. exact migrations_ok. Qed.
Print Assumptions C17_sequence_partial.

(** executable form of [distributed], to check the concrete cases *)
Fixpoint takeb {A} (eqb : A -> A -> bool) (x : A) (l : list A) : option (list A) :=
  match l with [] => None | y :: r => if eqb x y then Some r else option_map (cons y) (takeb eqb x r) end.
Fixpoint permb {A} (eqb : A -> A -> bool) (l1 l2 : list A) : bool :=
  match l1 with [] => match l2 with [] => true | _ => false end
  | x :: r => match takeb eqb x l2 with Some l2' => permb eqb r l2' | None => false end end.
Lemma permb_ok A (eqb : A -> A -> bool) : (forall x y, eqb x y = true -> x = y) -> forall l1 l2, permb eqb l1 l2 = true -> Permutation l1 l2.
Proof.
  intros HE. assert (T : forall l x r, takeb eqb x l = Some r -> Permutation (x :: r) l).
  { induction l as [|y l IH]; intros x r H; cbn in H; [discriminate|]. destruct (eqb x y) eqn:E.
    - inversion H; subst. apply HE in E. subst. apply Permutation_refl.
    - destruct (takeb eqb x l) as [k|] eqn:Ek; [|discriminate]. cbn in H. inversion H; subst. apply IH in Ek. rewrite <- Ek. apply perm_swap. }
  induction l1 as [|x l1 IH]; intros l2 H; cbn in H; [destruct l2; [constructor|discriminate]|].
  destruct (takeb eqb x l2) as [k|] eqn:Ek; [|discriminate]. apply IH in H. apply T in Ek. rewrite <- Ek. now constructor.
Qed.
Definition nodupb (l : list Z) : bool := if list_eq_dec Z.eq_dec (nodup Z.eq_dec l) l then true else false.
Lemma nodupb_ok (l : list Z) : nodupb l = true -> NoDup l.
Proof. unfold nodupb. destruct (list_eq_dec Z.eq_dec (nodup Z.eq_dec l) l) as [<-|]; [|discriminate]. intros _. apply NoDup_nodup. Qed.
Definition vrec_eqb (x y : Z * (Z * Z)) : bool := Z.eqb (fst x) (fst y) && Z.eqb (fst (snd x)) (fst (snd y)) && Z.eqb (snd (snd x)) (snd (snd y)).
Definition zlist_eqb (x y : list Z) : bool := if list_eq_dec Z.eq_dec x y then true else false.
Definition erec_eqb (x y : edge_input * Z) : bool := Z.eqb (fst (fst x)) (fst (fst y)) && zlist_eqb (snd (fst x)) (snd (fst y)) && Z.eqb (snd x) (snd y).
Definition validb (hg : bool) (p : pdesc) : bool :=
  nodupb (pd_verts p) && (length (pd_vws p) <=? length (pd_verts p)) && (length (pd_tys p) <=? 7) &&
  forallb (fun ty : type_input => (match snd ty with [] => true | ws => length ws =? length (fst ty) end) && (hg || forallb (fun e : edge_input => length (snd e) =? 2) (fst ty))) (pd_tys p).
Definition holdsb (own : Z -> nat) (V : list (Z * (Z * Z))) (T : list (list (edge_input * Z))) (r : nat) (p : pdesc) : bool :=
  validb true p && (length (pd_oo p) =? length (pd_verts p)) && permb vrec_eqb (vrecs p) (filter (fun v => Nat.eqb (own (fst v)) r) V) &&
  (length (pd_tys p) =? length T) && forallb (fun tE => permb erec_eqb (erecs (fst tE)) (filter (touches own r) (snd tE))) (combine (pd_tys p) T) &&
  forallb (fun v => match zfind (pd_owns p) v with Some o => Z.eqb o (Z.of_nat (own v)) | None => false end) (ghosts_of (pd_verts p) (pd_tys p)).
Definition distributedb (own : Z -> nat) (V : list (Z * (Z * Z))) (T : list (list (edge_input * Z))) (ps : list pdesc) : bool :=
  nodupb (map fst V) &&
  forallb (fun E => nodupb (map (fun e : edge_input * Z => fst (fst e)) E) && forallb (fun e : edge_input * Z => forallb (fun v => existsb (Z.eqb v) (map fst V)) (snd (fst e))) E) T &&
  forallb (fun v => own v <? length ps) (map fst V) && forallb (fun rp => holdsb own V T (fst rp) (snd rp)) (combine (seq 0 (length ps)) ps).
Lemma validb_ok hg p : validb hg p = true -> valid_input hg (pd_verts p) (pd_vws p) (pd_tys p).
Proof.
  unfold validb. rewrite !andb_true_iff, !Nat.leb_le. intros (((A & B) & C) & D). split; [now apply nodupb_ok|]. split; auto. split; auto.
  rewrite forallb_forall in D. intros es ws H. specialize (D _ H). apply andb_true_iff in D as (D1 & D2). cbn [fst snd] in *. split.
  - destruct ws; auto. right. now apply Nat.eqb_eq.
  - intros -> e He. cbn in D2. rewrite forallb_forall in D2. now apply Nat.eqb_eq, D2.
Qed.
Lemma distributedb_ok own V T ps : distributedb own V T ps = true -> distributed own V T ps.
Proof.
  unfold distributedb. rewrite !andb_true_iff. intros (((A & B) & C) & D). rewrite forallb_forall in B, C, D. split; [split|split].
  - now apply nodupb_ok.
  - intros E HE. specialize (B E HE). apply andb_true_iff in B as (B1 & B2). split; [now apply nodupb_ok|]. rewrite forallb_forall in B2. intros e v He Hv.
    specialize (B2 e He). rewrite forallb_forall in B2. specialize (B2 v Hv). apply existsb_exists in B2 as (u & Hu & Eu). apply Z.eqb_eq in Eu. now subst.
  - intros v Hv. now apply Nat.ltb_lt, C.
  - intros r p Hp. assert (Hin : In (r, p) (combine (seq 0 (length ps)) ps)).
    { apply (nth_error_In _ r). apply combine_nth_error; auto. apply nth_error_seq. apply nth_error_Some. congruence. }
    specialize (D _ Hin). cbn [fst snd] in D. unfold holdsb in D. rewrite !andb_true_iff in D. destruct D as (((((D1 & D2) & D3) & D4) & D5) & D6).
    split; [now apply validb_ok|]. split; [now apply Nat.eqb_eq|]. split; [|split; [now apply Nat.eqb_eq|split]].
    + apply (permb_ok _ vrec_eqb); auto. intros (a, (b, c)) (d, (e, f)). unfold vrec_eqb. cbn. rewrite !andb_true_iff, !Z.eqb_eq. intros ((-> & ->) & ->). reflexivity.
    + intros t ty E Ht HE. rewrite forallb_forall in D5. assert (I : In (ty, E) (combine (pd_tys p) T)) by (apply (nth_error_In _ t); now apply combine_nth_error).
      specialize (D5 _ I). cbn [fst snd] in D5. apply (permb_ok _ erec_eqb); auto. intros ((a, b), c) ((d, e), f). unfold erec_eqb, zlist_eqb. cbn [fst snd]. rewrite !andb_true_iff, !Z.eqb_eq.
      destruct (list_eq_dec Z.eq_dec b e) as [->|]; intros ((-> & X) & ->); [reflexivity|discriminate X].
    + intros v Hv. rewrite forallb_forall in D6. specialize (D6 v Hv). destruct (zfind (pd_owns p) v); [|discriminate]. apply Z.eqb_eq in D6. now subst.
Qed.
(** executable forms of the side conditions on plans *)
Definition callsb (ps : list pdesc) (calls : list (list plan_op)) : bool :=
  forallb (fun pc : pdesc * list plan_op => forallb (fun o => match o with Ins l d => (l <? length (pd_verts (fst pc))) && Z.leb 0 d && Z.ltb d (Z.of_nat (length ps)) | Clr => true end) (snd pc)) (combine ps calls).
Definition movedb (own' : Z -> nat) (ps : list pdesc) (calls : list (list plan_op)) : bool :=
  forallb (fun x => forallb (fun lv : nat * Z => match planned (snd (snd x)) (fst lv) with Some d => Z.eqb d (Z.of_nat (own' (snd lv))) | None => own' (snd lv) =? fst x end)
                      (combine (seq 0 (length (pd_verts (fst (snd x))))) (pd_verts (fst (snd x))))) (combine (seq 0 (length ps)) (combine ps calls)).
Lemma movedb_ok own' ps calls : movedb own' ps calls = true -> moved_to own' ps calls.
Proof.
  unfold movedb. rewrite forallb_forall. intros H r p cs l v Hp Hc Hl.
  assert (I : In (r, (p, cs)) (combine (seq 0 (length ps)) (combine ps calls))).
  { apply (nth_error_In _ r). apply combine_nth_error; [|now apply combine_nth_error]. apply nth_error_seq. apply nth_error_Some. congruence. }
  specialize (H _ I). cbn [fst snd] in H. rewrite forallb_forall in H.
  assert (J : In (l, v) (combine (seq 0 (length (pd_verts p))) (pd_verts p))).
  { apply (nth_error_In _ l). apply combine_nth_error; auto. apply nth_error_seq. apply nth_error_Some. congruence. }
  specialize (H _ J). cbn [fst snd] in H. destruct (planned cs l); [now apply Z.eqb_eq|now apply Nat.eqb_eq].
Qed.
Lemma ready_check hg fuel ps calls mps : run_plans hg fuel ps calls = Some mps -> callsb ps calls = true -> length calls = length ps ->
  forallb (validb hg) ps = true -> ready hg fuel ps calls mps.
Proof.
  intros E H L HV. unfold callsb in H. rewrite forallb_forall in H, HV.
  assert (G : forall r p cs o, nth_error ps r = Some p -> nth_error calls r = Some cs -> In o cs -> match o with Ins l d => l < length (pd_verts p) /\ (0 <= d < Z.of_nat (length ps))%Z | Clr => True end).
  { intros r p cs o Hp Hc Ho. assert (I : In (p, cs) (combine ps calls)) by (apply (nth_error_In _ r); now apply combine_nth_error).
    specialize (H _ I). cbn [fst snd] in H. rewrite forallb_forall in H. specialize (H o Ho). destruct o; auto. rewrite !andb_true_iff, Nat.ltb_lt, Z.leb_le, Z.ltb_lt in H. tauto. }
  apply (run_plans_ready hg fuel ps calls mps E).
  - intros cs o Hc Ho. apply In_nth_error in Hc as (r & Hc). assert (r < length calls) by (apply nth_error_Some; congruence).
    destruct (nth_error ps r) as [p|] eqn:Hp; [|apply nth_error_None in Hp; lia]. specialize (G r p cs o Hp Hc Ho). destruct o; tauto.
  - intros r p cs l d Hp Hc Ho. now destruct (G r p cs _ Hp Hc Ho).
  - intros p Hp. now apply validb_ok, HV.
Qed.

(** a concrete case of C16, C17, C19: two parts, three edges, both parts exchange vertices *)
Definition ex_V : list (Z * (Z * Z)) := [(1, (5, 0)); (2, (6, 0)); (3, (7, 1)); (4, (1, 1))]%Z.
Definition ex_E : list (edge_input * Z) := [((100, [1; 2]), 2); ((101, [2; 3; 4]), 3); ((102, [4; 1; 3; 4]), 4)]%Z.
Definition ex_ps : list pdesc :=
  [mkPD [1; 2]%Z [5; 6]%Z [([(100, [1; 2]); (101, [2; 3; 4]); (102, [4; 1; 3; 4])], [2; 3; 4])]%Z [(3, 1); (4, 1)]%Z [0; 0]%Z;
   mkPD [3; 4]%Z [7]%Z [([(101, [2; 3; 4]); (102, [4; 1; 3; 4])], [3; 4])]%Z [(1, 0); (2, 0)]%Z [1; 1]%Z].
Definition ex_calls : list (list plan_op) := [[Ins 0 0; Ins 0 1; Ins 1 0]; [Clr; Ins 1 0]]%Z.
Definition ex_own (v : Z) : nat := if Z.leb v 2 then 0 else 1.
Definition ex_own' (v : Z) : nat := if Z.eqb v 2 || Z.eqb v 4 then 0 else 1.
Example C16_C17_C19_example : exists mps, run_plans true 200 ex_ps ex_calls = Some mps /\
  distributed ex_own ex_V [ex_E] ex_ps /\ ready true 200 ex_ps ex_calls mps /\ moved_to ex_own' ex_ps ex_calls /\ big_enough 200 ex_V [ex_E] /\
  (sts <- run_migrate 200 mps ;; mapM (verts_seen 20) sts) = Some [[(2, (6, 0)); (4, (1, 1))]; [(3, (7, 1)); (1, (5, 0))]]%Z /\
  (sts <- run_migrate 200 mps ;; mapM (edges_seen 20 0) sts) = Some [[(101, [2; 3; 4]); (100, [1; 2]); (102, [4; 1; 3; 4])]; [(100, [1; 2]); (102, [4; 1; 3; 4]); (101, [2; 3; 4])]]%Z /\
  (sts <- run_migrate 200 mps ;; mapM (ghosts_seen 20) sts) = Some [[(3, 1); (1, 1)]; [(2, 0); (4, 0)]]%Z.
Proof.
  destruct (run_plans true 200 ex_ps ex_calls) as [mps|] eqn:E; [|vm_compute in E; discriminate].
  exists mps. split; [reflexivity|]. split; [apply distributedb_ok; vm_compute; reflexivity|].
  split; [apply ready_check; [exact E|vm_compute; reflexivity..]|]. split; [apply movedb_ok; vm_compute; reflexivity|].
  split; [split; [cbn; lia|]; intros e [<-|[]]; vm_compute; lia|].
  vm_compute in E. inversion E; subst mps. repeat split; vm_compute; reflexivity.
Qed.

(** Several types: the edges of the other types that touch a moving vertex are lost, and copies of type-0 edges
    are added to the other types. *)
Definition c17_V : list (Z * (Z * Z)) := [(1, (1, 0)); (2, (1, 0))]%Z.
Definition c17_T : list (list (edge_input * Z)) := [[((100, [1; 2]), 1)]; [((200, [1; 2]), 1)]]%Z.
Definition c17_ps : list pdesc := [mkPD [1; 2]%Z [] [([(100, [1; 2])], []); ([(200, [1; 2])], [])]%Z [] [0; 0]%Z; mkPD [] [] [([], []); ([], [])] [] []].
Definition c17_calls : list (list plan_op) := [[Ins 0 1]; []]%Z.
Theorem C17_other_types_refuted : exists mps sts', run_plans true 20 c17_ps c17_calls = Some mps /\
  distributed (fun _ => 0) c17_V c17_T c17_ps /\ ready true 20 c17_ps c17_calls mps /\
  run_migrate 20 mps = Some sts' /\ (forall Q, migrate 20 mps Q -> Q sts') /\
  mapM (edges_seen 20 1) sts' = Some [[(100, [1; 2])]; [(100, [1; 2])]]%Z.
Proof.
  destruct (run_plans true 20 c17_ps c17_calls) as [mps|] eqn:E; [|vm_compute in E; discriminate].
  destruct (run_migrate 20 mps) as [sts'|] eqn:Er; [|vm_compute in E; inversion E; subst mps; vm_compute in Er; discriminate].
  exists mps, sts'. split; [reflexivity|]. split; [apply distributedb_ok; vm_compute; reflexivity|].
  split; [apply ready_check; [exact E|vm_compute; reflexivity..]|]. split; [exact Er|]. split; [intros Q HQ; eapply run_migrate_sound; eauto|].
  vm_compute in E; inversion E; subst mps; vm_compute in Er; inversion Er; subst sts'. vm_compute. reflexivity.
Qed.
Print Assumptions C17_other_types_refuted.

(* ------------------------------------------------------------------ *)
(** ** C18: traditional graphs.  A directed edge between two vertices of one part is lost when its target moves and
    its source stays. *)
Definition c18_ps : list pdesc := [mkPD [1; 2]%Z [] [([(100, [1; 2])], [])]%Z [] [0; 0]%Z; mkPD [] [] [([], [])] [] []].
Definition c18_calls : list (list plan_op) := [[Ins 1 1]; []]%Z.
Theorem C18_local_edge_refuted : exists mps sts sts', build_all false c18_ps = Some sts /\ run_plans false 20 c18_ps c18_calls = Some mps /\
  ready false 20 c18_ps c18_calls mps /\ mapM (edges_seen 20 0) sts = Some [[(0, [1; 2])]; []]%Z /\
  run_migrate 20 mps = Some sts' /\ (forall Q, migrate 20 mps Q -> Q sts') /\ mapM (edges_seen 20 0) sts' = Some [[]; []].
Proof.
  destruct (build_all false c18_ps) as [sts|] eqn:Eb; [|vm_compute in Eb; discriminate].
  destruct (run_plans false 20 c18_ps c18_calls) as [mps|] eqn:E; [|vm_compute in E; discriminate].
  destruct (run_migrate 20 mps) as [sts'|] eqn:Er; [|vm_compute in E; inversion E; subst mps; vm_compute in Er; discriminate].
  exists mps, sts, sts'. split; [reflexivity|]. split; [reflexivity|]. split; [apply ready_check; [exact E|vm_compute; reflexivity..]|].
  split; [vm_compute in Eb; inversion Eb; vm_compute; reflexivity|]. split; [exact Er|]. split; [intros Q HQ; eapply run_migrate_sound; eauto|].
  vm_compute in E; inversion E; subst mps; vm_compute in Er; inversion Er; subst sts'. vm_compute. reflexivity.
Qed.
Print Assumptions C18_local_edge_refuted.

(* ------------------------------------------------------------------ *)
(** ** C19: ghost owners; hypergraphs with one edge type *)
Theorem C19_ghost_owners_partial : forall own own' V E0 ps calls sts fuel,
  distributed own V [E0] ps -> ready true fuel ps calls sts -> moved_to own' ps calls -> big_enough fuel V [E0] ->
  migrate fuel sts (fun sts' => length sts' = length ps /\ forall r s' l v,
    nth_error sts' r = Some s' -> vgid (fst s') (getVertex l) = Some v -> owner (fst s') (getVertex l) = Some (Z.of_nat (own' v))).
Proof.
  intros own own' V E0 ps calls sts fuel HD HR HM HB. eapply migrate_mono; [|apply (one_step own own' V E0 ps calls sts fuel HD HR HM HB)].
  intros sts' (ps' & L1 & L2 & HD' & H). split; auto. intros r s' l v Hs Hl.
  destruct (nth_error ps' r) as [p'|] eqn:Hp; [|apply nth_error_None in Hp; assert (r < length sts') by (apply nth_error_Some; congruence); lia].
  destruct (H r p' s' Hp Hs) as (B & _). pose proof HD' as (_ & _ & HH). destruct (HH r p' Hp) as (HV & Lo & PV & Lt & PE & HG).
  pose proof (p_constructed _ _ _ _ _ _ _ HV B) as HC.
  assert (Ha : nth_error (pd_verts p' ++ ghosts_of (pd_verts p') (pd_tys p')) l = Some v).
  { destruct (nth_error (pd_verts p' ++ ghosts_of (pd_verts p') (pd_tys p')) l) as [u|] eqn:Eu.
    - rewrite (c_vgid _ _ _ _ _ _ HC l u Eu) in Hl. congruence.
    - apply nth_error_None in Eu. exfalso. revert Hl. unfold vgid, getVertex. rewrite Nat.add_1_r. cbn [vlid obind].
      destruct (part_rep _ _ _ _ _ _ _ HV B) as (R & _). rewrite app_length in Eu. rewrite (rp_nlv _ _ _ _ _ R), (rp_gun _ _ _ _ _ R).
      replace (length (pd_verts p') <=? l) with true by (symmetry; apply Nat.leb_le; lia). unfold aget, ainit. rewrite nth_error_map.
      destruct (nth_error (ghosts_of (pd_verts p') (pd_tys p')) (l - length (pd_verts p'))) eqn:En; [|discriminate].
      assert (l - length (pd_verts p') < length (ghosts_of (pd_verts p') (pd_tys p'))) by (apply nth_error_Some; congruence). lia. }
  rewrite (p_owner _ _ _ _ _ _ _ HV B l v Ha). unfold part_of. destruct (in_dec Z.eq_dec v (pd_verts p')) as [Hv|Hv].
  - f_equal. apply (in_verts own' V E0 [] ps' HD' r p' v Hp) in Hv as (_ & ->). reflexivity.
  - rewrite (HG v); auto. apply nth_error_In, in_app_iff in Ha. tauto.
Qed.
Print Assumptions C19_ghost_owners_partial.

(** With a second edge type, or in a traditional graph, the owner recorded for a ghost goes stale: vertex 2 moves from
    part 1 to part 2, part 0 still believes it is on part 1. *)
Definition c19_V : list (Z * (Z * Z)) := [(1, (1, 0)); (2, (1, 1))]%Z.
Definition c19_T : list (list (edge_input * Z)) := [[]; [((100, [1; 2]), 1)]]%Z.
Definition c19_ps : list pdesc := [mkPD [1]%Z [] [([], []); ([(100, [1; 2])], [])]%Z [(2, 1)]%Z [0]%Z;
                                   mkPD [2]%Z [] [([], []); ([(100, [1; 2])], [])]%Z [(1, 0)]%Z [1]%Z; mkPD [] [] [([], []); ([], [])] [] []].
Definition c19_calls : list (list plan_op) := [[]; [Ins 0 2]; []]%Z.
Theorem C19_other_types_refuted : exists mps sts', run_plans true 20 c19_ps c19_calls = Some mps /\
  distributed (fun v => if Z.eqb v 1 then 0 else 1) c19_V c19_T c19_ps /\ ready true 20 c19_ps c19_calls mps /\
  run_migrate 20 mps = Some sts' /\ (forall Q, migrate 20 mps Q -> Q sts') /\
  mapM (verts_seen 20) sts' = Some [[(1, (1, 0))]; []; [(2, (1, 1))]]%Z /\ mapM (ghosts_seen 20) sts' = Some [[(2, 1)]; []; []]%Z.
Proof.
  destruct (run_plans true 20 c19_ps c19_calls) as [mps|] eqn:E; [|vm_compute in E; discriminate].
  destruct (run_migrate 20 mps) as [sts'|] eqn:Er; [|vm_compute in E; inversion E; subst mps; vm_compute in Er; discriminate].
  exists mps, sts'. split; [reflexivity|]. split; [apply distributedb_ok; vm_compute; reflexivity|].
  split; [apply ready_check; [exact E|vm_compute; reflexivity..]|]. split; [exact Er|]. split; [intros Q HQ; eapply run_migrate_sound; eauto|].
  vm_compute in E; inversion E; subst mps; vm_compute in Er; inversion Er; subst sts'. split; vm_compute; reflexivity.
Qed.
Print Assumptions C19_other_types_refuted.
Definition c19t_ps : list pdesc := [mkPD [1]%Z [] [([(100, [1; 2])], [])]%Z [(2, 1)]%Z [0]%Z; mkPD [2]%Z [] [([], [])] [] [1]%Z; mkPD [] [] [([], [])] [] []].
Theorem C19_traditional_refuted : exists mps sts', run_plans false 20 c19t_ps c19_calls = Some mps /\ ready false 20 c19t_ps c19_calls mps /\
  run_migrate 20 mps = Some sts' /\ (forall Q, migrate 20 mps Q -> Q sts') /\
  mapM (verts_seen 20) sts' = Some [[(1, (1, 0))]; []; [(2, (1, 1))]]%Z /\ mapM (ghosts_seen 20) sts' = Some [[(2, 1)]; []; []]%Z.
Proof.
  destruct (run_plans false 20 c19t_ps c19_calls) as [mps|] eqn:E; [|vm_compute in E; discriminate].
  destruct (run_migrate 20 mps) as [sts'|] eqn:Er; [|vm_compute in E; inversion E; subst mps; vm_compute in Er; discriminate].
  exists mps, sts'. split; [reflexivity|].
  split; [apply ready_check; [exact E|vm_compute; reflexivity..]|]. split; [exact Er|]. split; [intros Q HQ; eapply run_migrate_sound; eauto|].
  vm_compute in E; inversion E; subst mps; vm_compute in Er; inversion Er; subst sts'. split; vm_compute; reflexivity.
Qed.
Print Assumptions C19_traditional_refuted.
(** A graph without edge types cannot be migrated: the neighbours of a planned vertex are read from edge type 0,
    which does not exist (undefined behaviour). *)
Definition c19n_ps : list pdesc := [mkPD [1]%Z [] [] [] [0]%Z; mkPD [] [] [] [] []].
Theorem C16_no_edge_type_refuted : exists mps, run_plans true 20 c19n_ps [[Ins 0 1]; []]%Z = Some mps /\
  ready true 20 c19n_ps [[Ins 0 1]; []]%Z mps /\ distributed (fun _ => 0) [(1, (1, 0))]%Z [] c19n_ps /\ forall Q, ~ migrate 20 mps Q.
Proof.
  destruct (run_plans true 20 c19n_ps [[Ins 0 1]; []]%Z) as [mps|] eqn:E; [|vm_compute in E; discriminate].
  exists mps. split; [reflexivity|]. split; [apply ready_check; [exact E|vm_compute; reflexivity..]|]. split; [apply distributedb_ok; vm_compute; reflexivity|].
  vm_compute in E; inversion E; subst mps. intros Q (s0 & E0 & s1 & E1 & _). vm_compute in E0. inversion E0; subst s0. vm_compute in E1. discriminate.
Qed.
Print Assumptions C16_no_edge_type_refuted.

(* ------------------------------------------------------------------ *)
(** ** C20 *)
(** getPartition: part q learns exactly the vertices whose original owner is q, with the part each one is on *)
Theorem C20_getPartition : forall hg fuel ps sts, length sts = length ps ->
  (forall r p s, nth_error ps r = Some p -> nth_error sts r = Some s ->
    built_from hg r p s /\ valid_input hg (pd_verts p) (pd_vws p) (pd_tys p) /\ length (pd_oo p) = length (pd_verts p) /\ length (pd_verts p) < fuel) ->
  NoDup (flat_map pd_verts ps) ->
  (forall p o, In p ps -> In o (pd_oo p) -> (0 <= o < Z.of_nat (length ps))%Z) ->
  getPartition fuel sts (fun ms => length ms = length ps /\ forall q m, nth_error ms q = Some m -> forall v r,
    zfind m v = Some r <-> exists i p l, r = Z.of_nat i /\ nth_error ps i = Some p /\ nth_error (pd_verts p) l = Some v /\ nth_error (pd_oo p) l = Some (Z.of_nat q)).
Proof. intros hg fuel ps sts L H. apply (getPartition_ok hg). split; auto. Qed.
Print Assumptions C20_getPartition.
(** repartition: every vertex goes to the part the array names *)
Theorem C20_repartition_partial : forall own own' V E0 ps sts fuel, distributed own V [E0] ps -> big_enough fuel V [E0] -> length sts = length ps ->
  (forall r p s, nth_error ps r = Some p -> nth_error sts r = Some s ->
     build_part (Z.of_nat r) true (pd_verts p) (pd_vws p) (pd_tys p) (pd_owns p) = Some (fst (fst s)) /\
     (snd (fst s) = Some (ainit (pd_oo p)) \/ snd (fst s) = None /\ pd_oo p = repeat (Z.of_nat r) (length (pd_verts p))) /\
     snd s = map (fun v => Z.of_nat (own' v)) (pd_verts p)) ->
  (forall v, In v (map fst V) -> own' v < length ps) ->
  repartition fuel sts (fun sts' => exists ps', length ps' = length ps /\ length sts' = length ps /\ distributed own' V [E0] ps' /\
    forall r p' s', nth_error ps' r = Some p' -> nth_error sts' r = Some s' -> built_from true r p' s').
Proof. exact repartition_ok. Qed.
Print Assumptions C20_repartition_partial.
(** Together: the partition map of the current distribution, used to repartition a fresh copy of the graph in its
    original distribution, reproduces the current distribution. *)
Theorem C20_roundtrip_partial : forall own own0 V E0 ps sts ps0 fuel,
  distributed own V [E0] ps -> big_enough fuel V [E0] -> length sts = length ps ->
  (forall r p s, nth_error ps r = Some p -> nth_error sts r = Some s -> built_from true r p s) ->
  distributed own0 V [E0] ps0 -> length ps0 = length ps -> (forall x, In x V -> snd (snd x) = Z.of_nat (own0 (fst x))) ->
  getPartition fuel sts (fun ms => forall fresh, length fresh = length ps ->
    (forall r p0 m s, nth_error ps0 r = Some p0 -> nth_error ms r = Some m -> nth_error fresh r = Some s ->
       build_part (Z.of_nat r) true (pd_verts p0) (pd_vws p0) (pd_tys p0) (pd_owns p0) = Some (fst (fst s)) /\
       snd (fst s) = None /\ mapM (zfind m) (pd_verts p0) = Some (snd s)) ->
    repartition fuel fresh (fun sts' => exists ps', length ps' = length ps /\ length sts' = length ps /\ distributed own V [E0] ps' /\
      forall r p' s', nth_error ps' r = Some p' -> nth_error sts' r = Some s' -> built_from true r p' s')).
Proof.
  intros own own0 V E0 ps sts ps0 fuel HD HB L HBF HD0 L0 HO.
  assert (OO : forall r p l v o, nth_error ps r = Some p -> nth_error (pd_verts p) l = Some v -> nth_error (pd_oo p) l = Some o -> o = Z.of_nat (own0 v) /\ own v = r /\ In v (map fst V)).
  { intros r p l v o Hp Hv Ho. assert (Hin : exists w, In (v, (w, o)) (vrecs p)).
    { pose proof HD as (_ & _ & HH). destruct (HH r p Hp) as ((_ & Lw & _) & Lo & _). assert (l < length (pd_verts p)) by (apply nth_error_Some; congruence).
      destruct (nth_error (vweights p) l) as [w|] eqn:Ew; [|apply nth_error_None in Ew; unfold vweights in Ew; rewrite app_length, repeat_length in Ew; lia].
      exists w. apply (nth_error_In _ l). unfold vrecs. apply combine_nth_error; auto. now apply combine_nth_error. }
    destruct Hin as (w & Hin). apply (in_vrecs own V E0 [] ps HD r p _ Hp) in Hin as (Hin & Eo). split; [exact (HO _ Hin)|]. split; auto. now apply (in_map fst) in Hin. }
  eapply phase_mono; [|apply (getPartition_ok true fuel ps sts)].
  - intros ms (Lm & Hm) fresh Lf HF. rewrite <- L0. apply (repartition_ok own0 own V E0 ps0 fresh fuel HD0 HB); [congruence| |].
    + intros r p0 s Hp Hs. destruct (nth_error ms r) as [m|] eqn:Em; [|apply nth_error_None in Em; assert (r < length ps0) by (apply nth_error_Some; congruence); lia].
      destruct (HF r p0 m s Hp Em Hs) as (B & En & Epart). split; auto. split.
      * right. split; auto. pose proof HD0 as (_ & _ & HH). destruct (HH r p0 Hp) as ((_ & Lw & _) & Lo & _).
        apply nth_ext_error. intros l. destruct (lt_dec l (length (pd_verts p0))) as [Hl|Hl].
        -- destruct (nth_error (pd_verts p0) l) as [v|] eqn:Ev; [|apply nth_error_None in Ev; lia]. destruct (nth_error (pd_oo p0) l) as [o|] eqn:Eo; [|apply nth_error_None in Eo; lia].
           destruct (nth_error (vweights p0) l) as [w|] eqn:Ew; [|apply nth_error_None in Ew; unfold vweights in Ew; rewrite app_length, repeat_length in Ew; lia].
           assert (Hin : In (v, (w, o)) (vrecs p0)) by (apply (nth_error_In _ l); unfold vrecs; apply combine_nth_error; auto; now apply combine_nth_error).
           apply (in_vrecs own0 V E0 [] ps0 HD0 r p0 _ Hp) in Hin as (Hin & Er). apply HO in Hin. cbn [fst snd] in *. subst o. rewrite Er.
           symmetry. now apply nth_error_repeat.
        -- rewrite !(proj2 (nth_error_None _ _)); auto; [rewrite repeat_length; lia|lia].
      * assert (X : mapM (zfind m) (pd_verts p0) = Some (map (fun v => Z.of_nat (own v)) (pd_verts p0))).
        { apply mapM_some. intros v Hv. apply (in_verts own0 V E0 [] ps0 HD0 r p0 v Hp) in Hv as (Hv & Eo). apply (Hm r m Em).
          pose proof HD as (_ & HR & HH). specialize (HR v Hv). destruct (nth_error ps (own v)) as [p|] eqn:Ep; [|apply nth_error_None in Ep; lia].
          assert (Hin : In v (pd_verts p)) by (apply (in_verts own V E0 [] ps HD _ p v Ep); auto). apply In_nth_error in Hin as (l & Hl).
          destruct (HH _ p Ep) as (_ & Lo & _). destruct (nth_error (pd_oo p) l) as [o|] eqn:Eoo; [|apply nth_error_None in Eoo; assert (l < length (pd_verts p)) by (apply nth_error_Some; congruence); lia].
          exists (own v), p, l. repeat split; auto. destruct (OO _ p l v o Ep Hl Eoo) as (X & _). congruence. }
        congruence.
    + intros v Hv. rewrite L0. now apply HD.
  - split; auto. intros r p s Hp Hs. split; [now apply (HBF r p s Hp Hs)|]. pose proof HD as (_ & _ & HH). destruct (HH r p Hp) as (HV & Lo & _). split; auto. split; auto.
    apply (fuel_global own V [E0] ps fuel p HD HB). eapply nth_error_In; eauto.
  - apply NoDup_flat_map_parts. intros i p Hi. split.
    + pose proof HD as (_ & _ & HH). now destruct (HH i p Hi) as ((N & _) & _).
    + intros j q v Hj Hv Hw. apply (in_verts own V E0 [] ps HD i p v Hi) in Hv as (_ & <-). apply (in_verts own V E0 [] ps HD j q v Hj) in Hw as (_ & <-). reflexivity.
  - intros p o Hp Ho. apply In_nth_error in Hp as (r & Hp). apply In_nth_error in Ho as (l & Ho). pose proof HD as (_ & _ & HH). destruct (HH r p Hp) as (_ & Lo & _).
    destruct (nth_error (pd_verts p) l) as [v|] eqn:Ev; [|apply nth_error_None in Ev; assert (l < length (pd_oo p)) by (apply nth_error_Some; congruence); lia].
    destruct (OO r p l v o Hp Ev Ho) as (-> & _ & Hv). destruct HD0 as (_ & HR0 & _). specialize (HR0 v Hv). lia.
Qed.
Print Assumptions C20_roundtrip_partial.
(** a concrete case: the distribution after the migration of the example above, and the original one *)
Example C20_example : exists mps sts ms fresh, run_plans true 200 ex_ps ex_calls = Some mps /\ run_migrate 200 mps = Some sts /\
  (forall Q, getPartition 200 sts Q -> Q ms) /\ ms = [[(1, 1); (2, 0)]; [(3, 1); (4, 0)]]%Z /\
  distributed ex_own ex_V [ex_E] ex_ps /\ (forall x, In x ex_V -> snd (snd x) = Z.of_nat (ex_own (fst x))) /\
  map snd fresh = [[1; 0]; [1; 0]]%Z /\ map (fun s => snd (fst s)) fresh = [None; None] /\
  (sts' <- (m2 <- mapM (repart_plan 200) fresh ;; run_migrate 200 m2) ;; mapM (verts_seen 20) sts') = Some [[(2, (6, 0)); (4, (1, 1))]; [(3, (7, 1)); (1, (5, 0))]]%Z.
Proof.
  destruct (run_plans true 200 ex_ps ex_calls) as [mps|] eqn:E; [|vm_compute in E; discriminate].
  destruct (run_migrate 200 mps) as [sts|] eqn:Er; [|vm_compute in E; inversion E; subst mps; vm_compute in Er; discriminate].
  destruct (run_phase (part_send 200) part_recv sts) as [ms|] eqn:Em; [|vm_compute in E; inversion E; subst mps; vm_compute in Er; inversion Er; subst sts; vm_compute in Em; discriminate].
  destruct (build_all true ex_ps) as [bs|] eqn:Eb; [|vm_compute in Eb; discriminate].
  exists mps, sts, ms, (combine (map (fun s : graph * arr Z => (fst s, @None (arr Z))) bs) [[1; 0]; [1; 0]]%Z).
  split; [reflexivity|]. split; [exact Er|]. split; [intros Q HQ; eapply run_phase_sound; eauto|].
  split; [vm_compute in E; inversion E; subst mps; vm_compute in Er; inversion Er; subst sts; vm_compute in Em; inversion Em; reflexivity|].
  split; [apply distributedb_ok; vm_compute; reflexivity|]. split; [intros x H; cbn in H; intuition (subst; reflexivity)|].
  vm_compute in Eb. inversion Eb; subst bs. repeat split; vm_compute; reflexivity.
Qed.
